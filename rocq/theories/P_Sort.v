(** An insertion sort, to show that the contract [is_sort] can be met. *)
From Coq Require Import List Permutation Sorted.
From Verif Require Import S_Design.
Import ListNotations.

Fixpoint insert {A} (le : A -> A -> bool) (x : A) (l : list A) : list A :=
  match l with [] => [x] | y :: m => if le x y then x :: l else y :: insert le x m end.
Definition isort (A : Type) (le : A -> A -> bool) (l : list A) : list A := fold_right (insert le) [] l.

Lemma insert_perm {A} (le : A -> A -> bool) x l : Permutation (x :: l) (insert le x l).
Proof.
  induction l as [|y m IH]; cbn; [apply Permutation_refl|]. destruct (le x y); [apply Permutation_refl|].
  rewrite perm_swap. apply perm_skip. exact IH.
Qed.
Lemma insert_sorted {A} (le : A -> A -> bool) x l :
  (forall a b, le a b = true \/ le b a = true) -> (forall a b c, le a b = true -> le b c = true -> le a c = true) ->
  StronglySorted (fun a b => le a b = true) l -> StronglySorted (fun a b => le a b = true) (insert le x l).
Proof.
  intros T Tr. induction 1 as [|y m Hm IH Hy]; cbn; [repeat constructor|]. destruct (le x y) eqn:L.
  - constructor; [constructor; assumption|]. constructor; [exact L|].
    apply Forall_forall. intros z Hz. rewrite Forall_forall in Hy. eapply Tr; [exact L|apply Hy, Hz].
  - constructor; [exact IH|]. apply Forall_forall. intros z Hz.
    apply (Permutation_in _ (Permutation_sym (insert_perm le x m))) in Hz. destruct Hz as [<-|Hz].
    + destruct (T x y); congruence.
    + rewrite Forall_forall in Hy. apply Hy, Hz.
Qed.
Lemma isort_is_sort : is_sort isort.
Proof.
  intros A le l. split.
  - induction l as [|x l IH]; [apply Permutation_refl|]. cbn [isort fold_right]. rewrite <- insert_perm. apply perm_skip. exact IH.
  - intros T Tr. induction l as [|x l IH]; [constructor|]. cbn [isort fold_right]. apply insert_sorted; assumption.
Qed.
