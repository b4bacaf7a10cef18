(** The property statements for the integer functions, assembled from lemmas. *)
From Coq Require Import List ZArith Bool Lia ZifyBool.
From Verif Require Import Base MachInt M_Special S_Special P_MachInt P_Factorial P_Comb.
Import ListNotations.
Local Open Scope Z_scope.

Lemma C13_lemma pw t n :
  In pw pointer_widths -> In t (prim_types pw) -> in_range t n = true ->
  (n < 0 -> forall md, terminates_with (fun f => primint_factorial md pw t f n) (Ok 0)) /\
  (0 <= n -> zfact (Z.to_nat n) <= imax t -> forall md,
     terminates_with (fun f => primint_factorial md pw t f n) (Ok (zfact (Z.to_nat n)))) /\
  (0 <= n -> imax t < zfact (Z.to_nat n) ->
     terminates_with (fun f => primint_factorial Checked pw t f n) Panic).
Proof.
  intros Hp Ht Hr. pose proof (prim_wf pw t Hp Ht) as W.
  split; [|split].
  - intros H md. apply terminates_const; [discriminate|]. intros; apply factorial_neg; exact H.
  - intros H1 H2 md. apply terminates_const; [discriminate|]. intros; apply factorial_ok; assumption.
  - intros H1 H2. apply terminates_const; [discriminate|]. intros; apply factorial_panic; assumption.
Qed.

Lemma C13_wrapping_lemma pw t n :
  In pw pointer_widths -> In t (prim_types pw) -> 64 <= bits t ->
  0 <= n <= imax t -> n < imax (usize_t pw) ->
  terminates_with (fun f => primint_factorial Wrapping pw t f n) (Ok (wrap t (zfact (Z.to_nat n)))).
Proof.
  intros Hp Ht Hb Hn Hu. pose proof (prim_wf pw t Hp Ht) as W.
  apply terminates_const; [discriminate|]. intros f.
  assert (H16 : zfact 16 <= imax t).
  { unfold imax. assert (2 ^ 63 <= 2 ^ (bits t - 1)) by (apply Z.pow_le_mono_r; lia).
    assert (2 ^ 64 <= 2 ^ bits t) by (apply Z.pow_le_mono_r; lia).
    assert (zfact 16 <= 2 ^ 63 - 1) by (vm_compute; discriminate).
    assert (2 ^ 63 < 2 ^ 64) by reflexivity.
    destruct (signed t); lia. }
  destruct (Z_lt_ge_dec n 17) as [H|H].
  - assert (Hle : zfact (Z.to_nat n) <= imax t).
    { pose proof (zfact_le (Z.to_nat n) 16 ltac:(lia)). lia. }
    pose proof (zfact_pos (Z.to_nat n)). destruct (wf_bounds t W) as (B1 & B2 & _).
    rewrite wrap_id by (auto; lia). apply factorial_ok; auto; lia.
  - apply factorial_wrapping; auto; lia.
Qed.

Lemma C14_lemma pw t n :
  In pw pointer_widths -> In t (prim_types pw) -> in_range t n = true ->
  (n < 0 -> forall md, terminates_with (fun f => primint_factorial2 md pw t f n) (Ok 0)) /\
  (0 <= n -> kfact n 2 <= imax t -> forall md,
     terminates_with (fun f => primint_factorial2 md pw t f n) (Ok (kfact n 2))) /\
  (0 <= n -> imax t < kfact n 2 ->
     terminates_with (fun f => primint_factorial2 Checked pw t f n) Panic).
Proof.
  intros Hp Ht Hr. pose proof (prim_wf pw t Hp Ht) as W.
  split; [|split].
  - intros H md. apply terminates_const; [discriminate|]. intros; apply factorial2_neg; exact H.
  - intros H1 H2 md. apply factorial2_ok; assumption.
  - intros H1 H2. apply factorial2_panic; assumption.
Qed.

Lemma C15_lemma pw t n k :
  In pw pointer_widths -> In t (prim_types pw) -> in_range t n = true -> in_range t k = true ->
  (k <= 0 -> forall md, terminates_with (fun f => primint_factorialk md pw t f n k) Panic) /\
  (0 < k -> n < 0 -> forall md, terminates_with (fun f => primint_factorialk md pw t f n k) (Ok 0)) /\
  (0 < k -> 0 <= n -> kfact n k <= imax t -> n = 0 \/ k = 1 \/ n + k <= imax t -> forall md,
     terminates_with (fun f => primint_factorialk md pw t f n k) (Ok (kfact n k))) /\
  (0 < k -> 0 <= n -> imax t < kfact n k \/ (0 < n /\ k <> 1 /\ imax t < n + k) ->
     terminates_with (fun f => primint_factorialk Checked pw t f n k) Panic).
Proof.
  intros Hp Ht Hr Hk. pose proof (prim_wf pw t Hp Ht) as W.
  apply in_range_iff in Hr. apply in_range_iff in Hk.
  destruct (wf_bounds t W) as (B1 & B2 & _).
  split; [|split; [|split]].
  - intros H md. apply terminates_const; [discriminate|]. intros; apply factorialk_neg_k; exact H.
  - intros H1 H2 md. apply terminates_const; [discriminate|]. intros; apply factorialk_neg; assumption.
  - intros H1 H2 H3 H4 md. destruct (Z.eq_dec n 0) as [->|Hn0].
    + apply terminates_const; [discriminate|]. intros. rewrite kfact_nonpos by lia.
      apply factorialk_zero. exact H1.
    + apply factorialk_ok; auto; lia.
  - intros H1 H2 H3. destruct (Z.eq_dec n 0) as [->|Hn0].
    + rewrite kfact_nonpos in H3 by lia. lia.
    + apply factorialk_panic; auto; lia.
Qed.

Lemma C15_agree_lemma n : 0 <= n -> kfact n 1 = zfact (Z.to_nat n).
Proof. apply kfact_1. Qed.

Lemma C15_refuted_lemma :
  exists (pw : Z) (t : ity) (n k : Z),
    In pw pointer_widths /\ In t (prim_types pw) /\ in_range t n = true /\ in_range t k = true /\
    0 < k /\ 0 <= n /\ in_range t (kfact n k) = true /\
    terminates_with (fun f => primint_factorialk Checked pw t f n k) Panic /\
    (exists v, v <> kfact n k /\
       terminates_with (fun f => primint_factorialk Wrapping pw t f n k) (Ok v)).
Proof.
  exists 64, u8, 200, 200.
  assert (Hp : In 64 pointer_widths) by (simpl; auto).
  assert (Ht : In u8 (prim_types 64)) by (simpl; auto).
  repeat split; auto; try lia; try reflexivity.
  - discriminate.
  - destruct (C15_lemma 64 u8 200 200 Hp Ht eq_refl eq_refl) as (_ & _ & _ & H).
    destruct H as [_ [f0 H]]; [lia|lia| |exists f0; exact H].
    right. vm_compute. repeat split; congruence.
  - exists 0. split; [vm_compute; discriminate|]. split; [discriminate|].
    exists 40%nat. intros f Hf. replace f with (40 + (f - 40))%nat by lia.
    generalize (f - 40)%nat. intros g. cbn [Nat.add]. vm_compute. reflexivity.
Qed.

Lemma C15_diverges_lemma :
  forall pw t k, In pw pointer_widths -> In t (prim_types pw) -> 2 <= k <= imax t ->
  diverges (fun f => primint_factorialk Wrapping pw t f (imax t) k).
Proof. intros pw t k Hp Ht Hk. apply factorialk_diverges; [eapply prim_wf; eauto|exact Hk]. Qed.

Lemma C16_lemma pw t n k :
  In pw pointer_widths -> In t (prim_types pw) -> in_range t n = true -> in_range t k = true ->
  (n < 0 \/ k < 0 \/ n < k -> forall md, primint_comb md pw t n k = Ok 0) /\
  (forall c, is_binom n k c -> n < imax t -> Z.min k (n - k) * c <= imax t -> forall md,
     primint_comb md pw t n k = Ok c) /\
  (forall c, is_binom n k c -> n = imax t \/ imax t < Z.min k (n - k) * c ->
     primint_comb Checked pw t n k = Panic).
Proof.
  intros Hp Ht Hr Hk. pose proof (prim_wf pw t Hp Ht) as W. apply in_range_iff in Hr.
  split; [|split].
  - intros H md. apply comb_zero. lia.
  - intros c Hc H1 H2 md. apply comb_ok; assumption.
  - intros c Hc H. eapply comb_panic; eauto. lia.
Qed.

Lemma C16_refuted_lemma :
  exists (pw : Z) (t : ity) (n k c : Z),
    In pw pointer_widths /\ In t (prim_types pw) /\ in_range t n = true /\ in_range t k = true /\
    is_binom n k c /\ in_range t c = true /\
    primint_comb Checked pw t n k = Panic /\ primint_comb Wrapping pw t n k <> Ok c.
Proof.
  exists 64, u8, 10, 5, 252. repeat split; try (simpl; auto; fail); try lia; try reflexivity;
    try (vm_compute; discriminate).
Qed.

Lemma C17_lemma pw t n k :
  In pw pointer_widths -> In t (prim_types pw) -> in_range t n = true -> in_range t k = true ->
  (n <= 0 \/ k < 0 -> imin t < n + k \/ n + k = 0 -> forall md, primint_comb_rep md pw t n k = Ok 0) /\
  (n <= 0 \/ k < 0 -> n + k <= imin t -> n + k <> 0 -> primint_comb_rep Checked pw t n k = Panic) /\
  (forall c, is_multichoose n k c -> n + k <= imax t -> Z.min k (n - 1) * c <= imax t -> forall md,
     primint_comb_rep md pw t n k = Ok c) /\
  (forall c, is_multichoose n k c -> imax t < n + k \/ imax t < Z.min k (n - 1) * c ->
     primint_comb_rep Checked pw t n k = Panic).
Proof.
  intros Hp Ht Hr Hk. pose proof (prim_wf pw t Hp Ht) as W.
  apply in_range_iff in Hr. apply in_range_iff in Hk.
  destruct (wf_bounds t W) as (B1 & B2 & B3 & _).
  split; [|split; [|split]].
  - intros H [H2|H2] md; [apply comb_rep_zero; auto; lia|apply comb_rep_zero2; auto].
  - intros _ H2 H3. apply comb_rep_under; lia.
  - intros c Hc H1 H2 md. apply comb_rep_ok; assumption.
  - intros c Hc H. eapply comb_rep_panic; eauto.
Qed.

Lemma C17_refuted_lemma :
  exists (pw : Z) (t : ity) (n k : Z),
    In pw pointer_widths /\ In t (prim_types pw) /\ in_range t n = true /\ in_range t k = true /\
    n < k /\ forall md, primint_comb_rep md pw t n k = Ok 4.
Proof.
  exists 64, i32, 2, 3. repeat split; try (simpl; auto 10; fail); try lia.
Qed.

(** The value fits but the call does not return it. *)
Lemma C17_refuted2_lemma :
  exists (pw : Z) (t : ity) (n k c : Z),
    In pw pointer_widths /\ In t (prim_types pw) /\ in_range t n = true /\ in_range t k = true /\
    is_multichoose n k c /\ in_range t c = true /\ primint_comb_rep Checked pw t n k = Panic.
Proof.
  exists 64, u8, 1, 255, 1. repeat split; try (simpl; auto 10; fail); try lia.
Qed.

Lemma C18_lemma pw t n k :
  In pw pointer_widths -> In t (prim_types pw) -> in_range t n = true -> in_range t k = true ->
  (n < 0 \/ k < 0 \/ n < k -> forall md, primint_perm md pw t n k = Ok 0) /\
  (forall c, is_perm n k c -> c <= imax t -> n < imax t -> n < imax (usize_t pw) -> forall md,
     primint_perm md pw t n k = Ok c) /\
  (forall c, is_perm n k c -> imax t < c \/ n = imax t \/ imax (usize_t pw) <= n ->
     primint_perm Checked pw t n k = Panic).
Proof.
  intros Hp Ht Hr Hk. pose proof (prim_wf pw t Hp Ht) as W. apply in_range_iff in Hr.
  split; [|split].
  - intros H md. apply perm_zero. lia.
  - intros c Hc H1 H2 H3 md. apply perm_ok; assumption.
  - intros c Hc H. eapply perm_panic; eauto. lia.
Qed.

Lemma C18_refuted_lemma :
  exists (pw : Z) (t : ity) (n k c : Z),
    In pw pointer_widths /\ In t (prim_types pw) /\ in_range t n = true /\ in_range t k = true /\
    is_perm n k c /\ in_range t c = true /\ primint_perm Checked pw t n k = Panic.
Proof.
  exists 64, i8, 127, 1, 127. repeat split; try (simpl; auto 10; fail); try lia.
Qed.

Lemma C19_lemma pw t n k :
  In pw pointer_widths -> In t (prim_types pw) -> in_range t n = true -> in_range t k = true ->
  (n < 0 \/ k < 0 \/ n < k -> forall md,
     terminates_with (fun f => primint_stirling2 md t f n k) (Ok 0)) /\
  (forall c, is_stirling2 n k c -> c <= imax t -> forall md,
     terminates_with (fun f => primint_stirling2 md t f n k) (Ok c)) /\
  (forall c, is_stirling2 n k c -> imax t < c ->
     terminates_with (fun f => primint_stirling2 Checked t f n k) Panic) /\
  (forall c, is_stirling2 n k c ->
     terminates_with (fun f => primint_stirling2 Wrapping t f n k) (Ok (wrap t c))).
Proof.
  intros Hp Ht Hr Hk. pose proof (prim_wf pw t Hp Ht) as W.
  apply in_range_iff in Hr. apply in_range_iff in Hk.
  split; [|split; [|split]].
  - intros H md. split; [discriminate|]. exists 1%nat. intros f Hf.
    destruct f as [|f]; [lia|]. apply stirling2_zero. lia.
  - intros c Hc Hle md. pose proof (is_stirling2_st2 n k c Hc) as E. destruct Hc as (H1 & H2 & _).
    split; [discriminate|]. exists (S (Z.to_nat n)). intros f Hf. subst c.
    apply stirling2_ok; auto; lia.
  - intros c Hc Hgt. pose proof (is_stirling2_st2 n k c Hc) as E. destruct Hc as (H1 & H2 & _).
    split; [discriminate|]. exists (S (Z.to_nat n)). intros f Hf. subst c.
    destruct (stirling2_checked t W f n k) as [E|[E Hle]]; try lia. exact E.
  - intros c Hc. pose proof (is_stirling2_st2 n k c Hc) as E. destruct Hc as (H1 & H2 & _).
    split; [discriminate|]. exists (S (Z.to_nat n)). intros f Hf. subst c.
    apply stirling2_wrapping; auto; lia.
Qed.

Lemma C19_falling_lemma n x (S2 : nat -> Z) : 0 <= n ->
  (forall k, is_stirling2 n (Z.of_nat k) (S2 k)) ->
  zsum (map (fun k => S2 k * falling x k) (seq 0 (S (Z.to_nat n)))) = x ^ n.
Proof.
  intros Hn HS. rewrite <- (Z2Nat.id n Hn) at 2.
  rewrite <- (st2_falling_sum (Z.to_nat n) x (Z.to_nat n)) by lia.
  f_equal. apply map_ext. intros k. rewrite (is_stirling2_st2 _ _ _ (HS k)), Nat2Z.id. reflexivity.
Qed.
