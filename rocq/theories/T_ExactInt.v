(** C04, C60: what the integer median and mean return, for every input of every primitive
    integer type and both overflow modes. *)
From Coq Require Import List Arith ZArith Permutation Sorted Lia Bool.
From Verif Require Import Base MachInt M_Stats S_Stats P_MachInt P_Median P_MeanInt.
Import ListNotations.
Local Open Scope Z_scope.

(** [v] is the value of type [t] that the integer [z] wraps around to. *)
Definition wraps_to (t : ity) (z v : Z) : Prop := in_range t v = true /\ v mod 2 ^ bits t = z mod 2 ^ bits t.

Lemma quot_in t v n : wf_ity t -> 0 < n -> in_range t v = true -> in_range t (Z.quot v n) = true.
Proof.
  intros W P Hv. apply in_range_iff in Hv. apply in_range_iff. destruct (wf_bounds t W) as (B1 & B2 & _).
  destruct (Z.le_ge_cases 0 v) as [Z0|Z0].
  - pose proof (Z.quot_pos v n Z0 P). pose proof (Z.quot_le_upper_bound v n v P). nia.
  - replace v with (- - v) in * by lia. rewrite Z.quot_opp_l by lia.
    pose proof (Z.quot_pos (- v) n). pose proof (Z.quot_le_upper_bound (- v) n (- v) P). nia.
Qed.
Lemma wraps_wrap t z : wf_ity t -> wraps_to t z (wrap t z).
Proof. intros W. split; [apply in_range_iff, wrap_range, W|apply wrap_mod, W]. Qed.

(** Even number of samples; [s] is the sorted sequence, [a] and [b] its two middle
    values.  A checked build panics exactly if a + b does not fit; a wrapping build halves
    the wrapped sum. *)
Theorem C04_median_int_exactly pw t y s a b :
  In pw pointer_widths -> In t (prim_types pw) ->
  Permutation y s -> StronglySorted Z.le s -> y <> [] -> Nat.Even (length y) ->
  nth_error s (length y / 2 - 1) = Some a -> nth_error s (length y / 2) = Some b ->
  (in_range t (a + b) = true -> forall md, median_int md t y = Ok (Z.quot (a + b) 2, length y)) /\
  (in_range t (a + b) = false -> median_int Checked t y = Panic) /\
  (exists v, wraps_to t (a + b) v /\ median_int Wrapping t y = Ok (Z.quot v 2, length y)).
Proof.
  intros Hp Ht Pm So Hne He Ea Eb. pose proof (prim_wf pw t Hp Ht) as W. destruct (wf_bounds t W) as (B1 & B2 & _).
  assert (SV : sorted_version Z.ltb y s).
  { split; [exact Pm|]. clear -So. induction So as [|x l S IH F]; constructor; [exact IH|]. eapply Forall_impl; [|exact F]. cbn. intros z Hz. apply Z.ltb_ge. exact Hz. }
  assert (L : (length y mod 2 = 0)%nat) by (destruct He as [q ->]; rewrite Nat.mul_comm; apply Nat.mod_mul; lia).
  assert (L0 : (0 < length y)%nat) by (destruct y; [congruence|cbn; lia]).
  assert (G : forall md, median_int md t y = let! m := (let! s := iadd md t a b in let! two := from_usize t 2 in idiv t s two) in Ok (m, length y)).
  { intros md. unfold median_int. exact (proj1 (proj2 (median_sorted Z.ltb 0 (fun a b => let! s := iadd md t a b in let! two := from_usize t 2 in idiv t s two) y s (Zltb_total y) SV)) a b L L0 Ea Eb). }
  assert (D : forall v, in_range t v = true -> (let! two := from_usize t 2 in idiv t v two) = Ok (Z.quot v 2)).
  { intros v Hv. unfold from_usize. rewrite convert_ok by lia. cbn [bind]. unfold idiv. change (2 =? 0) with false. cbn iota. rewrite (quot_in t v 2 W ltac:(lia) Hv). reflexivity. }
  split; [|split].
  - intros Hr md. rewrite G. unfold iadd, arith. rewrite Hr. cbn [bind]. rewrite D by exact Hr. reflexivity.
  - intros Hr. rewrite G. unfold iadd, arith. rewrite Hr. reflexivity.
  - exists (wrap t (a + b)). split; [apply wraps_wrap, W|]. rewrite G. unfold iadd, arith. destruct (in_range t (a + b)) eqn:Hr; cbn [bind].
    + rewrite wrap_id by (try exact W; apply in_range_iff; exact Hr). rewrite D by exact Hr. reflexivity.
    + rewrite D by (apply wraps_wrap, W). reflexivity.
Qed.
Print Assumptions C04_median_int_exactly.
Example C04_median_int_exactly_ex : StronglySorted Z.le [100; 120] /\ Permutation [120; 100] [100; 120] /\ in_range i8 (100 + 120) = false.
Proof. split; [repeat constructor; lia|]. split; [apply perm_swap|reflexivity]. Qed.

Lemma checked_fold t y : forall s c k, in_range t (s + fold_right Z.add 0 (firstn k y)) = false -> in_range t s = true ->
  rfold (fun (acc : Z * nat) yi => let! s := iadd Checked t (fst acc) yi in Ok (s, S (snd acc))) y (s, c) = Panic.
Proof.
  induction y as [|a y IH]; intros s c k H Hs.
  - rewrite firstn_nil in H. cbn in H. rewrite Z.add_0_r in H. congruence.
  - destruct k as [|k]; [cbn in H; rewrite Z.add_0_r in H; congruence|]. cbn [firstn fold_right] in H. cbn [rfold fst snd]. unfold iadd at 1, arith.
    destruct (in_range t (s + a)) eqn:Hr; [|reflexivity]. cbn [bind]. apply (IH _ _ k); [|exact Hr]. rewrite <- Z.add_assoc. exact H.
Qed.
Lemma wrapping_fold t y : wf_ity t -> forall s c z, wraps_to t z s ->
  exists v, wraps_to t (z + fold_right Z.add 0 y) v /\
  rfold (fun (acc : Z * nat) yi => let! s := iadd Wrapping t (fst acc) yi in Ok (s, S (snd acc))) y (s, c) = Ok (v, (c + length y)%nat).
Proof.
  intros W. induction y as [|a y IH]; intros s c z Hz.
  - exists s. cbn [rfold fold_right length]. rewrite Z.add_0_r, Nat.add_0_r. split; [exact Hz|reflexivity].
  - cbn [rfold fold_right length fst snd].
    assert (X : exists s', iadd Wrapping t s a = Ok s' /\ wraps_to t (z + a) s').
    { assert (M : (s + a) mod 2 ^ bits t = (z + a) mod 2 ^ bits t) by (rewrite <- Zplus_mod_idemp_l, (proj2 Hz), Zplus_mod_idemp_l; reflexivity).
      unfold iadd, arith. destruct (in_range t (s + a)) eqn:Hr.
      - exists (s + a). split; [reflexivity|]. split; assumption.
      - exists (wrap t (s + a)). split; [reflexivity|]. destruct (wraps_wrap t (s + a) W) as [A B]. split; [exact A|]. rewrite B. exact M. }
    destruct X as [s' [E Hs']]. rewrite E. cbn [bind]. destruct (IH s' (S c) (z + a) Hs') as [v [Hv Ev]]. exists v. split; [rewrite Z.add_assoc; exact Hv|].
    rewrite Ev. f_equal. f_equal. lia.
Qed.

(** A checked build returns the truncated mean if every partial sum and the number of
    samples fit the type, and panics otherwise; a wrapping build panics exactly if the
    number of samples does not fit, and otherwise divides the wrapped sum. *)
Theorem C60_mean_int_exactly pw t y :
  In pw pointer_widths -> In t (prim_types pw) -> y <> [] ->
  ((forall k, in_range t (fold_right Z.add 0 (firstn k y)) = true) /\ in_range t (Z.of_nat (length y)) = true ->
     forall md, mean_int md t y = Ok (Z.quot (fold_right Z.add 0 y) (Z.of_nat (length y)), length y)) /\
  ((exists k, in_range t (fold_right Z.add 0 (firstn k y)) = false) \/ in_range t (Z.of_nat (length y)) = false ->
     mean_int Checked t y = Panic) /\
  (in_range t (Z.of_nat (length y)) = false -> mean_int Wrapping t y = Panic) /\
  (in_range t (Z.of_nat (length y)) = true ->
     exists v, wraps_to t (fold_right Z.add 0 y) v /\ mean_int Wrapping t y = Ok (Z.quot v (Z.of_nat (length y)), length y)).
Proof.
  intros Hp Ht Hne. pose proof (prim_wf pw t Hp Ht) as W. destruct (wf_bounds t W) as (B1 & B2 & _).
  assert (I0 : in_range t 0 = true) by (apply in_range_iff; lia).
  assert (L : (0 <? length y)%nat = true) by (destruct y; [congruence|reflexivity]).
  destruct (wrapping_fold t y W 0 0%nat 0 (conj I0 eq_refl)) as [v [Hv Ev]]. rewrite Z.add_0_l in Hv. cbn [Nat.add] in Ev.
  split; [|split; [|split]].
  - intros [Hk Hn] md. apply (mean_int_ok md pw); assumption.
  - intros H. assert (D : (forall k, in_range t (fold_right Z.add 0 (firstn k y)) = true) \/ exists k, in_range t (fold_right Z.add 0 (firstn k y)) = false).
    { clear -y. assert (X : forall n, (forall k, (k <= n)%nat -> in_range t (fold_right Z.add 0 (firstn k y)) = true) \/ exists k, in_range t (fold_right Z.add 0 (firstn k y)) = false).
      { induction n as [|n [IH|IH]].
        - destruct (in_range t (fold_right Z.add 0 (firstn 0 y))) eqn:E; [left; intros k Hk; replace k with 0%nat by lia; exact E|right; exists 0%nat; exact E].
        - destruct (in_range t (fold_right Z.add 0 (firstn (S n) y))) eqn:E; [left; intros k Hk; destruct (Nat.eq_dec k (S n)) as [->|N]; [exact E|apply IH; lia]|right; exists (S n); exact E].
        - right. exact IH. }
      destruct (X (length y)) as [Y|Y]; [left|right; exact Y]. intros k. destruct (Nat.le_gt_cases k (length y)) as [G|G]; [apply Y, G|]. rewrite firstn_all2 by lia. rewrite <- (firstn_all y) at 1. apply Y. lia. }
    unfold mean_int. destruct D as [D|[k D]].
    + rewrite mean_int_fold by exact D. cbn [bind Nat.add]. rewrite L. destruct H as [[k H]|H]; [rewrite D in H; discriminate|]. unfold from_usize, convert. rewrite H. reflexivity.
    + rewrite (checked_fold t y 0 0%nat k) by assumption. reflexivity.
  - intros Hn. unfold mean_int. rewrite Ev. cbn [bind]. rewrite L. unfold from_usize, convert. rewrite Hn. reflexivity.
  - intros Hn. exists v. split; [exact Hv|]. unfold mean_int. rewrite Ev. cbn [bind]. rewrite L. unfold from_usize, convert. rewrite Hn. cbn [bind].
    apply Nat.ltb_lt in L. unfold idiv. destruct (Z.eqb_spec (Z.of_nat (length y)) 0) as [E|_]; [lia|]. rewrite (quot_in t v (Z.of_nat (length y)) W ltac:(lia) (proj1 Hv)). reflexivity.
Qed.
Print Assumptions C60_mean_int_exactly.
Example C60_mean_int_exactly_ex : wraps_to u8 (200 + 200) 144 /\ in_range u8 (Z.of_nat (length [200; 200])) = true.
Proof. split; [split|]; reflexivity. Qed.
