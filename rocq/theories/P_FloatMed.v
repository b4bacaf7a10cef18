(** The median of finite floats. *)
From Coq Require Import Reals ZArith SpecFloat List Lia Lra Psatz Bool.
From Flocq Require Import Core BinarySingleNaN.
From Verif Require Import Base Num M_Stats S_Stats P_Median P_Stats P_Stats2 S_Float P_Float P_FloatStats.
Import ListNotations.
Local Open Scope R_scope.

Section Med.
Variables prec emax : Z.
Hypothesis Hpe : (1 < prec < emax)%Z.
Local Instance Hp' : Prec_gt_0 prec.
Proof. unfold Prec_gt_0. lia. Qed.
Local Instance He' : Prec_lt_emax prec emax.
Proof. unfold Prec_lt_emax. lia. Qed.
Notation u := (uround prec).
Notation FM := (fmax prec emax).
Notation tn := (ftiny prec emax).
Notation fin := (finite prec emax).
Notation rnd := (round radix2 (FLT_exp (SpecFloat.emin prec emax) prec) ZnearestE).

Lemma ltb_fval a b : fin a -> fin b -> SFltb a b = Rltb (fval a) (fval b).
Proof.
  intros Fa Fb. destruct (finite_B prec emax a Fa) as [x [-> [Fx Vx]]]. destruct (finite_B prec emax b Fb) as [y [-> [Fy Vy]]].
  rewrite Vx, Vy. change (SFltb (B2SF x) (B2SF y)) with (Bltb x y). rewrite Bltb_correct by assumption.
  unfold Rltb. destruct (Rlt_dec (B2R x) (B2R y)); [apply Rlt_bool_true|apply Rlt_bool_false]; lra.
Qed.
Lemma filter_map_len {A B} (f : A -> B) (p : B -> bool) l : length (filter p (map f l)) = length (filter (fun x => p (f x)) l).
Proof. induction l as [|a l IH]; [reflexivity|]. cbn. destruct (p (f a)); cbn; rewrite IH; reflexivity. Qed.
Lemma rank_fval y k m : Forall fin y -> has_rank SFltb y k m -> has_rank Rltb (map fval y) k (fval m).
Proof.
  intros Fy [I R]. split; [apply in_map; exact I|]. rewrite !filter_map_len. rewrite Forall_forall in Fy.
  rewrite (filter_ext_len (fun x => Rltb (fval x) (fval m)) (fun x => SFltb x m)) by (intros; symmetry; apply ltb_fval; auto).
  rewrite (filter_ext_len (fun x => negb (Rltb (fval m) (fval x))) (fun x => negb (SFltb m x))) by (intros; f_equal; symmetry; apply ltb_fval; auto).
  exact R.
Qed.
Lemma no_nan y : Forall fin y -> ~ In S754_nan y.
Proof. intros Fy I. rewrite Forall_forall in Fy. destruct (Fy _ I) as [_ []]. Qed.

(** Half-sum of two floats. *)
Lemma half_ok a b : fin a -> fin b -> fval a <= fval b -> Rabs (fval a) <= FM / 2 -> Rabs (fval b) <= FM / 2 ->
  let h := SFdiv prec emax (SFadd prec emax a b) (SpecFloat.binary_normalize prec emax 2 0 false) in
  fin h /\ fval a <= fval h <= fval b /\
  Rabs (fval h - (fval a + fval b) / 2) <= ((1 + u) ^ 2 - 1) * Rabs ((fval a + fval b) / 2) + tn.
Proof.
  intros Fa Fb L Ba Bb. cbv zeta.
  destruct (count_ok prec emax Hpe 2) as [F2 V2].
  { change (Z.of_nat 2) with (2 ^ 1)%Z. apply Z.pow_le_mono_r; lia. }
  change (Z.of_nat 2) with 2%Z in F2, V2. change (INR 2) with 2 in V2. set (t := SpecFloat.binary_normalize _ _ _ _ _) in *.
  pose proof (Rabs_triang (fval a) (fval b)) as T.
  destruct (fadd_ok prec emax Hp' He' a b Fa Fb) as [Fs Vs]; [lra|]. set (s := SFadd prec emax a b) in *.
  assert (Fmt : forall x, fin x -> generic_format radix2 (FLT_exp (SpecFloat.emin prec emax) prec) (2 * fval x)).
  { intros x Fx. replace (2 * fval x) with (fval x * bpow radix2 1) by (cbn; ring).
    pose proof (finite_format prec emax x Fx) as Gx. apply FLT_format_generic in Gx; [|exact Hp'].
    destruct Gx as [[m e] E M X]. apply generic_format_FLT. exists (Float radix2 m (e + 1)); [|exact M|cbn [Fexp] in *; lia].
    rewrite E. unfold F2R. cbn [Fnum Fexp]. rewrite bpow_plus. ring. }
  assert (S1 : 2 * fval a <= fval s <= 2 * fval b).
  { rewrite Vs. split.
    - apply round_ge_generic; [apply FLT_exp_valid; exact Hp'|apply valid_rnd_N|apply Fmt; exact Fa|lra].
    - apply round_le_generic; [apply FLT_exp_valid; exact Hp'|apply valid_rnd_N|apply Fmt; exact Fb|lra]. }
  apply Rabs_le_inv in Ba. apply Rabs_le_inv in Bb.
  destruct (fdiv_ok prec emax Hp' He' s t Fs F2) as [Fh Vh]; [rewrite V2; lra| |].
  { rewrite V2. apply Rabs_le. lra. }
  split; [exact Fh|]. rewrite Vh, V2. split; [split|].
  - apply round_ge_generic; [apply FLT_exp_valid; exact Hp'|apply valid_rnd_N|apply (finite_format prec emax); exact Fa|lra].
  - apply round_le_generic; [apply FLT_exp_valid; exact Hp'|apply valid_rnd_N|apply (finite_format prec emax); exact Fb|lra].
  - set (c := (fval a + fval b) / 2). pose proof (u_pos prec) as U.
    assert (E1 : Rabs (fval s / 2 - c) <= u * Rabs c).
    { replace (fval s / 2 - c) with ((fval s - (fval a + fval b)) * / 2) by (unfold c; field).
      rewrite Rabs_mult, (Rabs_pos_eq (/ 2)) by lra.
      pose proof (add_err prec emax Hp' (fval a) (fval b) (finite_format prec emax a Fa) (finite_format prec emax b Fb)) as A.
      rewrite <- Vs in A. unfold c, Rdiv. rewrite (Rabs_mult _ (/ 2)), (Rabs_pos_eq (/ 2)) by lra. lra. }
    pose proof (rnd_err prec emax Hp' (fval s / 2)) as E2.
    assert (E3 : Rabs (fval s / 2) <= (1 + u) * Rabs c).
    { replace (fval s / 2) with ((fval s / 2 - c) + c) by ring. eapply Rle_trans; [apply Rabs_triang|]. lra. }
    replace (rnd (fval s / 2) - c) with ((rnd (fval s / 2) - fval s / 2) + (fval s / 2 - c)) by ring.
    eapply Rle_trans; [apply Rabs_triang|]. nra.
Qed.

Lemma median_final sz y : Forall fin y -> y <> [] -> (forall x, In x y -> Rabs (fval x) <= FM / 2) ->
  exists m c, @median _ (SFNum prec emax sz) y = Ok (m, length y) /\ fin m /\ is_median (map fval y) c /\
    (Nat.Odd (length y) -> fval m = c /\ In m y) /\
    Rabs (fval m - c) <= ((1 + u) ^ 2 - 1) * Rabs c + tn /\
    (exists lo hi, In lo y /\ In hi y /\ fval lo <= fval m <= fval hi).
Proof.
  intros Fy NE HB. assert (NER : map fval y <> []) by (destruct y; [congruence|discriminate]).
  pose proof (median_rank SFltb (S754_zero false)
    (fun a b => Ok (SFdiv prec emax (SFadd prec emax a b) (SpecFloat.binary_normalize prec emax 2 0 false))) y
    (SFltb_weak y (no_nan y Fy)) NE) as [Mo Me].
  pose proof (median_rank Rltb 0 (fun a b => Ok ((a + b) / IZR 2)) (map fval y) (proj1 (Rltb_total _)) NER) as [Ro Re].
  rewrite map_length in Ro, Re. rewrite Forall_forall in Fy.
  pose proof (u_pos prec) as U. pose proof (tiny_pos prec emax) as T.
  assert (Tot : forall k a b, has_rank Rltb (map fval y) k a -> has_rank Rltb (map fval y) k b -> a = b).
  { intros k a b. apply total_rank_unique, Rltb_total. }
  assert (FyF : Forall fin y) by (apply Forall_forall; exact Fy).
  destruct (Nat.Even_or_Odd (length y)) as [Ev|Od].
  - assert (Em : (length y mod 2 = 0)%nat) by (destruct Ev as [k ->]; rewrite Nat.mul_comm; apply Nat.mod_mul; lia).
    destruct (Me Em) as [a [b [Ra [Rb E]]]]. destruct (Re Em) as [a' [b' [Ra' [Rb' E']]]].
    rewrite (Tot _ _ _ Ra' (rank_fval _ _ _ FyF Ra)), (Tot _ _ _ Rb' (rank_fval _ _ _ FyF Rb)) in E'.
    assert (Ia : In a y) by apply Ra. assert (Ib : In b y) by apply Rb.
    assert (L : fval a <= fval b).
    { destruct (Rle_or_lt (fval a) (fval b)) as [L|L]; [exact L|exfalso].
      apply rank_fval in Ra, Rb; try exact FyF. apply has_rank_alt in Ra. apply has_rank_alt in Rb.
      assert (Q : Rltb (fval b) (fval a) = true) by (apply Rltb_true; exact L).
      destruct Ra as [_ [A1 _]]. destruct Rb as [_ [_ B2]].
      assert (length (filter (fun x => negb (Rltb (fval b) x)) (map fval y)) <= length (filter (fun x => Rltb x (fval a)) (map fval y)))%nat.
      { apply filter_le_len. intros x _ Hx. apply negb_true_iff in Hx. apply Rltb_false in Hx. apply Rltb_true. lra. }
      pose proof (filter_compl_len (fun x => Rltb (fval b) x) (map fval y)). rewrite map_length in *. lia. }
    destruct (half_ok a b (Fy a Ia) (Fy b Ib) L (HB a Ia) (HB b Ib)) as [Fh [Bh Eh]]. cbv zeta in Fh, Bh, Eh.
    exists (SFdiv prec emax (SFadd prec emax a b) (SpecFloat.binary_normalize prec emax 2 0 false)), ((fval a + fval b) / 2).
    split; [exact E|]. split; [exact Fh|]. split.
    + apply (median_iff (map fval y) _ (length y) NER). exact E'.
    + split; [intros Od; exfalso; apply (Nat.Even_Odd_False _ Ev Od)|]. split; [exact Eh|]. exists a, b. auto.
  - assert (Em : (length y mod 2 = 1)%nat).
    { destruct Od as [k ->]. rewrite Nat.add_comm, Nat.mul_comm, Nat.mod_add by lia. reflexivity. }
    destruct (Mo Em) as [m [Rm E]]. destruct (Ro Em) as [m' [Rm' E']].
    rewrite (Tot _ _ _ Rm' (rank_fval _ _ _ FyF Rm)) in E'. assert (I : In m y) by apply Rm.
    exists m, (fval m). split; [exact E|]. split; [apply Fy; exact I|]. split.
    + apply (median_iff (map fval y) _ (length y) NER). exact E'.
    + split; [intros _; split; [reflexivity|exact I]|]. split.
      * replace (fval m - fval m) with 0 by ring. rewrite Rabs_R0. pose proof (Rabs_pos (fval m)). nra.
      * exists m, m. repeat split; try assumption; lra.
Qed.
End Med.
