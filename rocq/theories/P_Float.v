(** Rounding: the standard library's float operations as rounded real operations. *)
From Coq Require Import Reals ZArith SpecFloat List Lia Lra Bool.
From Flocq Require Import Core Relative Plus_error Div_sqrt_error BinarySingleNaN.
From Verif Require Import S_Float.
Import ListNotations.
Local Open Scope R_scope.

Lemma bpow_powerRZ e : bpow radix2 e = powerRZ 2 e.
Proof. rewrite (bpow_powerRZ radix2 e). reflexivity. Qed.
Lemma fval_SF2R x : fval x = SF2R radix2 x.
Proof.
  destruct x as [s|s| |s m e]; try reflexivity. cbn [fval SF2R]. unfold F2R. cbn [Fnum Fexp].
  rewrite bpow_powerRZ. destruct s; cbn [cond_Zopp]; [change (Z.neg m) with (- Z.pos m)%Z; rewrite opp_IZR|]; ring.
Qed.

(** SpecFloat's executable operations are Flocq's (as in Flocq's PrimFloat, which is not
    loaded: it would bring in the primitive-float axioms). *)
Section Link.
Variables prec emax : Z.
Hypothesis Hp : Prec_gt_0 prec.
Hypothesis He : Prec_lt_emax prec emax.
Notation fexp := (SpecFloat.fexp prec emax).
Notation emin := (SpecFloat.emin prec emax).
Notation rnd := (round radix2 (FLT_exp emin prec) ZnearestE).

Lemma rne_equiv s m l : round_nearest_even m l = choice_mode mode_NE s m l.
Proof.
  destruct l as [|c]; [reflexivity|]. destruct c; try reflexivity.
  cbn. unfold Round.cond_incr. destruct (Z.even m); reflexivity.
Qed.
Lemma round_aux_equiv sx mx ex lx :
  SpecFloat.binary_round_aux prec emax sx mx ex lx = BinarySingleNaN.binary_round_aux prec emax mode_NE sx mx ex lx.
Proof.
  unfold SpecFloat.binary_round_aux, BinarySingleNaN.binary_round_aux.
  destruct (shr_fexp prec emax mx ex lx) as [mrs e']. cbn. rewrite (rne_equiv sx). reflexivity.
Qed.
Lemma round_equiv s m e :
  SpecFloat.binary_round prec emax s m e = BinarySingleNaN.binary_round prec emax mode_NE s m e.
Proof.
  unfold SpecFloat.binary_round, BinarySingleNaN.binary_round, shl_align_fexp.
  destruct (shl_align _ _ _) as [mz ez]. apply round_aux_equiv.
Qed.
Lemma normalize_equiv m e szero :
  SpecFloat.binary_normalize prec emax m e szero = B2SF (BinarySingleNaN.binary_normalize prec emax Hp He mode_NE m e szero).
Proof. destruct m as [|p|p]; cbn; [reflexivity|rewrite B2SF_SF2B; apply round_equiv..]. Qed.
Notation BF := (binary_float prec emax).
Lemma add_equiv (x y : BF) : SFadd prec emax (B2SF x) (B2SF y) = B2SF (Bplus mode_NE x y).
Proof.
  destruct x as [sx|sx| |sx mx ex Bx]; destruct y as [sy|sy| |sy my ey By];
    try reflexivity; try (cbn; destruct (Bool.eqb _ _); reflexivity).
  apply normalize_equiv.
Qed.
Lemma sub_equiv (x y : BF) : SFsub prec emax (B2SF x) (B2SF y) = B2SF (Bminus mode_NE x y).
Proof.
  destruct x as [sx|sx| |sx mx ex Bx]; destruct y as [sy|sy| |sy my ey By];
    try reflexivity; try (cbn; destruct (Bool.eqb _ _); reflexivity).
  cbn. unfold Zminus. rewrite <- cond_Zopp_negb. apply normalize_equiv.
Qed.
Lemma mul_equiv (x y : BF) : SFmul prec emax (B2SF x) (B2SF y) = B2SF (Bmult mode_NE x y).
Proof.
  destruct x as [sx|sx| |sx mx ex Bx]; destruct y as [sy|sy| |sy my ey By]; try reflexivity.
  cbn. rewrite B2SF_SF2B. apply round_aux_equiv.
Qed.
Lemma div_equiv (x y : BF) : SFdiv prec emax (B2SF x) (B2SF y) = B2SF (Bdiv mode_NE x y).
Proof.
  destruct x as [sx|sx| |sx mx ex Bx]; destruct y as [sy|sy| |sy my ey By]; try reflexivity.
  cbn. rewrite B2SF_SF2B. destruct (SFdiv_core_binary _ _ _ _ _ _) as [[mz ez] lz]. apply round_aux_equiv.
Qed.
Lemma sqrt_equiv (x : BF) : SFsqrt prec emax (B2SF x) = B2SF (Bsqrt mode_NE x).
Proof.
  destruct x as [sx|sx| |sx mx ex Bx]; try reflexivity; destruct sx; try reflexivity.
  cbn. rewrite B2SF_SF2B. destruct (SFsqrt_core_binary _ _ _ _) as [[mz ez] lz]. apply round_aux_equiv.
Qed.

Lemma finite_B x : finite prec emax x -> exists b : BF, x = B2SF b /\ is_finite b = true /\ fval x = B2R b.
Proof.
  intros [V F]. exists (SF2B x V). rewrite B2SF_SF2B, fval_SF2R, B2R_SF2B. split; [reflexivity|]. split; [|reflexivity].
  rewrite is_finite_SF2B. destruct x; try destruct F; reflexivity.
Qed.
Lemma B_finite (b : BF) : is_finite b = true -> finite prec emax (B2SF b) /\ fval (B2SF b) = B2R b.
Proof.
  intros F. split; [split; [apply valid_binary_B2SF|destruct b; try discriminate; exact I]|].
  rewrite fval_SF2R, SF2R_B2SF. reflexivity.
Qed.
Lemma finite_format x : finite prec emax x -> generic_format radix2 (FLT_exp emin prec) (fval x).
Proof. intros F. destruct (finite_B x F) as [b [_ [_ ->]]]. apply generic_format_B2R. Qed.

(** Overflow does not happen up to the largest finite number. *)
Lemma fmax_eq : fmax prec emax = bpow radix2 emax - bpow radix2 (emax - prec).
Proof.
  unfold fmax. rewrite Rmult_minus_distr_r, Rmult_1_l, <- !bpow_powerRZ, <- bpow_plus. f_equal; f_equal; lia.
Qed.
Lemma fmax_format : generic_format radix2 (FLT_exp emin prec) (fmax prec emax).
Proof.
  apply generic_format_FLT. exists (Float radix2 (2 ^ prec - 1) (emax - prec)).
  - unfold fmax, F2R. cbn [Fnum Fexp]. rewrite minus_IZR, bpow_powerRZ.
    change (2 ^ prec)%Z with (radix2 ^ prec)%Z. rewrite (IZR_Zpower radix2 prec) by (unfold Prec_gt_0 in Hp; lia).
    rewrite bpow_powerRZ. reflexivity.
  - cbn [Fnum]. unfold Prec_gt_0 in Hp. assert (0 < 2 ^ prec)%Z by (apply Z.pow_pos_nonneg; lia).
    change (radix_val radix2) with 2%Z. rewrite Z.abs_eq by lia. lia.
  - cbn [Fexp]. unfold SpecFloat.emin. unfold Prec_lt_emax, Prec_gt_0 in *. lia.
Qed.
Lemma rnd_bound x : Rabs x <= fmax prec emax -> Rabs (rnd x) < bpow radix2 emax.
Proof.
  intros Hx. apply Rle_lt_trans with (fmax prec emax).
  - apply (abs_round_le_generic radix2 (FLT_exp emin prec) ZnearestE); [exact fmax_format|exact Hx].
  - rewrite fmax_eq. pose proof (bpow_gt_0 radix2 (emax - prec)). lra.
Qed.
Lemma fexp_eq : fexp = FLT_exp emin prec.
Proof. reflexivity. Qed.

Lemma fadd_ok x y : finite prec emax x -> finite prec emax y -> Rabs (fval x + fval y) <= fmax prec emax ->
  finite prec emax (SFadd prec emax x y) /\ fval (SFadd prec emax x y) = rnd (fval x + fval y).
Proof.
  intros Fx Fy B. destruct (finite_B x Fx) as [a [-> [Fa Va]]]. destruct (finite_B y Fy) as [b [-> [Fb Vb]]].
  rewrite Va, Vb in *. rewrite add_equiv. pose proof (Bplus_correct prec emax Hp He mode_NE a b Fa Fb) as C.
  rewrite Rlt_bool_true in C by (apply rnd_bound; exact B). destruct C as [C1 [C2 _]].
  destruct (B_finite _ C2) as [D1 D2]. split; [exact D1|]. rewrite D2, C1. reflexivity.
Qed.
Lemma fsub_ok x y : finite prec emax x -> finite prec emax y -> Rabs (fval x - fval y) <= fmax prec emax ->
  finite prec emax (SFsub prec emax x y) /\ fval (SFsub prec emax x y) = rnd (fval x - fval y).
Proof.
  intros Fx Fy B. destruct (finite_B x Fx) as [a [-> [Fa Va]]]. destruct (finite_B y Fy) as [b [-> [Fb Vb]]].
  rewrite Va, Vb in *. rewrite sub_equiv. pose proof (Bminus_correct prec emax Hp He mode_NE a b Fa Fb) as C.
  rewrite Rlt_bool_true in C by (apply rnd_bound; exact B). destruct C as [C1 [C2 _]].
  destruct (B_finite _ C2) as [D1 D2]. split; [exact D1|]. rewrite D2, C1. reflexivity.
Qed.
Lemma fmul_ok x y : finite prec emax x -> finite prec emax y -> Rabs (fval x * fval y) <= fmax prec emax ->
  finite prec emax (SFmul prec emax x y) /\ fval (SFmul prec emax x y) = rnd (fval x * fval y).
Proof.
  intros Fx Fy B. destruct (finite_B x Fx) as [a [-> [Fa Va]]]. destruct (finite_B y Fy) as [b [-> [Fb Vb]]].
  rewrite Va, Vb in *. rewrite mul_equiv. pose proof (Bmult_correct prec emax Hp He mode_NE a b) as C.
  rewrite Rlt_bool_true in C by (apply rnd_bound; exact B). destruct C as [C1 [C2 _]]. rewrite Fa, Fb in C2.
  destruct (B_finite _ C2) as [D1 D2]. split; [exact D1|]. rewrite D2, C1. reflexivity.
Qed.
Lemma fdiv_ok x y : finite prec emax x -> finite prec emax y -> fval y <> 0 -> Rabs (fval x / fval y) <= fmax prec emax ->
  finite prec emax (SFdiv prec emax x y) /\ fval (SFdiv prec emax x y) = rnd (fval x / fval y).
Proof.
  intros Fx Fy N B. destruct (finite_B x Fx) as [a [-> [Fa Va]]]. destruct (finite_B y Fy) as [b [-> [Fb Vb]]].
  rewrite Va, Vb in *. rewrite div_equiv. pose proof (Bdiv_correct prec emax Hp He mode_NE a b N) as C.
  rewrite Rlt_bool_true in C by (apply rnd_bound; exact B). destruct C as [C1 [C2 _]]. rewrite Fa in C2.
  destruct (B_finite _ C2) as [D1 D2]. split; [exact D1|]. rewrite D2, C1. reflexivity.
Qed.
Lemma fsqrt_ok x : finite prec emax x -> 0 <= fval x ->
  finite prec emax (SFsqrt prec emax x) /\ fval (SFsqrt prec emax x) = rnd (sqrt (fval x)).
Proof.
  intros Fx P. destruct (finite_B x Fx) as [a [-> [Fa Va]]]. rewrite Va in *. rewrite sqrt_equiv.
  destruct (Bsqrt_correct prec emax Hp He mode_NE a) as [C1 [C2 _]].
  assert (C : is_finite (Bsqrt mode_NE a) = true).
  { rewrite C2. destruct a as [s|s| |s m e B]; try discriminate; [reflexivity|]. destruct s; [|reflexivity].
    exfalso. cbn in P. unfold F2R in P. cbn in P. pose proof (bpow_gt_0 radix2 e).
    assert (IZR (Z.neg m) < 0) by (apply IZR_lt; reflexivity). nra. }
  destruct (B_finite _ C) as [D1 D2]. split; [exact D1|]. rewrite D2, C1. reflexivity.
Qed.
Lemma int_format n : (Z.abs n <= 2 ^ prec)%Z -> generic_format radix2 (FLT_exp emin prec) (IZR n).
Proof.
  intros B. assert (V : F2R (Float radix2 n 0) = IZR n) by (unfold F2R; cbn; ring).
  destruct (Z.eq_dec (Z.abs n) (2 ^ prec)) as [Q|Q].
  - apply generic_format_FLT.
    exists (Float radix2 (Z.sgn n) prec).
    + unfold F2R. cbn [Fnum Fexp]. unfold Prec_gt_0 in Hp. rewrite <- (IZR_Zpower radix2 prec) by lia.
      rewrite <- mult_IZR. f_equal. change (radix_val radix2 ^ prec)%Z with (2 ^ prec)%Z. rewrite <- Q. destruct n; cbn; lia.
    + cbn [Fnum]. unfold Prec_gt_0 in Hp. change (radix_val radix2) with 2%Z. assert (2 ^ 1 <= 2 ^ prec)%Z by (apply Z.pow_le_mono_r; lia).
      destruct n; cbn [Z.sgn Z.abs]; lia.
    + cbn [Fexp]. unfold SpecFloat.emin, Prec_lt_emax, Prec_gt_0 in *. lia.
  - apply generic_format_FLT. exists (Float radix2 n 0); [symmetry; exact V| |].
    + cbn [Fnum]. change (radix_val radix2) with 2%Z. lia.
    + cbn [Fexp]. unfold SpecFloat.emin, Prec_lt_emax, Prec_gt_0 in *. lia.
Qed.
(** Integers of at most [prec] bits are represented exactly. *)
Lemma fofZ_ok n : (Z.abs n <= 2 ^ prec)%Z -> IZR (Z.abs n) <= fmax prec emax ->
  finite prec emax (SpecFloat.binary_normalize prec emax n 0 false) /\
  fval (SpecFloat.binary_normalize prec emax n 0 false) = IZR n.
Proof.
  intros B M. rewrite normalize_equiv.
  pose proof (binary_normalize_correct prec emax Hp He mode_NE n 0 false) as C. cbv zeta in C.
  assert (V : F2R (Float radix2 n 0) = IZR n) by (unfold F2R; cbn; ring). rewrite V in C.
  pose proof (int_format n B) as G.
  assert (R : rnd (IZR n) = IZR n) by (apply round_generic; [apply valid_rnd_N|exact G]).
  rewrite Rlt_bool_true in C.
  - destruct C as [C1 [C2 _]]. destruct (B_finite _ C2) as [D1 D2]. split; [exact D1|]. rewrite D2, C1. exact R.
  - apply rnd_bound. rewrite <- abs_IZR. exact M.
Qed.

(** Error of one rounding. *)
Lemma u_eq : u_ro radix2 prec = uround prec.
Proof.
  unfold u_ro, uround. rewrite <- bpow_powerRZ.
  replace (/ 2) with (bpow radix2 (-1)) by reflexivity. rewrite <- bpow_plus. f_equal. ring.
Qed.
Lemma u_pos : 0 < uround prec.
Proof. unfold uround. rewrite <- bpow_powerRZ. apply bpow_gt_0. Qed.
Lemma u_le : u_ro radix2 prec / (1 + u_ro radix2 prec) <= uround prec.
Proof.
  rewrite u_eq. pose proof u_pos. apply (Rmult_le_reg_r (1 + uround prec)); [lra|].
  unfold Rdiv. rewrite Rmult_assoc, Rinv_l by lra. nra.
Qed.
Lemma tiny_eq : / 2 * bpow radix2 emin = ftiny prec emax.
Proof. unfold ftiny. rewrite bpow_powerRZ. unfold SpecFloat.emin, Rdiv. ring. Qed.
Lemma tiny_pos : 0 < ftiny prec emax.
Proof. rewrite <- tiny_eq. pose proof (bpow_gt_0 radix2 emin). lra. Qed.
Lemma add_err x y : generic_format radix2 (FLT_exp emin prec) x -> generic_format radix2 (FLT_exp emin prec) y ->
  Rabs (rnd (x + y) - (x + y)) <= uround prec * Rabs (x + y).
Proof.
  intros Fx Fy. destruct (FLT_plus_error_N_ex radix2 emin prec (fun z => negb (Z.even z)) x y Fx Fy) as [e [Be E]].
  rewrite E. replace ((x + y) * (1 + e) - (x + y)) with (e * (x + y)) by ring. rewrite Rabs_mult.
  apply Rmult_le_compat_r; [apply Rabs_pos|]. pose proof u_le. lra.
Qed.
Lemma rnd_err x : Rabs (rnd x - x) <= uround prec * Rabs x + ftiny prec emax.
Proof.
  destruct (relative_error_N_FLT'_ex radix2 emin prec Hp (fun z => negb (Z.even z)) x) as [e [t [Be [Bt [_ E]]]]].
  rewrite E. replace (x * (1 + e) + t - x) with (e * x + t) by ring.
  eapply Rle_trans; [apply Rabs_triang|]. rewrite Rabs_mult, <- tiny_eq.
  apply Rplus_le_compat; [|exact Bt]. apply Rmult_le_compat_r; [apply Rabs_pos|]. pose proof u_le. lra.
Qed.
Lemma finite_opp_format x : generic_format radix2 (FLT_exp emin prec) x -> generic_format radix2 (FLT_exp emin prec) (- x).
Proof. apply generic_format_opp. Qed.
Lemma emin_ok : (emin <= 2 * (1 - prec))%Z.
Proof. unfold SpecFloat.emin, Prec_lt_emax, Prec_gt_0 in *. lia. Qed.
Lemma u_lt1 : uround prec < 1.
Proof.
  unfold uround. rewrite <- bpow_powerRZ. change 1 with (bpow radix2 0). apply bpow_lt.
  unfold Prec_gt_0 in Hp. lia.
Qed.
(** A square root is never subnormal. *)
Lemma sqrt_err (Hp1 : (1 < prec)%Z) x : generic_format radix2 (FLT_exp emin prec) x -> 0 <= x ->
  Rabs (rnd (sqrt x) - sqrt x) <= uround prec * sqrt x.
Proof.
  intros Fx P. destruct (sqrt_error_N_FLT_ex radix2 prec (fun z => negb (Z.even z)) Hp1 emin emin_ok x Fx) as [e [Be E]].
  rewrite E. replace (sqrt x * (1 + e) - sqrt x) with (e * sqrt x) by ring. rewrite Rabs_mult.
  rewrite (Rabs_pos_eq (sqrt x)) by apply sqrt_pos. apply Rmult_le_compat_r; [apply sqrt_pos|].
  rewrite u_eq in Be. pose proof u_pos as U. pose proof u_lt1 as U1.
  set (u := uround prec) in *. assert (S : 0 < sqrt (1 + 2 * u)) by (apply sqrt_lt_R0; lra).
  assert (Q : (1 - u) * sqrt (1 + 2 * u) <= 1).
  { apply Rsqr_incr_0_var; [|lra]. rewrite Rsqr_mult, (Rsqr_sqrt (1 + 2 * u)) by lra. unfold Rsqr. nra. }
  assert (1 - u <= 1 / sqrt (1 + 2 * u)).
  { apply (Rmult_le_reg_r (sqrt (1 + 2 * u))); [exact S|]. unfold Rdiv. rewrite Rmult_assoc, Rinv_l by lra. lra. }
  lra.
Qed.
End Link.
