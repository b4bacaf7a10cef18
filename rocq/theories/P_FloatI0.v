(** i0e at binary floats: reduced arguments, the two branches, rounding included. *)
From Coq Require Import Reals ZArith QArith Qreals SpecFloat List Lia Lra Psatz Bool.
From Flocq Require Import Core BinarySingleNaN.
From Verif Require Import Base Num Trans M_Bessel S_Bessel P_Bessel P_BesselI0 P_BesselNum P_BesselBig T_Bessel T_BesselI0 S_Float P_Float P_FloatStats P_FloatMed P_FloatBessel.
Import ListNotations.
Local Open Scope R_scope.

Section I0.
Variables prec emax : Z.
Hypothesis Hpe : (24 <= prec < emax)%Z.
Local Instance Hp2 : Prec_gt_0 prec.
Proof. unfold Prec_gt_0. lia. Qed.
Local Instance He2 : Prec_lt_emax prec emax.
Proof. unfold Prec_lt_emax. lia. Qed.
Notation u := (uround prec).
Notation FM := (fmax prec emax).
Notation tn := (ftiny prec emax).
Notation fin := (finite prec emax).
Notation rnd := (round radix2 (FLT_exp (SpecFloat.emin prec emax) prec) ZnearestE).
Local Instance SFN2 : Num spec_float := SFNum prec emax true.

Lemma leb_fval a b : fin a -> fin b -> SFleb a b = Rleb (fval a) (fval b).
Proof.
  intros Fa Fb. destruct (finite_B prec emax a Fa) as [x [-> [Fx Vx]]]. destruct (finite_B prec emax b Fb) as [y [-> [Fy Vy]]].
  rewrite Vx, Vy. change (SFleb (B2SF x) (B2SF y)) with (Bleb x y). rewrite Bleb_correct by assumption.
  unfold Rleb. destruct (Rle_bool_spec (B2R x) (B2R y)); destruct (Rle_dec (B2R x) (B2R y)); (reflexivity || lra).
Qed.
Lemma abs_ok x : fin x -> fin (SFabs x) /\ fval (SFabs x) = Rabs (fval x).
Proof.
  intros [V F]. destruct x as [s|s| |s m e]; try contradiction; cbn [SFabs].
  - split; [split; [exact V|exact I]|]. cbn. symmetry. apply Rabs_R0.
  - split; [split; [exact V|exact I]|]. cbn [fval]. assert (P : 0 < IZR (Z.pos m)) by (apply IZR_lt; reflexivity).
    assert (Q : 0 < powerRZ 2 e) by (rewrite <- bpow_powerRZ; apply bpow_gt_0).
    assert (PQ : 0 < IZR (Z.pos m) * powerRZ 2 e) by (apply Rmult_lt_0_compat; assumption).
    destruct s; [rewrite Rabs_left|rewrite Rabs_pos_eq]; lra.
Qed.
Lemma ofZ_small n : (Z.abs n <= 2 ^ 24)%Z -> fin (nofZ n) /\ fval (nofZ n) = IZR n.
Proof.
  intros B. apply (fofZ_ok prec emax Hp2 He2 n).
  - eapply Z.le_trans; [exact B|]. apply Z.pow_le_mono_r; lia.
  - pose proof (FM24 prec emax Hpe) as F. apply IZR_le in B. assert (E : IZR (2 ^ 24) = 2 ^ 24) by (symmetry; exact (pow_IZR 2 24)). lra.
Qed.
(** Halving is exact, up to underflow. *)
Lemma half_err x : generic_format radix2 (FLT_exp (SpecFloat.emin prec emax) prec) x -> Rabs (rnd (x / 2) - x / 2) <= 2 * tn.
Proof.
  intros Fx. pose proof (tn0 prec emax) as T0. set (emin := SpecFloat.emin prec emax) in *.
  destruct (Rle_lt_dec (bpow radix2 (emin + prec)) (Rabs x)) as [G|L].
  - assert (Fh : generic_format radix2 (FLT_exp emin prec) (x / 2)).
    { assert (Cx : (emin + 1 <= cexp radix2 (FLT_exp emin prec) x)%Z).
      { unfold cexp, FLT_exp. pose proof (mag_ge_bpow radix2 x (emin + prec + 1)) as M. replace (emin + prec + 1 - 1)%Z with (emin + prec)%Z in M by ring. specialize (M G). lia. }
      unfold generic_format in Fx. apply generic_format_FLT.
      exists (Float radix2 (Ztrunc (scaled_mantissa radix2 (FLT_exp emin prec) x)) (cexp radix2 (FLT_exp emin prec) x - 1)).
      - rewrite Fx at 1. unfold F2R. cbn [Fnum Fexp]. unfold Zminus. rewrite bpow_plus. cbn [bpow Z.opp]. unfold Rdiv. rewrite Rmult_assoc. f_equal.
      - cbn [Fnum]. pose proof (FLT_format_generic radix2 emin prec x Fx) as FF.
        destruct (Req_dec x 0) as [Z|Z].
        + rewrite Z. rewrite scaled_mantissa_0, Ztrunc_IZR || (rewrite scaled_mantissa_0; change 0 with (IZR 0); rewrite Ztrunc_IZR).
          cbn. apply (Z.pow_pos_nonneg 2); lia.
        + apply lt_IZR. rewrite abs_IZR, <- (scaled_mantissa_generic radix2 (FLT_exp emin prec) x Fx).
          rewrite IZR_Zpower by lia. eapply Rlt_le_trans; [apply (scaled_mantissa_lt_bpow radix2 (FLT_exp emin prec))|].
          apply bpow_le. unfold cexp, FLT_exp. lia.
      - cbn [Fexp]. lia. }
    rewrite round_generic by (try apply valid_rnd_N; exact Fh). rewrite Rminus_diag_eq by reflexivity. rewrite Rabs_R0. lra.
  - eapply Rle_trans; [apply (rnd_err prec emax Hp2)|].
    assert (Q : u * Rabs (x / 2) <= tn); [|lra].
    unfold Rdiv. rewrite Rabs_mult, (Rabs_pos_eq (/ 2)) by lra. rewrite <- tiny_eq. fold emin. unfold uround. rewrite <- bpow_powerRZ.
    pose proof (bpow_gt_0 radix2 (- prec)) as P. rewrite bpow_plus in L.
    assert (E : bpow radix2 (- prec) * bpow radix2 prec = 1) by (rewrite <- bpow_plus; replace (- prec + prec)%Z with 0%Z by ring; reflexivity).
    apply Rle_trans with (bpow radix2 (- prec) * (bpow radix2 emin * bpow radix2 prec * / 2)).
    + apply Rmult_le_compat_l; lra.
    + right. transitivity ((bpow radix2 (- prec) * bpow radix2 prec) * (/ 2 * bpow radix2 emin)); [ring|rewrite E; ring].
Qed.
Lemma format_small n : (Z.abs n <= 2 ^ 24)%Z -> generic_format radix2 (FLT_exp (SpecFloat.emin prec emax) prec) (IZR n).
Proof. intros B. apply (int_format prec emax Hp2 He2). eapply Z.le_trans; [exact B|]. apply Z.pow_le_mono_r; lia. Qed.
Lemma rnd_range n x : (0 <= n <= 2 ^ 24)%Z -> Rabs x <= IZR n -> Rabs (rnd x) <= IZR n.
Proof.
  intros Hn Hx. apply (abs_round_le_generic radix2 (FLT_exp (SpecFloat.emin prec emax) prec) ZnearestE); [apply format_small; lia|exact Hx].
Qed.
(** The two reduced arguments. *)
Lemma arg_small x : fin x -> 0 <= fval x <= 8 ->
  let y := nsub (ndiv x (nofZ 2)) (nofZ 2) in fin y /\ Rabs (fval y) <= 2 /\ Rabs (fval y - (fval x / 2 - 2)) <= 3 * u.
Proof.
  intros Fx Hx y. destruct (ofZ_small 2 ltac:(lia)) as [F2 V2]. pose proof (FM24 prec emax Hpe) as FMb. assert (100 <= 2 ^ 24) by (cbn; lra).
  assert (Q : Rabs (fval x / 2) <= 4) by (rewrite Rabs_pos_eq; lra).
  destruct (fdiv_ok prec emax Hp2 He2 x (nofZ 2) Fx F2 ltac:(rewrite V2; lra) ltac:(rewrite V2; lra)) as [Fd Vd]. rewrite V2 in Vd.
  change (SFdiv prec emax x (nofZ 2)) with (ndiv x (nofZ 2)) in *. set (d := ndiv x (nofZ 2)) in *.
  pose proof (half_err (fval x) (finite_format prec emax x Fx)) as Eh. rewrite <- Vd in Eh.
  assert (Bd : Rabs (fval d) <= 4) by (rewrite Vd; apply (rnd_range 4); [lia|lra]).
  assert (Pd : 0 <= fval d) by (rewrite Vd; apply (rnd_nonneg prec emax (Hpe1 prec emax Hpe)); lra).
  rewrite Rabs_pos_eq in Bd by exact Pd.
  assert (Bs : Rabs (fval d - 2) <= 2) by (apply Rabs_le; lra).
  destruct (fsub_ok prec emax Hp2 He2 d (nofZ 2) Fd F2 ltac:(rewrite V2; lra)) as [Fy Vy]. rewrite V2 in Vy. change (SFsub prec emax d (nofZ 2)) with y in *.
  split; [exact Fy|]. split; [rewrite Vy; apply (rnd_range 2); [lia|exact Bs]|].
  pose proof (add_err prec emax Hp2 (fval d) (- (2)) (finite_format prec emax d Fd) ltac:(apply generic_format_opp, (format_small 2); lia)) as Es.
  change (fval d + - (2)) with (fval d - 2) in Es. rewrite <- Vy in Es. pose proof (u0 prec) as U0. pose proof (tn_u prec emax Hpe) as T1. pose proof (tn0 prec emax) as T0.
  assert (u * / 2 ^ 20 <= u) by (rewrite <- (Rmult_1_r u) at 2; apply Rmult_le_compat_l; [lra|cbn; lra]).
  replace (fval y - (fval x / 2 - 2)) with ((fval y - (fval d - 2)) + (fval d - fval x / 2)) by ring. eapply Rle_trans; [apply Rabs_triang|]. nra.
Qed.
Lemma arg_large x : fin x -> 8 < fval x ->
  let y := nsub (ndiv (nofZ 32) x) (nofZ 2) in fin y /\ Rabs (fval y) <= 2 /\ Rabs (fval y - (32 / fval x - 2)) <= 7 * u.
Proof.
  intros Fx Hx y. destruct (ofZ_small 2 ltac:(lia)) as [F2 V2]. destruct (ofZ_small 32 ltac:(lia)) as [F3 V3].
  pose proof (FM24 prec emax Hpe) as FMb. assert (100 <= 2 ^ 24) by (cbn; lra).
  assert (Q0 : 0 < 32 / fval x) by (apply Rdiv_lt_0_compat; lra).
  assert (Q1 : 32 / fval x <= 4) by (apply (Rmult_le_reg_r (fval x)); [lra|]; unfold Rdiv; rewrite Rmult_assoc, Rinv_l by lra; lra).
  assert (Q : Rabs (32 / fval x) <= 4) by (rewrite Rabs_pos_eq; lra).
  destruct (fdiv_ok prec emax Hp2 He2 (nofZ 32) x F3 Fx ltac:(lra) ltac:(rewrite V3; lra)) as [Fd Vd]. rewrite V3 in Vd.
  change (SFdiv prec emax (nofZ 32) x) with (ndiv (nofZ 32) x) in *. set (d := ndiv (nofZ 32) x) in *.
  pose proof (rnd_err prec emax Hp2 (32 / fval x)) as Eh. rewrite <- Vd in Eh.
  assert (Bd : Rabs (fval d) <= 4) by (rewrite Vd; apply (rnd_range 4); [lia|lra]).
  assert (Pd : 0 <= fval d) by (rewrite Vd; apply (rnd_nonneg prec emax (Hpe1 prec emax Hpe)); lra).
  rewrite Rabs_pos_eq in Bd by exact Pd.
  assert (Bs : Rabs (fval d - 2) <= 2) by (apply Rabs_le; lra).
  destruct (fsub_ok prec emax Hp2 He2 d (nofZ 2) Fd F2 ltac:(rewrite V2; lra)) as [Fy Vy]. rewrite V2 in Vy. change (SFsub prec emax d (nofZ 2)) with y in *.
  split; [exact Fy|]. split; [rewrite Vy; apply (rnd_range 2); [lia|exact Bs]|].
  pose proof (add_err prec emax Hp2 (fval d) (- (2)) (finite_format prec emax d Fd) ltac:(apply generic_format_opp, (format_small 2); lia)) as Es.
  change (fval d + - (2)) with (fval d - 2) in Es. rewrite <- Vy in Es. pose proof (u0 prec) as U0. pose proof (tn_u prec emax Hpe) as T1. pose proof (tn0 prec emax) as T0.
  assert (u * / 2 ^ 20 <= u) by (rewrite <- (Rmult_1_r u) at 2; apply Rmult_le_compat_l; [lra|cbn; lra]).
  replace (fval y - (32 / fval x - 2)) with ((fval y - (fval d - 2)) + (fval d - 32 / fval x)) by ring. eapply Rle_trans; [apply Rabs_triang|]. nra.
Qed.


Lemma bnds_A : bnds I0_A_F64 = (1338405350, 2701595087, 4020041784)%Z. Proof. vm_compute. reflexivity. Qed.
Lemma bnds_B : bnds I0_B_F64 = (807933143, 811450326, 811559012)%Z. Proof. vm_compute. reflexivity. Qed.
Lemma chb_A x xh : -2 <= x <= 2 -> fin xh -> Rabs (fval xh) <= 2 -> Rabs (fval xh - x) <= 3 * u ->
  fin (chbevl xh (map nofQ I0_A_F64)) /\ Rabs (fval (chbevl xh (map nofQ I0_A_F64)) - chbevl x (map Q2R I0_A_F64)) <= 523 / 10 * u.
Proof.
  intros Hx Fx Bx Ex. pose proof (chbevl_float prec emax Hpe 3 x xh I0_A_F64 ltac:(lra) Hx Fx Bx Ex ltac:(discriminate)) as T. rewrite bnds_A in T.
  destruct T as [T1 T2]; [unfold sc; lia|]. split; [exact T1|]. unfold sc in T2.
  pose proof (u0 prec) as U0. pose proof (tn_u prec emax Hpe) as Tt. assert (Hu : u * / 2 ^ 20 <= u * / 1000) by (apply Rmult_le_compat_l; [lra|apply Rinv_le_contravar; [lra|cbn; lra]]). set (v := u * / 2 ^ 20) in *. clearbody v. match goal with |- ?g <= _ => assert (T3 : g * 1000000000 <= u * ((3 + 9) * 4020041784 + 3 * 1338405350) + 2 * tn * 1000000000) by exact T2; set (A := g) in *; clearbody A end. clear T1 T2. lra.
Qed.
Lemma chb_B x xh : -2 <= x <= 2 -> fin xh -> Rabs (fval xh) <= 2 -> Rabs (fval xh - x) <= 7 * u ->
  fin (chbevl xh (map nofQ I0_B_F64)) /\ Rabs (fval (chbevl xh (map nofQ I0_B_F64)) - chbevl x (map Q2R I0_B_F64)) <= 1542 / 100 * u.
Proof.
  intros Hx Fx Bx Ex. pose proof (chbevl_float prec emax Hpe 7 x xh I0_B_F64 ltac:(lra) Hx Fx Bx Ex ltac:(discriminate)) as T. rewrite bnds_B in T.
  destruct T as [T1 T2]; [unfold sc; lia|]. split; [exact T1|]. unfold sc in T2.
  pose proof (u0 prec) as U0. pose proof (tn_u prec emax Hpe) as Tt. assert (Hu : u * / 2 ^ 20 <= u * / 1000) by (apply Rmult_le_compat_l; [lra|apply Rinv_le_contravar; [lra|cbn; lra]]). set (v := u * / 2 ^ 20) in *. clearbody v. match goal with |- ?g <= _ => assert (T3 : g * 1000000000 <= u * ((7 + 9) * 811559012 + 3 * 807933143) + 2 * tn * 1000000000) by exact T2; set (A := g) in *; clearbody A end. clear T1 T2. lra.
Qed.
Lemma chb_bound z c l : -2 <= z <= 2 -> Rabs (chbevl z (map Q2R (c :: l))) * IZR sc <= IZR (fold_right (fun q a => cz q + a)%Z 0%Z (c :: c :: l)).
Proof.
  intros Hz. cbn [map]. rewrite chbevl_value.
  assert (B : forall l, Rabs (chebyshev_series (map Q2R l) (z / 2)) * IZR sc <= IZR (fold_right (fun q a => cz q + a)%Z 0%Z l)).
  { intros k. eapply Rle_trans; [apply Rmult_le_compat_r; [unfold sc; lra|apply series_bound; lra]|].
    induction k as [|q k IH]; [cbn; lra|]. cbn [map fold_right]. rewrite plus_IZR, Rmult_plus_distr_r. apply Rplus_le_compat; [apply cz_ok|exact IH]. }
  specialize (B (c :: l)). cbn [map] in B. pose proof (cz_ok c) as C0. pose proof (chebT_bound (S (length (map Q2R l))) (z / 2) ltac:(lra)) as T0.
  change (fold_right (fun q a => cz q + a)%Z 0%Z (c :: c :: l)) with (cz c + fold_right (fun q a => cz q + a)%Z 0%Z (c :: l))%Z. rewrite plus_IZR.
  pose proof (Rabs_triang (Q2R c * chebT (S (length (map Q2R l))) (z / 2)) (chebyshev_series (Q2R c :: map Q2R l) (z / 2))) as T1. rewrite Rabs_mult in T1.
  pose proof (Rabs_pos (Q2R c)) as P. assert (0 < IZR sc) by (unfold sc; lra).
  set (a := Rabs (Q2R c)) in *. set (t := Rabs (chebT _ _)) in *. assert (a * t <= a) by nra. nra.
Qed.
Lemma large_y y : 8 < y -> 0 <= 16 / y <= 2.
Proof.
  intros Hy. split; [apply Rlt_le, Rdiv_lt_0_compat; lra|]. apply (Rmult_le_reg_r y); [lra|]. unfold Rdiv. rewrite Rmult_assoc, Rinv_l; lra.
Qed.
(** The real model branch by branch. *)
Lemma close_small y : 0 <= y <= 8 -> Rabs (chbevl (y / 2 - 2) (map Q2R I0_A_F64) - ff y) <= / 2 ^ 54 * ff y.
Proof.
  intros Hy. pose proof (i0e_close y ltac:(lra)) as Cl. unfold i0e_f64, i0e_gen in Cl. cbn [nabs RNum nleb nofZ ndiv nsub nsqrt nofQ] in Cl.
  change (map (fun q : Q => Q2R q)) with (map Q2R) in Cl. rewrite (Rabs_pos_eq y ltac:(lra)) in Cl. destruct (Rleb_spec y 8) as [_|]; [exact Cl|lra].
Qed.
Lemma close_large y : 8 < y -> Rabs (chbevl (32 / y - 2) (map Q2R I0_B_F64) / sqrt y - ff y) <= / 2 ^ 54 * ff y.
Proof.
  intros Hy. pose proof (i0e_close y ltac:(lra)) as Cl. unfold i0e_f64, i0e_gen in Cl. cbn [nabs RNum nleb nofZ ndiv nsub nsqrt nofQ] in Cl.
  change (map (fun q : Q => Q2R q)) with (map Q2R) in Cl. rewrite (Rabs_pos_eq y ltac:(lra)) in Cl. destruct (Rleb_spec y 8) as [|_]; [lra|exact Cl].
Qed.
Lemma bound_A z : -2 <= z <= 2 -> Rabs (chbevl z (map Q2R I0_A_F64)) <= 2.
Proof.
  intros Hz. pose proof (chb_bound z (hd 0%Q I0_A_F64) (tl I0_A_F64) Hz) as B. change (hd 0%Q I0_A_F64 :: tl I0_A_F64) with I0_A_F64 in B.
  assert (Z1 : (fold_right (fun q a => cz q + a)%Z 0%Z (hd 0%Q I0_A_F64 :: I0_A_F64) <= 2 * sc)%Z) by (vm_compute; discriminate). apply IZR_le in Z1. rewrite mult_IZR in Z1. pose proof scp. nra.
Qed.
Lemma bound_B z : -2 <= z <= 2 -> Rabs (chbevl z (map Q2R I0_B_F64)) <= 81 / 100.
Proof.
  intros Hz. pose proof (chb_bound z (hd 0%Q I0_B_F64) (tl I0_B_F64) Hz) as B. change (hd 0%Q I0_B_F64 :: tl I0_B_F64) with I0_B_F64 in B.
  assert (Z1 : (fold_right (fun q a => cz q + a)%Z 0%Z (hd 0%Q I0_B_F64 :: I0_B_F64) * 100 <= 81 * sc)%Z) by (vm_compute; discriminate). apply IZR_le in Z1. rewrite !mult_IZR in Z1. pose proof scp. nra.
Qed.
Lemma ff_le3 y : 0 <= y <= 8 -> ff y <= 3.
Proof.
  intros Hy. pose proof (close_small y Hy) as Cl. pose proof (bound_A (y / 2 - 2) ltac:(lra)) as B. pose proof (ff_pos y) as Fp.
  apply Rabs_le_inv in Cl. apply Rabs_le_inv in B. assert (T54 : / 2 ^ 54 <= 1 / 100) by (cbn; lra). nra.
Qed.
Lemma big_G y : 8 < y -> 38 / 100 <= sqrt y * ff y <= 9 / 10.
Proof.
  intros Hy. pose proof (large_y y Hy) as T.
  pose proof (dd_bound y ltac:(lra)) as D. unfold dd in D. apply Rabs_le_inv in D. pose proof (qq_low _ T) as Lo.
  assert (Sm : 5 / 10 ^ 20 <= 1 / 100) by (cbn; lra). split; [lra|].
  pose proof (close_large y Hy) as Cl. pose proof (bound_B _ (large_range y Hy)) as CB. pose proof (sqrt_lt_R0 y ltac:(lra)) as Sy.
  apply Rabs_le_inv in CB. set (c := chbevl _ _) in *. clearbody c. apply Rabs_le_inv in Cl. destruct Cl as [Cl _].
  pose proof (ff_pos y) as Fp. assert (T54 : / 2 ^ 54 <= 1 / 100) by (cbn; lra).
  assert (K : 99 / 100 * ff y <= c / sqrt y) by nra.
  assert (K2 : 99 / 100 * (sqrt y * ff y) <= c).
  { replace c with (sqrt y * (c / sqrt y)) by (field; lra). replace (99 / 100 * (sqrt y * ff y)) with (sqrt y * (99 / 100 * ff y)) by ring. apply Rmult_le_compat_l; lra. }
  lra.
Qed.
Lemma tn_emax y : y <= FM -> y * tn <= 4 * u.
Proof.
  intros Hy. pose proof (tn0 prec emax) as T0. rewrite fmax_eq in Hy. pose proof (bpow_gt_0 radix2 (emax - prec)).
  apply Rle_trans with (bpow radix2 emax * tn); [apply Rmult_le_compat_r; lra|]. right.
  rewrite <- tiny_eq. unfold uround. rewrite <- bpow_powerRZ.
  replace 4 with (bpow radix2 2) by (cbn; lra). replace (/ 2) with (bpow radix2 (-1)) by (cbn; lra). rewrite <- !bpow_plus. f_equal. unfold SpecFloat.emin. ring.
Qed.
Lemma fin_le_FM x : fin x -> Rabs (fval x) <= FM.
Proof.
  intros Fx. destruct (finite_B prec emax x Fx) as [b [_ [Fb ->]]]. rewrite fmax_eq. apply abs_B2R_le_emax_minus_prec. exact Hp2.
Qed.

Lemma small_arith cv C F : Rabs (cv - C) <= 523 / 10 * u -> Rabs (C - F) <= / 2 ^ 54 * F -> 1434 / 10000 <= F -> Rabs (cv - F) <= (365 * u + / 2 ^ 53) * F.
Proof.
  intros Ec Cl Fg. pose proof (u0 prec) as U0. assert (T54 : / 2 ^ 54 <= / 2 ^ 53) by (cbn; lra).
  replace (cv - F) with ((cv - C) + (C - F)) by ring. eapply Rle_trans; [apply Rabs_triang|].
  assert (523 / 10 * u <= 365 * u * F) by nra. assert (/ 2 ^ 54 * F <= / 2 ^ 53 * F) by (apply Rmult_le_compat_r; lra). lra.
Qed.
Lemma large_arith cv C F s : 0 < s -> Rabs (cv - C) <= 1542 / 100 * u -> Rabs (C / s - F) <= / 2 ^ 54 * F -> 38 / 100 <= s * F ->
  Rabs (cv - s * F) <= (41 * u + / 2 ^ 54) * (s * F).
Proof.
  intros Sy Ec Cl Gl. pose proof (u0 prec) as U0.
  assert (Q : Rabs (C - s * F) <= / 2 ^ 54 * (s * F)).
  { replace (C - s * F) with (s * (C / s - F)) by (field; lra). rewrite Rabs_mult, (Rabs_pos_eq s) by lra.
    replace (/ 2 ^ 54 * (s * F)) with (s * (/ 2 ^ 54 * F)) by ring. apply Rmult_le_compat_l; lra. }
  replace (cv - s * F) with ((cv - C) + (C - s * F)) by ring. eapply Rle_trans; [apply Rabs_triang|].
  assert (1542 / 100 * u <= 41 * u * (s * F)) by nra. lra.
Qed.
(** The two branches of i0e. *)
Lemma i0e_small x : fin x -> 0 <= fval x <= 8 ->
  let c := chbevl (nsub (ndiv x (nofZ 2)) (nofZ 2)) (map nofQ I0_A_F64) in
  fin c /\ Rabs (fval c - ff (fval x)) <= (365 * u + / 2 ^ 53) * ff (fval x).
Proof.
  intros Fx Hx. destruct (arg_small x Fx Hx) as [Fy [By Ey]].
  destruct (chb_A (fval x / 2 - 2) _ ltac:(lra) Fy By Ey) as [Fc Ec]. split; [exact Fc|].
  exact (small_arith _ _ _ Ec (close_small _ Hx) (ff_ge8 _ Hx)).
Qed.
Lemma i0e_large x : fin x -> 8 < fval x ->
  let c := chbevl (nsub (ndiv (nofZ 32) x) (nofZ 2)) (map nofQ I0_B_F64) in
  fin c /\ Rabs (fval c - sqrt (fval x) * ff (fval x)) <= (41 * u + / 2 ^ 54) * (sqrt (fval x) * ff (fval x)).
Proof.
  intros Fx Hx. destruct (arg_large x Fx Hx) as [Fy [By Ey]].
  destruct (chb_B (32 / fval x - 2) _ (large_range (fval x) Hx) Fy By Ey) as [Fc Ec]. split; [exact Fc|].
  exact (large_arith _ _ _ _ (sqrt_lt_R0 (fval x) ltac:(lra)) Ec (close_large _ Hx) (proj1 (big_G _ Hx))).
Qed.
(** Division by the rounded square root. *)
Lemma quot_err c x F A : fin c -> fin x -> 8 < fval x -> 0 <= A <= 1 / 100 -> 38 / 100 <= sqrt (fval x) * F ->
  Rabs (fval c - sqrt (fval x) * F) <= A * (sqrt (fval x) * F) -> Rabs (fval c) <= FM ->
  fin (ndiv c (nsqrt x)) /\ Rabs (fval (ndiv c (nsqrt x)) - F) <= (1001 / 1000 * A + 8 * u) * F.
Proof.
  intros Fc Fx Hx HA HG Ec Bc. pose proof (u0 prec) as U0. pose proof (u24 prec emax Hpe) as U1. pose proof (tn0 prec emax) as T0.
  assert (U2 : u <= / 10000) by (assert (/ 2 ^ 24 <= / 10000) by (cbn; lra); lra).
  destruct (fsqrt_ok prec emax Hp2 He2 x Fx ltac:(lra)) as [Fs Vs].
  pose proof (sqrt_err prec emax Hp2 He2 ltac:(lia) (fval x) (finite_format prec emax x Fx) ltac:(lra)) as Es. rewrite <- Vs in Es.
  change (SFsqrt prec emax x) with (nsqrt x) in *. set (sh := nsqrt x) in *. 
  pose proof (sqrt_lt_R0 (fval x) ltac:(lra)) as Sy. assert (S2 : 2 <= sqrt (fval x)).
  { apply Rsqr_incr_0_var; [|lra]. rewrite Rsqr_sqrt by lra. unfold Rsqr. lra. }
  assert (SS : sqrt (fval x) * sqrt (fval x) = fval x) by (apply sqrt_sqrt; lra).
  set (s := sqrt (fval x)) in *.
  assert (Fp : 0 < F) by (destruct (Rlt_le_dec 0 F) as [|N]; [assumption|]; nra).
  assert (Bs : (1 - u) * s <= fval sh <= (1 + u) * s) by (apply Rabs_le_inv in Es; lra).
  assert (Ps : 1 <= fval sh) by nra.
  assert (Q : Rabs (fval c / fval sh - F) <= (1001 / 1000 * A + 11 / 10 * u) * F).
  { replace (fval c / fval sh - F) with ((fval c - F * fval sh) / fval sh) by (field; lra).
    unfold Rdiv. rewrite Rabs_mult, (Rabs_pos_eq (/ fval sh)) by (left; apply Rinv_0_lt_compat; lra).
    apply (Rmult_le_reg_r (fval sh)); [lra|]. rewrite Rmult_assoc, Rinv_l, Rmult_1_r by lra.
    assert (B : Rabs (fval c - F * fval sh) <= (A + u) * (s * F)).
    { replace (fval c - F * fval sh) with ((fval c - s * F) - F * (fval sh - s)) by ring. eapply Rle_trans; [apply Rabs_triang|].
      rewrite Rabs_Ropp, Rabs_mult, (Rabs_pos_eq F) by lra. nra. }
    eapply Rle_trans; [exact B|]. apply Rle_trans with ((1001 / 1000 * A + 11 / 10 * u) * F * ((1 - u) * s)); [|apply Rmult_le_compat_l; [apply Rmult_le_pos; lra|lra]].
    replace ((1001 / 1000 * A + 11 / 10 * u) * F * ((1 - u) * s)) with ((1001 / 1000 * A + 11 / 10 * u) * (1 - u) * (s * F)) by ring.
    apply Rmult_le_compat_r; [nra|]. nra. }
  assert (Bq : Rabs (fval c / fval sh) <= 11 / 10 * F).
  { replace (fval c / fval sh) with ((fval c / fval sh - F) + F) by ring. eapply Rle_trans; [apply Rabs_triang|]. rewrite (Rabs_pos_eq F) by lra. nra. }
  assert (Mq : Rabs (fval c / fval sh) <= FM).
  { unfold Rdiv. rewrite Rabs_mult, (Rabs_pos_eq (/ fval sh)) by (left; apply Rinv_0_lt_compat; lra).
    apply Rle_trans with (Rabs (fval c) * 1); [|lra]. apply Rmult_le_compat_l; [apply Rabs_pos|]. rewrite <- Rinv_1. apply Rinv_le_contravar; lra. }
  destruct (fdiv_ok prec emax Hp2 He2 c sh Fc Fs ltac:(lra) Mq) as [Fr Vr]. change (SFdiv prec emax c sh) with (ndiv c sh) in *. split; [exact Fr|].
  pose proof (rnd_err prec emax Hp2 (fval c / fval sh)) as Er. rewrite <- Vr in Er.
  assert (Tb : tn <= 53 / 10 * u * F).
  { pose proof (fin_le_FM x Fx) as Xm. rewrite Rabs_pos_eq in Xm by lra. pose proof (tn_emax _ Xm) as Te. rewrite <- SS in Te.
    assert (K : s * tn <= 2 * u) by nra. apply (Rmult_le_reg_l s); [exact Sy|]. eapply Rle_trans; [exact K|].
    replace (s * (53 / 10 * u * F)) with (53 / 10 * u * (s * F)) by ring. nra. }
  replace (fval (ndiv c sh) - F) with ((fval (ndiv c sh) - fval c / fval sh) + (fval c / fval sh - F)) by ring. eapply Rle_trans; [apply Rabs_triang|].
  assert (u * Rabs (fval c / fval sh) <= 11 / 10 * u * F) by nra. nra.
Qed.
Lemma i0e_float_core x : fin x -> let r := i0e_f64 x in
  fin r /\ Rabs (fval r - ff (Rabs (fval x))) <= (365 * u + / 2 ^ 53) * ff (Rabs (fval x)).
Proof.
  intros Fx r. destruct (abs_ok x Fx) as [Fa Va]. destruct (ofZ_small 8 ltac:(lia)) as [F8 V8].
  pose proof (Rabs_pos (fval x)) as Px. subst r. unfold i0e_f64, i0e_gen. change (nabs x) with (SFabs x). change (@nleb _ SFN2) with SFleb.
  rewrite leb_fval, Va, V8 by assumption. destruct (Rleb_spec (Rabs (fval x)) 8) as [L|G].
  - pose proof (i0e_small (SFabs x) Fa ltac:(rewrite Va; lra)) as S. rewrite Va in S. exact S.
  - apply Rnot_le_lt in G. destruct (i0e_large (SFabs x) Fa ltac:(rewrite Va; lra)) as [Fc Ec].
    revert Fc Ec. generalize (chbevl (nsub (ndiv (nofZ 32) (SFabs x)) (nofZ 2)) (map nofQ I0_B_F64)). intros c Fc Ec.
    destruct (big_G (Rabs (fval x)) G) as [Gl Gh]. pose proof (u0 prec) as U0. pose proof (u24 prec emax Hpe) as U1.
    assert (U2 : 41 * u + / 2 ^ 54 <= / 10000) by (assert (41 * / 2 ^ 24 + / 2 ^ 54 <= / 10000) by (cbn; lra); lra).
    assert (P54 : 0 < / 2 ^ 54) by (apply Rinv_0_lt_compat, pow_lt; lra).
    pose proof (ff_pos (Rabs (fval x))) as Fp.
    destruct (quot_err c (SFabs x) (ff (Rabs (fval x))) (41 * u + / 2 ^ 54) Fc Fa ltac:(rewrite Va; lra) ltac:(lra) ltac:(rewrite Va; lra) ltac:(rewrite Va in *; exact Ec) (fin_le_FM c Fc)) as [Fr Er].
    split; [exact Fr|]. eapply Rle_trans; [exact Er|]. apply Rmult_le_compat_r; [lra|].
    assert (E53 : / 2 ^ 53 = 2 * / 2 ^ 54) by (cbn; lra). lra.
Qed.
(** Multiplication by an approximate exponential. *)
Lemma prod_err e c E C rho A : fin e -> fin c -> 1 <= E -> 1 / 10 <= C -> 0 <= rho <= 1 / 200 -> 0 <= A <= 1 / 200 ->
  Rabs (fval e - E) <= rho * E -> Rabs (fval c - C) <= A * C -> Rabs (fval e * fval c) <= FM ->
  fin (nmul e c) /\ Rabs (fval (nmul e c) - E * C) <= (rho + 101 / 100 * A + 2 * u) * (E * C).
Proof.
  intros Fe Fc HE HC Hr HA Ee Ec M. destruct (fmul_ok prec emax Hp2 He2 e c Fe Fc M) as [Fr Vr]. change (SFmul prec emax e c) with (nmul e c) in *. split; [exact Fr|].
  pose proof (u0 prec) as U0. pose proof (tn0 prec emax) as T0. pose proof (tn_u prec emax Hpe) as Tt.
  assert (Hu : u * / 2 ^ 20 <= u * / 1000) by (apply Rmult_le_compat_l; [lra|cbn; lra]).
  pose proof (rnd_err prec emax Hp2 (fval e * fval c)) as Er. rewrite <- Vr in Er. revert Ee Ec Er. generalize (fval e) (fval c) (fval (nmul e c)). clear - HE HC Hr HA U0 T0 Tt Hu.
  intros a b r Ee Ec Er. assert (EC : 1 / 10 <= E * C) by nra.
  assert (Q : Rabs (a * b - E * C) <= (rho + 201 / 200 * A) * (E * C)).
  { replace (a * b - E * C) with ((a - E) * C + a * (b - C)) by ring. eapply Rle_trans; [apply Rabs_triang|]. rewrite !Rabs_mult, (Rabs_pos_eq C) by lra.
    assert (K : Rabs a <= 201 / 200 * E). { replace a with ((a - E) + E) by ring. eapply Rle_trans; [apply Rabs_triang|]. rewrite (Rabs_pos_eq E) by lra. nra. }
    assert (K1 : Rabs (a - E) * C <= rho * E * C) by (apply Rmult_le_compat_r; lra).
    assert (K2 : Rabs a * Rabs (b - C) <= 201 / 200 * E * (A * C)) by (apply Rmult_le_compat; try apply Rabs_pos; assumption).
    lra. }
  assert (K : Rabs (a * b) <= 102 / 100 * (E * C)).
  { replace (a * b) with ((a * b - E * C) + E * C) by ring. eapply Rle_trans; [apply Rabs_triang|]. rewrite (Rabs_pos_eq (E * C)) by lra. nra. }
  assert (K2 : u * Rabs (a * b) <= 102 / 100 * u * (E * C)) by nra.
  assert (K3 : tn <= u * (E * C) * (1 / 10)) by nra.
  assert (K4 : 0 <= A * (E * C)) by (apply Rmult_le_pos; lra). assert (K5 : 0 <= u * (E * C)) by (apply Rmult_le_pos; lra).
  replace (r - E * C) with ((r - a * b) + (a * b - E * C)) by ring. eapply Rle_trans; [apply Rabs_triang|]. lra.
Qed.
Lemma exp8 : exp 8 <= 6561.
Proof.
  replace 8 with (1 + 1 + (1 + 1) + (1 + 1 + (1 + 1))) by ring. rewrite !exp_plus. pose proof exp_le_3 as T. pose proof (exp_pos 1) as P. set (e := exp 1) in *.
  assert (e * e <= 9) by nra. assert (0 < e * e) by nra. set (f := e * e) in *. assert (f * f <= 81) by nra. assert (0 < f * f) by nra. nra.
Qed.
Lemma exp_le8 y : y <= 8 -> exp y <= 6561.
Proof. intros [L|E]; [eapply Rle_trans; [left; apply exp_increasing; exact L|exact exp8]|rewrite E; exact exp8]. Qed.
Lemma i0_float_core (TF : Trans spec_float) x rho : 0 <= rho <= 1 / 200 -> fin x -> fin (texp (SFabs x)) ->
  Rabs (fval (texp (SFabs x)) - exp (Rabs (fval x))) <= rho * exp (Rabs (fval x)) -> let r := i0_f64 x in let y := Rabs (fval x) in
  fin r /\ Rabs (fval r - exp y * ff y) <= (101 / 100 * rho + 375 * u + / 2 ^ 52) * (exp y * ff y).
Proof.
  intros Hr Fx Fe Ee r y. destruct (abs_ok x Fx) as [Fa Va]. destruct (ofZ_small 8 ltac:(lia)) as [F8 V8].
  pose proof (Rabs_pos (fval x)) as Px. subst r. unfold i0_f64, i0_gen. change (nabs x) with (SFabs x). change (@nleb _ SFN2) with SFleb.
  rewrite leb_fval, Va, V8 by assumption. fold y in Ee, Px, Va |- *.
  pose proof (u0 prec) as U0. pose proof (u24 prec emax Hpe) as U1.
  assert (U2 : 365 * u + / 2 ^ 53 <= / 10000) by (assert (365 * / 2 ^ 24 + / 2 ^ 53 <= / 10000) by (cbn; lra); lra).
  assert (E53 : / 2 ^ 53 = 2 * / 2 ^ 54 /\ / 2 ^ 52 = 4 * / 2 ^ 54) by (split; cbn; lra). destruct E53 as [E53 E52].
  assert (P54 : 0 < / 2 ^ 54) by (apply Rinv_0_lt_compat, pow_lt; lra). pose proof (ff_pos y) as Fp.
  assert (HE : 1 <= exp y) by (rewrite <- exp_0; destruct (Req_dec y 0) as [->|N]; [lra|left; apply exp_increasing; lra]).
  pose proof (FM24 prec emax Hpe) as FMb. assert (FMc : 1000000 <= FM) by (assert (1000000 <= 2 ^ 24) by (cbn; lra); lra). clear FMb.
  destruct (Rleb_spec y 8) as [L|G].
  - destruct (i0e_small (SFabs x) Fa ltac:(rewrite Va; lra)) as [Fc Ec]. rewrite Va in Ec.
    revert Fc Ec. generalize (chbevl (nsub (ndiv (SFabs x) (nofZ 2)) (nofZ 2)) (map nofQ I0_A_F64)). intros c Fc Ec.
    pose proof (ff_ge8 y ltac:(lra)) as F1. pose proof (ff_le3 y ltac:(lra)) as F2.
    assert (M : Rabs (fval (texp (SFabs x)) * fval c) <= FM).
    { assert (X8 : exp y <= 6561) by (apply exp_le8; lra).
      apply Rabs_le_inv in Ee. apply Rabs_le_inv in Ec.
      assert (B1 : Rabs (fval (texp (SFabs x))) <= 2 * 6561) by (apply Rabs_le; nra).
      assert (B2 : Rabs (fval c) <= 4) by (apply Rabs_le; nra).
      rewrite Rabs_mult. apply Rle_trans with (2 * 6561 * 4); [|lra]. apply Rmult_le_compat; try apply Rabs_pos; assumption. }
    destruct (prod_err _ _ (exp y) (ff y) rho (365 * u + / 2 ^ 53) Fe Fc HE ltac:(lra) Hr ltac:(lra) Ee Ec M) as [Fr Er]. split; [exact Fr|].
    eapply Rle_trans; [exact Er|]. apply Rmult_le_compat_r; [apply Rmult_le_pos; lra|]. lra.
  - apply Rnot_le_lt in G. destruct (i0e_large (SFabs x) Fa ltac:(rewrite Va; lra)) as [Fc Ec]. rewrite Va in Ec.
    revert Fc Ec. generalize (chbevl (nsub (ndiv (nofZ 32) (SFabs x)) (nofZ 2)) (map nofQ I0_B_F64)). intros c Fc Ec.
    destruct (big_G y G) as [Gl Gh].
    assert (M : Rabs (fval (texp (SFabs x)) * fval c) <= FM).
    { rewrite Rabs_mult. apply Rle_trans with (FM * 1); [|lra]. apply Rmult_le_compat; try apply Rabs_pos; [apply fin_le_FM; exact Fe|].
      apply Rabs_le_inv in Ec. set (g := sqrt y * ff y) in *. apply Rabs_le. assert ((41 * u + / 2 ^ 54) * g <= 1 / 100 * g) by (apply Rmult_le_compat_r; lra). lra. }
    destruct (prod_err _ _ (exp y) (sqrt y * ff y) rho (41 * u + / 2 ^ 54) Fe Fc HE ltac:(lra) Hr ltac:(lra) Ee Ec M) as [Fm Em].
    destruct (quot_err _ (SFabs x) (exp y * ff y) (rho + 101 / 100 * (41 * u + / 2 ^ 54) + 2 * u) Fm Fa ltac:(rewrite Va; lra) ltac:(lra)) as [Fr Er].
    + rewrite Va. replace (sqrt y * (exp y * ff y)) with (exp y * (sqrt y * ff y)) by ring. set (g := sqrt y * ff y) in *. apply Rle_trans with (1 * g); [lra|]. apply Rmult_le_compat_r; lra.
    + rewrite Va. replace (sqrt y * (exp y * ff y)) with (exp y * (sqrt y * ff y)) by ring. exact Em.
    + apply fin_le_FM; exact Fm.
    + split; [exact Fr|]. eapply Rle_trans; [exact Er|]. apply Rmult_le_compat_r; [apply Rmult_le_pos; lra|]. lra.
Qed.
End I0.
