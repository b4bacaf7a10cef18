(** Property C78, continued: the digital Chebyshev II high-pass is wrong for every order
    above one and every critical frequency. *)
From Coq Require Import List Arith ZArith Reals Permutation Sorted Lra Lia.
From Verif Require Import Base Num Trans M_Complex M_Filter M_Design Cx S_Bessel S_Design P_Bessel P_Savgol P_Poly P_Lp P_CPoly P_Sort P_Proto P_Cheb P_Iir P_Iir2 P_Cheb2 P_LpExact T_Iir T_Sos T_Cheb2.
Import ListNotations.
Local Open Scope R_scope.

Lemma xs_some N : (1 < N)%nat -> exists x, In x (xs N) /\ x <> 0 /\ chebT N x = 0.
Proof.
  intros HN. assert (H0 : (0 < N)%nat) by lia.
  destruct (xs N) as [|x l] eqn:E.
  - exfalso. destruct (xs_cheb N H0 1) as [Q _]. rewrite E in Q. cbn [rprod fold_right length] in Q. rewrite pow1 in Q.
    assert (A2 : chebT N 1 * chebT N 1 <= 1) by (apply chebT_abs_le1; rewrite Rabs_R1; lra).
    assert (2 <= 2 ^ (N - 1)) by (destruct N as [|[|n]]; try lia; replace (S (S n) - 1)%nat with (S n) by lia; cbn [pow]; pose proof (pow_R1_Rle 2 n ltac:(lra)); lra).
    rewrite Q in A2. nra.
  - exists x. split; [left; reflexivity|]. split.
    + pose proof (xs_nz N H0) as F. rewrite E in F. inversion F; assumption.
    + destruct (xs_cheb N H0 x) as [-> _]. rewrite E. cbn [rprod fold_right]. ring.
Qed.

(** The filter the call returns fails the two first clauses of
    [C78_cheby2_digital_partial]: gain one at Nyquist and gain zero at the stop-band zeros
    of the design (the angles where the Chebyshev polynomial vanishes). *)
Theorem C78_cheby2_highpass_all_refuted epsilon sort N rp rs wn analog fs :
  (1 < N)%nat -> 0 <= rp -> 0 < rs -> analog <> Some true -> valid_digital Highpass (normalised wn fs) ->
  exists f, iirfilter_dyn epsilon sort N wn (Some rp) (Some rs) (Some Highpass) (Some ChebyshevII) analog (Some OutZpk) fs = Ok (DZpk f) /\
    ~ (forall theta, let (a, b) := band_ratio Highpass (normalised wn fs) theta in
        (a = 0 -> dgain_sqr f theta = 1) /\ (a <> 0 -> chebT N (b / a) = 0 -> dgain_sqr f theta = 0)).
Proof.
  intros HN Hp Hs Ha Hv. assert (H0 : (0 < N)%nat) by lia.
  set (z := map (fun x => ((0, 1 / x) : C)) (xs N)). set (p := map (fun r => C1 / r)%C (map (cp N (eps2 rs)) (seq 0 N))).
  assert (Ez : @cheb2ap_dyn R RNum RTrans N rs = mkZpk z p (k2 N rs)) by (apply cheb2ap_eq; assumption).
  assert (LP : length p = N) by (unfold p; rewrite !map_length, seq_length; reflexivity).
  assert (Pr : proper (mkZpk z p (k2 N rs))) by (unfold proper; cbn [zk_z zk_p]; rewrite LP; unfold z; rewrite map_length; apply (xs_cheb N H0 0)).
  assert (Hps : Forall (fun r => cre r < 0) p) by (apply P2_stable; assumption).
  destruct Hv as [Hl [Hf Hsort]] eqn:EHv. clear EHv. destruct (normalised wn fs) as [|w [|? ?]] eqn:En; try discriminate Hl.
  assert (Hw : 0 < w < 1) by (inversion Hf; assumption). destruct (warp_trig w Hw) as [S0 [Cc0 EW]].
  set (W := warp w) in *. assert (W0 : 0 < W) by (rewrite EW; apply Rdiv_lt_0_compat; lra).
  destruct (apply_band_proper Highpass (mkZpk z p (k2 N rs)) [W] Pr) as [f1 [E1 P1]].
  destruct (bilinear_total f1 2 P1) as [f E2].
  exists f. split.
  { rewrite cheby2_reduced by (try assumption; rewrite En; assumption). rewrite Ez, En. cbn [map]. fold W. rewrite E1. cbn [bind]. rewrite E2. reflexivity. }
  cbn [apply_band nth] in E1. destruct (hp_shape _ _ _ Pr E1) as [Z1 PP1]. cbn [zk_z zk_p] in Z1, PP1.
  destruct (bilinear_eq _ _ _ E2) as [_ [Z2' [PP2 K2']]].
  assert (L1 : (length (zk_p f1) - length (zk_z f1) = 0)%nat).
  { rewrite Z1, PP1, app_length, !map_length, repeat_length. unfold proper in Pr. cbn [zk_z zk_p] in Pr. lia. }
  rewrite L1 in Z2'. cbn [repeat] in Z2'. rewrite app_nil_r in Z2'.
  intros HH. unfold band_ratio in HH. cbn [nth] in HH.
  (* at Nyquist *)
  assert (K0 : zk_k f <> 0).
  { intros Q. pose proof (proj1 (HH PI)) as G. rewrite cos_PI2 in G. specialize (G ltac:(ring)). unfold dgain_sqr, H in G. rewrite Q in G.
    revert G. match goal with |- cnorm_sqr ?e = 1 -> _ => replace e with C0 by (apply C_ext; cbn; unfold Rdiv; ring) end. cbn. lra. }
  destruct (xs_some N HN) as [x [Ix [Nx Tx]]].
  set (phi := atan (x * tan (PI * w / 2))). pose proof (atan_bound (x * tan (PI * w / 2))) as Bp. fold phi in Bp.
  assert (Cp : 0 < cos phi) by (apply cos_gt_0; lra).
  assert (Tp : sin phi = x * sin (PI * w / 2) / cos (PI * w / 2) * cos phi).
  { assert (tan phi = x * tan (PI * w / 2)) as T by (unfold phi; apply tan_atan). unfold tan in T.
    replace (sin phi) with (sin phi / cos phi * cos phi) by (field; lra). rewrite T. field. lra. }
  pose proof (HH (2 * phi)) as [_ G]. replace (2 * phi / 2) with phi in G by field.
  assert (Na : cos phi * sin (PI * w / 2) <> 0) by (apply Rmult_integral_contrapositive; split; lra).
  specialize (G Na). replace (sin phi * cos (PI * w / 2) / (cos phi * sin (PI * w / 2))) with x in G by (rewrite Tp; field; repeat split; lra).
  specialize (G Tx). unfold dgain_sqr in G.
  assert (Sn : sin (2 * phi) <> 0).
  { rewrite sin_2a, Tp. intros Q. apply Nx. apply (Rmult_eq_reg_r (2 * sin (PI * w / 2) / cos (PI * w / 2) * (cos phi * cos phi))).
    - rewrite Rmult_0_l, <- Q. field. lra.
    - apply Rgt_not_eq. apply Rmult_lt_0_compat; [apply Rdiv_lt_0_compat; lra|nra]. }
  set (e := (cos (2 * phi), sin (2 * phi)) : C) in *.
  assert (Ne : cnorm_sqr e = 1) by (unfold e; cbn; pose proof (sin2_cos2 (2 * phi)) as Q; unfold Rsqr in Q; lra).
  assert (Np : ~ In e (zk_p f)).
  { rewrite PP2, PP1, map_map. intros Q. apply in_map_iff in Q. destruct Q as [r [Q Ir]].
    rewrite Forall_forall in Hps. pose proof (inv_stable W r W0 (Hps r Ir)) as St.
    assert (NF : (RtoC W / r)%C <> RtoC (2 * 2)) by (intros Q'; rewrite Q' in St; cbn in St; lra).
    pose proof (proj2 (bil_inside 2 _ ltac:(lra) NF) St) as B. rewrite Q, Ne in B. lra. }
  assert (Ie : In e (zk_z f)).
  { apply rp_zero. apply cnorm_sqr_zero in G. unfold H in G. pose proof (root_product_neq0 _ _ Np) as RP.
    assert (X : (RtoC (zk_k f) * root_product (zk_z f) e = C0)%C).
    { transitivity ((RtoC (zk_k f) * root_product (zk_z f) e / root_product (zk_p f) e) * root_product (zk_p f) e)%C; [field; exact RP|]. rewrite G. ring. }
    apply Cmul_eq0 in X. destruct X as [X|X]; [|exact X]. contradiction (RtoC_neq0 _ K0). }
  rewrite Z2', Z1, map_app in Ie.
  assert (Im : cim e = 0).
  { apply in_app_iff in Ie. destruct Ie as [Ie|Ie].
    - apply in_map_iff in Ie. destruct Ie as [r [<- Ir]]. apply in_map_iff in Ir. destruct Ir as [r' [<- Ir]]. unfold z in Ir. apply in_map_iff in Ir. destruct Ir as [y [<- Iy]].
      assert (Ey : badz W (0, 1 / y) = RtoC (2 * W * y)).
      { assert (y <> 0) by (pose proof (xs_nz N H0) as F; rewrite Forall_forall in F; apply F, Iy). apply C_ext; cbn; field; assumption. }
      rewrite Ey. unfold bil. cbn. unfold Rdiv. ring.
    - apply in_map_iff in Ie. destruct Ie as [r [<- Ir]]. apply repeat_spec in Ir. subst r. unfold bil. cbn. unfold Rdiv. ring. }
  apply Sn. exact Im.
Qed.
Print Assumptions C78_cheby2_highpass_all_refuted.
Example C78_cheby2_highpass_all_ex : valid_digital Highpass (normalised [1 / 3] None) /\ (1 < 5)%nat.
Proof. split; [|lia]. split; [reflexivity|]. split; repeat constructor; cbn; lra. Qed.
