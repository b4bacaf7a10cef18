(** Proofs about [iirfilter_dyn] and the digital designs. *)
From Coq Require Import List Arith ZArith Reals Permutation Sorted Lra Lia Bool.
From Verif Require Import Base Num Trans M_Complex M_Filter M_Design RSum Cx S_Design S_Bessel P_Bessel P_Savgol P_Poly P_Lp P_CPoly P_Proto P_Cheb.
Import ListNotations.
Local Open Scope R_scope.

(** ** Homogeneous transfer function *)
Definition numH (f : @ZpkFormatFilter R) (a b : C) : C :=
  (RtoC (zk_k f) * hom (zk_z f) a b * cpow b (length (zk_p f) - length (zk_z f)))%C.
Definition denH (f : @ZpkFormatFilter R) (a b : C) : C := hom (zk_p f) a b.
Lemma H_numden f x : H f x = (numH f x C1 / denH f x C1)%C.
Proof.
  unfold numH, denH. rewrite H_hom. f_equal. replace (cpow C1 (length (zk_p f) - length (zk_z f))) with C1; [ring|].
  generalize (length (zk_p f) - length (zk_z f))%nat as n. induction n as [|n IH]; [reflexivity|]. cbn [cpow]. rewrite <- IH. ring.
Qed.

Lemma bilinear_len f fs f' : bilinear_zpk_dyn f fs = Ok f' -> length (zk_z f') = length (zk_p f) /\ length (zk_p f') = length (zk_p f).
Proof.
  intros Hf. apply bilinear_eq in Hf. destruct Hf as [Hl [-> [-> _]]]. unfold proper in Hl.
  rewrite app_length, !map_length, repeat_length. split; lia.
Qed.
Lemma bilinear_numden f fs f' x : bilinear_zpk_dyn f fs = Ok f' -> real_filter f -> ~ In (RtoC (2 * fs)) (zk_z f) -> ~ In (RtoC (2 * fs)) (zk_p f) ->
  H f' x = (numH f (RtoC (2 * fs)%R * (x - C1)) (x + C1) / denH f (RtoC (2 * fs)%R * (x - C1)) (x + C1))%C.
Proof.
  intros Hf Hr Hz Hp. rewrite H_hom, (bilinear_num f fs Hz Hp f') by assumption. rewrite (bilinear_den f fs Hp f') by assumption.
  unfold numH, denH. set (D := hom (zk_p f) (RtoC (2 * fs)%R) C1). assert (ND : D <> C0) by (unfold D; rewrite hom_1; apply root_product_neq0, Hp).
  set (N := hom (zk_p f) _ (x + C1)%C).
  destruct (Req_EM_T (cnorm_sqr N) 0) as [Z|Z].
  - apply cnorm_sqr_zero in Z. rewrite Z. replace (C0 / D)%C with C0 by (field; exact ND).
    set (M := (_ * cpow _ _)%C). clearbody M D. clear - ND.
    (* division by zero: both sides are 0 by x * / 0 = ... *)
    apply C_ext; cbn; unfold Rdiv; rewrite !Rmult_0_r, !Rplus_0_r || idtac; ring_simplify; reflexivity.
  - assert (NN : N <> C0) by (intros Q; apply Z; rewrite Q; cbn; ring). field. split; assumption.
Qed.

(** ** Band transformation of a zero-free prototype *)
Definition apply_band (bt : FilterBandType) (g : @ZpkFormatFilter R) (w : list R) : res ZpkFormatFilter :=
  match bt with
  | Lowpass => lp2lp_zpk_dyn g (Some (nth 0 w 0))
  | Highpass => lp2hp_zpk_dyn g (Some (nth 0 w 0))
  | Bandpass => lp2bp_zpk_dyn g (Some (sqrt (nth 0 w 0 * nth 1 w 0))) (Some (nth 1 w 0 - nth 0 w 0))
  | Bandstop => lp2bs_zpk_dyn g (Some (sqrt (nth 0 w 0 * nth 1 w 0))) (Some (nth 1 w 0 - nth 0 w 0))
  end.
(** homogeneous band map *)
Definition XY (bt : FilterBandType) (w : list R) (a b : C) : C * C :=
  match bt with
  | Lowpass => (a, b * RtoC (nth 0 w 0%R))%C
  | Highpass => (b * RtoC (nth 0 w 0%R), a)%C
  | Bandpass => (a * a + b * b * RtoC (nth 0 w 0 * nth 1 w 0)%R, RtoC (nth 1 w 0 - nth 0 w 0)%R * a * b)%C
  | Bandstop => (RtoC (nth 1 w 0 - nth 0 w 0)%R * a * b, a * a + b * b * RtoC (nth 0 w 0 * nth 1 w 0)%R)%C
  end.
Definition valid_warped (bt : FilterBandType) (w : list R) : Prop :=
  match bt with
  | Lowpass | Highpass => 0 < nth 0 w 0
  | _ => 0 < nth 0 w 0 < nth 1 w 0
  end.

Section Band.
Variables (p : list C) (k : R).
Hypothesis Hs : Forall (fun r => cre r < 0) p.
Hypothesis Hc : conj_closed p.
Notation g := (mkZpk [] p k).
Lemma p_no0 : ~ In C0 p.
Proof. intros Hin. rewrite Forall_forall in Hs. apply Hs in Hin. cbn in Hin. lra. Qed.
Lemma D_neq0 : hom p C0 C1 <> C0.
Proof. rewrite hom_1. apply root_product_neq0, p_no0. Qed.
Lemma D_inv : (C1 / hom p C0 C1)%C <> C0.
Proof.
  intros Q. apply C10. transitivity (C1 / hom p C0 C1 * hom p C0 C1)%C; [field; exact D_neq0|]. rewrite Q. ring.
Qed.

Lemma band_spec bt w : valid_warped bt w -> exists f1, apply_band bt g w = Ok f1 /\ proper f1 /\ real_filter f1 /\ stable_analog f1 /\
  length (zk_p f1) = (band_arity bt * length p)%nat /\ Forall (fun z => cre z = 0) (zk_z f1) /\
  exists K, K <> C0 /\ forall a b, numH f1 a b = (K * (RtoC k * cpow (snd (XY bt w a b)) (length p)))%C /\
                                    denH f1 a b = (K * hom p (fst (XY bt w a b)) (snd (XY bt w a b)))%C.
Proof.
  intros Hw. destruct bt; cbn [valid_warped] in Hw.
  - (* lowpass *)
    set (w0 := nth 0 w 0) in *.
    assert (Ex : exists f1, lp2lp_zpk_dyn g (Some w0) = Ok f1).
    { unfold lp2lp_zpk_dyn. rewrite relative_degree_le by (cbn; lia). cbn [bind]. eauto. }
    destruct Ex as [f1 E1]. exists f1. split; [exact E1|]. pose proof (lp2lp_eq _ _ _ E1) as [_ [Ez [Ep Ek]]].
    cbn [zk_z zk_p zk_k map length] in Ez, Ep, Ek. rewrite Nat.sub_0_r in Ek. unfold proper, real_filter, stable_analog.
    rewrite Ez, Ep. cbn [band_arity Nat.mul length]. rewrite map_length, Nat.add_0_r. repeat split; try lia; try constructor.
    + apply conj_closed_map; [intros; apply scale_conj|exact Hc].
    + apply (Forall_map_in _ (fun r => cre r < 0)); [intros; apply scale_stable; assumption|exact Hs].
    + exists C1. split; [exact C10|]. intros a b. unfold numH, denH. rewrite Ez, Ep, Ek, lp2lp_hom. cbn [XY fst snd length].
      fold w0. change (hom [] a b) with C1. rewrite map_length, Nat.sub_0_r, cpow_mul, RtoC_mul, RtoC_pow. split; ring.
  - (* highpass *)
    set (w0 := nth 0 w 0) in *.
    destruct (lp2hp_eq g w0 eq_refl p_no0 Hc) as [f1 [E1 [Ez [Ep Ek]]]]. exists f1. split; [exact E1|].
    cbn [zk_z zk_p zk_k] in Ez, Ep, Ek. unfold proper, real_filter, stable_analog.
    rewrite Ez, Ep. cbn [band_arity Nat.mul]. rewrite map_length, repeat_length, Nat.add_0_r. repeat split; try lia.
    + apply conj_closed_repeat. reflexivity.
    + apply conj_closed_map; [intros; apply inv_conj|exact Hc].
    + apply (Forall_map_in _ (fun r => cre r < 0)); [intros; apply inv_stable; assumption|exact Hs].
    + apply Forall_forall. intros z Hz. apply repeat_spec in Hz. subst z. reflexivity.
    + exists (C1 / hom p C0 C1)%C. split; [exact D_inv|]. intros a b. unfold numH, denH. rewrite Ez, Ep, Ek, hom_repeat, inv_hom by exact p_no0.
      cbn [XY fst snd]. rewrite map_length, repeat_length, Nat.sub_diag. cbn [cpow]. replace (a - b * C0)%C with a by ring.
      fold w0. split; field; exact D_neq0.
  - (* bandpass *)
    set (w0 := nth 0 w 0) in *. set (w1 := nth 1 w 0) in *.
    assert (Wo : sqrt (w0 * w1) * sqrt (w0 * w1) = w0 * w1) by (apply sqrt_sqrt; nra).
    assert (Wn : sqrt (w0 * w1) <> 0) by (intros Q; rewrite Q in Wo; nra).
    assert (Ex : exists f1, lp2bp_zpk_dyn g (Some (sqrt (w0 * w1))) (Some (w1 - w0)) = Ok f1).
    { unfold lp2bp_zpk_dyn. rewrite relative_degree_le by (cbn; lia). cbn [bind]. eauto. }
    destruct Ex as [f1 E1]. exists f1. split; [exact E1|]. pose proof (lp2bp_eq _ _ _ _ E1) as [_ [Ez [Ep Ek]]].
    cbn [zk_z zk_p zk_k map length app] in Ez, Ep, Ek. rewrite Nat.sub_0_r in Ek, Ez. unfold proper, real_filter, stable_analog.
    assert (Lp : length (zk_p f1) = (2 * length p)%nat) by (rewrite Ep, app_length, !map_length; lia).
    rewrite Lp, Ez, Ep. cbn [band_arity]. rewrite repeat_length. split; [lia|]. split; [split|split; [|split; [reflexivity|split]]].
    + apply conj_closed_repeat. reflexivity.
    + apply quad_conj_closed, conj_closed_map; [intros; apply scale_conj|exact Hc].
    + apply quad_Forall; [exact Wn|]. apply (Forall_map_in _ (fun r => cre r < 0)); [intros; apply scale_stable; [lra|assumption]|exact Hs].
    + apply Forall_forall. intros z Hz. apply repeat_spec in Hz. subst z. reflexivity.
    + exists C1. split; [exact C10|]. intros a b. unfold numH, denH. rewrite Lp, Ez, Ep, Ek, bp_hom, hom_repeat, Wo by lra.
      cbn [XY fst snd]. fold w0 w1. rewrite repeat_length. replace (2 * length p - length p)%nat with (length p) by lia.
      replace (a - b * C0)%C with a by ring. rewrite !cpow_mul, RtoC_mul, RtoC_pow. split; ring.
  - (* bandstop *)
    set (w0 := nth 0 w 0) in *. set (w1 := nth 1 w 0) in *.
    assert (Wo : sqrt (w0 * w1) * sqrt (w0 * w1) = w0 * w1) by (apply sqrt_sqrt; nra).
    assert (Wn : sqrt (w0 * w1) <> 0) by (intros Q; rewrite Q in Wo; nra).
    destruct (lp2bs_eq g (sqrt (w0 * w1)) (w1 - w0) eq_refl p_no0 Hc) as [f1 [E1 [Ez [Ep Ek]]]]. exists f1. split; [exact E1|].
    cbn [zk_z zk_p zk_k] in Ez, Ep, Ek. unfold proper, real_filter, stable_analog.
    assert (Lp : length (zk_p f1) = (2 * length p)%nat) by (rewrite Ep, app_length, !map_length; lia).
    rewrite Lp, Ez, Ep. cbn [band_arity]. rewrite app_length, !repeat_length. split; [lia|]. split; [split|split; [|split; [reflexivity|split]]].
    + apply conj_closed_pm.
    + apply quad_conj_closed, conj_closed_map; [intros; apply inv_conj|exact Hc].
    + apply quad_Forall; [exact Wn|]. apply (Forall_map_in _ (fun r => cre r < 0)); [intros; apply inv_stable; [lra|assumption]|exact Hs].
    + apply Forall_app. split; apply Forall_forall; intros z Hz; apply repeat_spec in Hz; subst z; reflexivity.
    + exists (C1 / hom p C0 C1)%C. split; [exact D_inv|]. intros a b. unfold numH, denH. rewrite Lp, Ez, Ep, Ek, bs_zeros, bs_hom, Wo by exact p_no0.
      cbn [XY fst snd]. fold w0 w1. rewrite app_length, !repeat_length. replace (2 * length p - (length p + length p))%nat with 0%nat by lia.
      cbn [cpow]. split; field; exact D_neq0.
Qed.

(** the digital filter *)
Lemma digital_spec bt w : valid_warped bt w -> exists f', (let! f1 := apply_band bt g w in bilinear_zpk_dyn f1 2) = Ok f' /\
  real_filter f' /\ stable_digital f' /\
  length (zk_z f') = (band_arity bt * length p)%nat /\ length (zk_p f') = (band_arity bt * length p)%nat /\
  forall x, let a := (RtoC 4 * (x - C1))%C in let b := (x + C1)%C in
    H f' x = (RtoC k * cpow (snd (XY bt w a b)) (length p) / hom p (fst (XY bt w a b)) (snd (XY bt w a b)))%C.
Proof.
  intros Hw. destruct (band_spec bt w Hw) as [f1 [E1 [P1 [R1 [S1 [L1 [Z1 [K [HK HN]]]]]]]]]. rewrite E1. cbn [bind].
  destruct (bilinear_total f1 2 P1) as [f' E']. exists f'. split; [exact E'|].
  assert (Nz : ~ In (RtoC (2 * 2)) (zk_z f1)).
  { intros Hin. rewrite Forall_forall in Z1. apply Z1 in Hin. cbn in Hin. lra. }
  assert (Np : ~ In (RtoC (2 * 2)) (zk_p f1)).
  { intros Hin. unfold stable_analog in S1. rewrite Forall_forall in S1. apply S1 in Hin. cbn in Hin. lra. }
  pose proof (bilinear_eq _ _ _ E') as [_ [Ez [Ep _]]]. destruct (bilinear_len _ _ _ E') as [Lz Lp].
  split; [|split; [|split; [|split]]].
  - destruct R1 as [Rz Rp]. unfold real_filter. rewrite Ez, Ep. split.
    + apply conj_closed_app; [apply conj_closed_map; [intros; apply bil_conj|exact Rz]|]. apply conj_closed_repeat. cbn. ring.
    + apply conj_closed_map; [intros; apply bil_conj|exact Rp].
  - unfold stable_digital. rewrite Ep. apply Forall_forall. intros r Hr. apply in_map_iff in Hr. destruct Hr as [s [<- Hs1]].
    apply bil_inside; [lra| |].
    + intros ->. contradiction.
    + unfold stable_analog in S1. rewrite Forall_forall in S1. apply S1, Hs1.
  - rewrite Lz. exact L1.
  - rewrite Lp. exact L1.
  - intros x. cbv zeta. rewrite (bilinear_numden f1 2 f' x E' R1 Nz Np). replace (2 * 2) with 4 by lra.
    destruct (HN (RtoC 4 * (x - C1))%C (x + C1)%C) as [-> ->]. set (A := (RtoC k * _)%C). set (B := hom p _ _). clearbody A B.
    destruct (Req_EM_T (cnorm_sqr B) 0) as [Z|Z].
    + apply cnorm_sqr_zero in Z. rewrite Z. replace (K * C0)%C with C0 by ring.
      apply C_ext; cbn; unfold Rdiv; ring_simplify; reflexivity.
    + assert (NN : B <> C0) by (intros Q; apply Z; rewrite Q; cbn; ring). field. split; assumption.
Qed.
End Band.

(** ** On the unit circle *)
Lemma cdiv_cancel (u A B : C) : u <> C0 -> (u * A / (u * B) = A / B)%C.
Proof.
  intros Hu. destruct (Req_EM_T (cnorm_sqr B) 0) as [Z|Z].
  - apply cnorm_sqr_zero in Z. rewrite Z. replace (u * C0)%C with C0 by ring. apply C_ext; cbn; unfold Rdiv; ring_simplify; reflexivity.
  - assert (NN : B <> C0) by (intros Q; apply Z; rewrite Q; cbn; ring). field. split; assumption.
Qed.
Lemma ratio_scale p (k : R) (u X Y : C) : u <> C0 ->
  (RtoC k * cpow (u * Y) (length p) / hom p (u * X) (u * Y) = RtoC k * cpow Y (length p) / hom p X Y)%C.
Proof.
  intros Hu. rewrite hom_scale, cpow_mul. rewrite <- (cdiv_cancel (cpow u (length p)) (RtoC k * cpow Y (length p))%C (hom p X Y)) by (apply cpow_neq0, Hu). apply f_equal2; [ring|reflexivity].
Qed.
Lemma XY_scale bt w u a b : XY bt w (u * a)%C (u * b)%C = (cpow u (band_arity bt) * fst (XY bt w a b), cpow u (band_arity bt) * snd (XY bt w a b))%C.
Proof. destruct bt; cbn [XY fst snd band_arity cpow]; apply f_equal2; ring. Qed.
Lemma E_half t : ((E t - C1) = (RtoC 2%R * E (t / 2)) * (0, sin (t / 2))%R)%C /\ ((E t + C1) = (RtoC 2%R * E (t / 2)) * RtoC (cos (t / 2)))%C.
Proof.
  assert (Et : E t = E (2 * (t / 2))) by (f_equal; field). rewrite Et. clear Et. set (h := t / 2). pose proof (sin2_cos2 h) as Q. unfold Rsqr in Q.
  split; apply C_ext; cbn; rewrite ?cos_2a, ?sin_2a; lra.
Qed.
Definition warp (w : R) : R := 2 * 2 * tan (PI * w / 2).
Lemma warp_trig w : 0 < w < 1 -> 0 < sin (PI * w / 2) /\ 0 < cos (PI * w / 2) /\ warp w = 4 * sin (PI * w / 2) / cos (PI * w / 2).
Proof.
  intros Hw. pose proof PI_RGT_0. assert (0 < PI * w / 2 < PI / 2) by (split; nra).
  assert (0 < cos (PI * w / 2)) by (apply cos_gt_0; lra).
  split; [apply sin_gt_0; lra|]. split; [assumption|]. unfold warp, tan. field. lra.
Qed.
Lemma warp_lt w0 w1 : 0 < w0 -> w0 < w1 -> w1 < 1 -> warp w0 < warp w1.
Proof.
  intros H0 H01 H1. pose proof PI_RGT_0. unfold warp. assert (tan (PI * w0 / 2) < tan (PI * w1 / 2)); [|lra].
  apply tan_increasing; nra.
Qed.
Lemma valid_warp bt wn : valid_digital bt wn -> valid_warped bt (map warp wn).
Proof.
  intros [Hl [Hf Hs]]. assert (W0 : forall w, 0 < w < 1 -> 0 < warp w).
  { intros w Hw. destruct (warp_trig w Hw) as [S [Cc E0]]. rewrite E0. apply Rdiv_lt_0_compat; lra. }
  destruct bt; cbn [band_arity] in Hl.
  1,2: destruct wn as [|w [|? ?]]; try discriminate Hl; inversion Hf; subst; cbn; apply W0; assumption.
  all: destruct wn as [|w0 [|w1 [|? ?]]]; try discriminate Hl; inversion Hf as [|? ? F0 Hf1]; subst; inversion Hf1 as [|? ? F1 _]; subst;
       inversion Hs as [|? ? _ S0]; subst; inversion S0; subst; cbn; split; [apply W0; assumption|apply warp_lt; lra].
Qed.
(** the digital angle through the band map is the spec's [band_ratio], up to a factor *)
Lemma band_ratio_XY bt wn t : valid_digital bt wn -> exists u sg, u <> C0 /\ (sg = 1 \/ sg = -1) /\
  XY bt (map warp wn) (RtoC 4 * (E t - C1))%C (E t + C1)%C =
  ((u * (0, fst (band_ratio bt wn t))%R)%C, (u * RtoC (sg * snd (band_ratio bt wn t))%R)%C).
Proof.
  intros [Hl [Hf Hs]]. destruct (E_half t) as [-> ->].
  replace (RtoC 4 * (RtoC 2 * E (t / 2) * (0, sin (t / 2))))%C with ((RtoC 2 * E (t / 2)) * (0, (4 * sin (t / 2))%R))%C by cx.
  rewrite XY_scale.
  assert (He : (RtoC 2 * E (t / 2))%C <> C0).
  { apply Cmul_neq0; [apply RtoC_neq0; lra|]. intros Q. pose proof (E_norm (t / 2)) as N. rewrite Q in N. cbn in N. lra. }
  set (v := cpow _ (band_arity bt)). assert (Hv : v <> C0) by (apply cpow_neq0, He). clearbody v. clear He.
  assert (Hi : ((0, -1) : C) <> C0) by (intros Q; injection Q; intros; lra).
  set (s := sin (t / 2)). set (c := cos (t / 2)).
  destruct bt; cbn [band_arity] in Hl.
  - destruct wn as [|w [|? ?]]; try discriminate Hl. inversion Hf as [|? ? F0 _]; subst. destruct (warp_trig w F0) as [S0 [K0 E0]].
    exists (v * RtoC (4 / cos (PI * w / 2))%R)%C, 1. split; [|split; [left; reflexivity|]].
    + apply Cmul_neq0; [exact Hv|]. apply RtoC_neq0. unfold Rdiv. apply Rmult_integral_contrapositive. split; [lra|apply Rinv_neq_0_compat; lra].
    + cbn [XY fst snd map nth band_ratio]. rewrite E0. fold s c. apply f_equal2; rewrite <- !(Rmul_assoc C_ring); apply f_equal; apply C_ext; cbn; field; lra.
  - destruct wn as [|w [|? ?]]; try discriminate Hl. inversion Hf as [|? ? F0 _]; subst. destruct (warp_trig w F0) as [S0 [K0 E0]].
    exists (v * (RtoC (4 / cos (PI * w / 2))%R * (0, -1)))%C, (-1). split; [|split; [right; reflexivity|]].
    + apply Cmul_neq0; [exact Hv|]. apply Cmul_neq0; [|exact Hi]. apply RtoC_neq0. unfold Rdiv. apply Rmult_integral_contrapositive. split; [lra|apply Rinv_neq_0_compat; lra].
    + cbn [XY fst snd map nth band_ratio]. rewrite E0. fold s c. apply f_equal2; rewrite <- !(Rmul_assoc C_ring); apply f_equal; apply C_ext; cbn; field; lra.
  - destruct wn as [|w0 [|w1 [|? ?]]]; try discriminate Hl. inversion Hf as [|? ? F0 Hf1]; subst; inversion Hf1 as [|? ? F1 _]; subst.
    destruct (warp_trig w0 F0) as [S0 [K0 E0]]. destruct (warp_trig w1 F1) as [S1 [K1 E1]].
    exists (v * (RtoC (16 / (cos (PI * w0 / 2) * cos (PI * w1 / 2)))%R * (0, -1)))%C, (-1). split; [|split; [right; reflexivity|]].
    + apply Cmul_neq0; [exact Hv|]. apply Cmul_neq0; [|exact Hi]. apply RtoC_neq0. unfold Rdiv. apply Rmult_integral_contrapositive. split; [lra|apply Rinv_neq_0_compat; nra].
    + cbn [XY fst snd map nth band_ratio]. rewrite E0, E1. fold s c. apply f_equal2; rewrite <- !(Rmul_assoc C_ring); apply f_equal; apply C_ext; cbn; field; lra.
  - destruct wn as [|w0 [|w1 [|? ?]]]; try discriminate Hl. inversion Hf as [|? ? F0 Hf1]; subst; inversion Hf1 as [|? ? F1 _]; subst.
    destruct (warp_trig w0 F0) as [S0 [K0 E0]]. destruct (warp_trig w1 F1) as [S1 [K1 E1]].
    exists (v * RtoC (16 / (cos (PI * w0 / 2) * cos (PI * w1 / 2)))%R)%C, 1. split; [|split; [left; reflexivity|]].
    + apply Cmul_neq0; [exact Hv|]. apply RtoC_neq0. unfold Rdiv. apply Rmult_integral_contrapositive. split; [lra|apply Rinv_neq_0_compat; nra].
    + cbn [XY fst snd map nth band_ratio]. rewrite E0, E1. fold s c. apply f_equal2; rewrite <- !(Rmul_assoc C_ring); apply f_equal; apply C_ext; cbn; field; lra.
Qed.

Lemma hom_even p a b : conj_closed p -> cnorm_sqr (hom p (0, a) (RtoC (- b))) = cnorm_sqr (hom p (0, a) (RtoC b)).
Proof. intros Hc. apply RtoC_inj. rewrite !hom_norm by exact Hc. do 3 f_equal. ring. Qed.
Lemma cnorm_sqr_div0 z w : cnorm_sqr (z / w)%C = cnorm_sqr z / cnorm_sqr w.
Proof.
  destruct (Req_EM_T (cnorm_sqr w) 0) as [Z|Z].
  - apply cnorm_sqr_zero in Z. rewrite Z. cbn. unfold Rdiv. replace (0 * 0 + 0 * 0) with 0 by ring.
    ring_simplify. destruct (Req_EM_T (/ 0) 0) as [Q|Q]; [rewrite Q; ring|].
    exfalso. apply Q. apply Rinv_0.
  - apply cnorm_sqr_div. intros Q. apply Z. rewrite Q. cbn. ring.
Qed.

Lemma dgain_digital p k bt wn f' t : Forall (fun r => cre r < 0) p -> conj_closed p -> valid_digital bt wn ->
  (let! f1 := apply_band bt (mkZpk [] p k) (map warp wn) in bilinear_zpk_dyn f1 2) = Ok f' ->
  dgain_sqr f' t = k * k * (snd (band_ratio bt wn t) * snd (band_ratio bt wn t)) ^ length p /
                   cnorm_sqr (hom p (0, fst (band_ratio bt wn t)) (RtoC (snd (band_ratio bt wn t)))).
Proof.
  intros Hs Hc Hv E'. destruct (digital_spec p k Hs Hc bt (map warp wn) (valid_warp _ _ Hv)) as [f2 [E2 [_ [_ [_ [_ HH]]]]]].
  assert (f2 = f') by congruence. subst f2. unfold dgain_sqr. change (cos t, sin t) with (E t). rewrite (HH (E t)). cbv zeta.
  destruct (band_ratio_XY bt wn t Hv) as [u [sg [Hu [Hsg Q]]]]. rewrite Q. cbn [fst snd].
  set (al := fst (band_ratio bt wn t)) in *. set (be := snd (band_ratio bt wn t)) in *.
  rewrite ratio_scale by exact Hu. rewrite cnorm_sqr_div0, cnorm_sqr_mul, cnorm_sqr_pow, !cnorm_sqr_RtoC.
  destruct Hsg as [-> | ->].
  - rewrite Rmult_1_l. reflexivity.
  - replace (-1 * be) with (- be) by ring. rewrite hom_even by exact Hc. replace (- be * - be) with (be * be) by ring. reflexivity.
Qed.

(** ** Reduction of [iirfilter_dyn] *)
Section Iir.
Variable epsilon : R.
Variable sort : forall A : Type, (A -> A -> bool) -> list A -> list A.

Definition proto (ft : FilterType) (order : nat) (rp rs : option R) : @ZpkFormatFilter R :=
  match ft with
  | ChebyshevI => cheb1ap_dyn order (unwrap_or rp 0)
  | ChebyshevII => cheb2ap_dyn order (unwrap_or rs 0)
  | _ => buttap_dyn order
  end.
Definition finish (order : nat) (analog : bool) (output : option FilterOutputType) (f : ZpkFormatFilter) : res DigitalFilter :=
  match unwrap_or output OutBa with
  | OutZpk => Ok (DZpk f)
  | OutBa => let! ba := zpk2tf_dyn sort (2 * order) (zk_z f) (zk_p f) (zk_k f) in Ok (DBa ba)
  | OutSos => let! s := zpk2sos_dyn epsilon sort order f None (Some analog) in Ok (DSos s)
  end.
Definition bad' wn rp rs bt ft analog fs : Prop := bad_arguments wn rp rs bt ft analog fs \/ (ft = ChebyshevII /\ rp = None).
Definition reduced order wn rp rs bt ft analog output fs : res DigitalFilter :=
  let w := normalised wn fs in
  let! f1 := apply_band bt (proto ft order rp rs) (if analog : bool then w else map warp w) in
  let! f2 := (if analog then Ok f1 else bilinear_zpk_dyn f1 2) in
  finish order analog output f2.

Lemma Rltb_spec a b : Bool.reflect (a < b) (Rltb a b).
Proof. unfold Rltb. destruct (Rlt_dec a b); constructor; assumption. Qed.
Lemma map_w2 (wn : list R) f : map (fun wni : R => ndiv (nmul two wni) f) wn = normalised wn (Some f).
Proof. reflexivity. Qed.

Lemma iir_cases order wn rp rs btype ftype analog output fs :
  let bt := unwrap_or btype Bandpass in let ft := unwrap_or ftype Butterworth in let an := unwrap_or analog false in
  (bad' wn rp rs bt ft an fs /\ iirfilter_dyn epsilon sort order wn rp rs btype ftype analog output fs = Panic) \/
  (~ bad' wn rp rs bt ft an fs /\ iirfilter_dyn epsilon sort order wn rp rs btype ftype analog output fs = reduced order wn rp rs bt ft an output fs).
Proof.
  cbv zeta. unfold iirfilter_dyn. cbv zeta. set (bt := unwrap_or btype Bandpass). set (ft := unwrap_or ftype Butterworth). set (an := unwrap_or analog false).
  destruct (Nat.ltb_spec 2 (length wn)) as [L|L].
  { left. split; [left; left; exact L|reflexivity]. }
  set (w := normalised wn fs).
  assert (Lw : length w = length wn) by (unfold w, normalised; destruct fs; [apply map_length|reflexivity]).
  assert (Step1 : (fs <> None /\ an = true) \/ (match fs with
    | Some fs => if an then Panic else Ok (map (fun wni => ndiv (nmul two wni) fs) wn)
    | None => Ok wn end) = Ok w /\ ~ (fs <> None /\ an = true)).
  { destruct fs as [f|]; [destruct an|].
    - left. split; [discriminate|reflexivity].
    - right. split; [reflexivity|]. intros [_ Q]. discriminate Q.
    - right. split; [reflexivity|]. intros [Q _]. apply Q. reflexivity. }
  destruct Step1 as [B|[-> G1]].
  { left. split; [left; right; left; exact B|]. destruct B as [B1 B2]. destruct fs; [|contradiction]. rewrite B2. reflexivity. }
  cbn [bind].
  destruct (existsb (fun wi : R => nleb wi nzero) w) eqn:X1.
  { left. split; [|reflexivity]. left; right; right; left. apply existsb_exists in X1. destruct X1 as [x [Hx Lx]]. exists x. split; [exact Hx|].
    cbn in Lx. destruct (Rleb_spec x 0); [assumption|discriminate]. }
  assert (G2 : ~ exists x, In x w /\ x <= 0).
  { intros [x [Hx Lx]]. assert (existsb (fun wi : R => nleb wi nzero) w = true); [|congruence]. apply existsb_exists. exists x. split; [exact Hx|].
    cbn. destruct (Rleb_spec x 0); [reflexivity|contradiction]. }
  assert (Step3 : (match w with w0 :: w1 :: _ => if nleb w1 w0 then Panic else Ok tt | _ => Ok tt end = Panic /\
       exists w0 w1, nth_error w 0 = Some w0 /\ nth_error w 1 = Some w1 /\ w1 <= w0) \/
     (match w with w0 :: w1 :: _ => if nleb w1 w0 then Panic else Ok tt | _ => Ok tt end = Ok tt /\
       ~ exists w0 w1, nth_error w 0 = Some w0 /\ nth_error w 1 = Some w1 /\ w1 <= w0)).
  { clearbody w. clear. destruct w as [|w0 [|w1 w]].
    - right. split; [reflexivity|]. intros [a [b [Q _]]]. discriminate Q.
    - right. split; [reflexivity|]. intros [a [b [_ [Q _]]]]. discriminate Q.
    - cbn [nleb RNum]. destruct (Rleb_spec w1 w0).
      + left. split; [reflexivity|]. exists w0, w1. auto.
      + right. split; [reflexivity|]. intros [a [b [Qa [Qb Q]]]]. cbn in Qa, Qb. injection Qa as <-. injection Qb as <-. contradiction. }
  destruct Step3 as [[-> B]|[-> G3]].
  { left. split; [|reflexivity]. left. do 3 right. left. exact B. }
  cbn [bind].
  assert (Step4 : forall o : option R, (match o with Some r => if nltb r nzero then Panic else Ok tt | None => Ok tt end = Panic /\ exists r, o = Some r /\ r < 0) \/
     (match o with Some r => if nltb r nzero then Panic else Ok tt | None => Ok tt end = Ok tt /\ ~ exists r, o = Some r /\ r < 0)).
  { intros [r|]; cbn [nltb nzero RNum].
    - destruct (Rltb_spec r 0).
      + left. split; [reflexivity|]. exists r. auto.
      + right. split; [reflexivity|]. intros [r' [Q Hr]]. injection Q as <-. contradiction.
    - right. split; [reflexivity|]. intros [r' [Q _]]. discriminate Q. }
  destruct (Step4 rp) as [[-> B]|[-> G4]].
  { left. split; [|reflexivity]. left. do 4 right. left. exact B. }
  cbn [bind].
  destruct (Step4 rs) as [[-> B]|[-> G5]].
  { left. split; [|reflexivity]. left. do 5 right. left. exact B. }
  cbn [bind]. clear Step4 X1.
  set (pr := match ft with Butterworth => _ | _ => _ end).
  assert (Step6 : (pr = Panic /\ ((ft = ChebyshevI /\ rp = None) \/ (ft = ChebyshevII /\ rs = None) \/ (ft = CauerElliptic \/ ft = BesselThomson) \/ (ft = ChebyshevII /\ rp = None))) \/
     (pr = Ok (proto ft order rp rs) /\ ~ ((ft = ChebyshevI /\ rp = None) \/ (ft = ChebyshevII /\ rs = None) \/ (ft = CauerElliptic \/ ft = BesselThomson) \/ (ft = ChebyshevII /\ rp = None)))).
  { unfold pr. clearbody ft. clear. destruct ft; cbn [proto].
    - right. split; [reflexivity|]. intuition discriminate.
    - destruct rp as [r|]; cbn [is_none unwrap bind unwrap_or]; [right|left]; (split; [reflexivity|]); intuition discriminate.
    - destruct rp as [r|]; cbn [is_none unwrap bind unwrap_or].
      + destruct rs as [r'|]; cbn [is_none unwrap bind unwrap_or]; [right|left]; (split; [reflexivity|]); intuition discriminate.
      + left. split; [reflexivity|]. intuition.
    - left. split; [reflexivity|]. intuition.
    - left. split; [reflexivity|]. intuition. }
  destruct Step6 as [[-> B]|[-> G6]].
  { left. split; [|reflexivity]. unfold bad', bad_arguments. intuition. }
  cbn [bind].
  assert (Step7 : (an = false /\ (exists x, In x w /\ 1 <= x)) /\
      (if negb an then if existsb (fun wi : R => nleb wi nzero || nleb none wi)%bool w then Panic else Ok (two, map (fun wni : R => nmul (nmul two two) (ttan (ndiv (nmul tpi wni) two))) w)
       else Ok (unwrap_or fs none, w)) = Panic \/
     ~ (an = false /\ (exists x, In x w /\ 1 <= x)) /\ exists fs',
      (if negb an then if existsb (fun wi : R => nleb wi nzero || nleb none wi)%bool w then Panic else Ok (two, map (fun wni : R => nmul (nmul two two) (ttan (ndiv (nmul tpi wni) two))) w)
       else Ok (unwrap_or fs none, w)) = Ok (fs', if an then w else map warp w) /\ (an = false -> fs' = 2)).
  { destruct an; cbn [negb].
    - right. split; [intros [Q _]; discriminate Q|]. eexists. split; [reflexivity|]. discriminate.
    - destruct (existsb _ w) eqn:X; [left|right].
      + split; [|reflexivity]. split; [reflexivity|]. apply existsb_exists in X. destruct X as [x [Hx Lx]]. exists x. split; [exact Hx|].
        apply orb_true_iff in Lx. destruct Lx as [Lx|Lx]; cbn in Lx.
        * exfalso. apply G2. exists x. split; [exact Hx|]. destruct (Rleb_spec x 0); [assumption|discriminate].
        * destruct (Rleb_spec 1 x); [assumption|discriminate].
      + split.
        * intros [_ [x [Hx Lx]]]. assert (existsb (fun wi : R => nleb wi nzero || nleb none wi)%bool w = true); [|congruence].
          apply existsb_exists. exists x. split; [exact Hx|]. apply orb_true_iff. right. cbn. destruct (Rleb_spec 1 x); [reflexivity|contradiction].
        * exists 2. split; reflexivity. }
  destruct Step7 as [[B ->]|[G7 [fs' [-> Hfs]]]].
  { left. split; [|reflexivity]. left. do 6 right. left. exact B. }
  cbn [bind]. set (W := if an then w else map warp w).
  assert (LW : length W = length wn) by (unfold W; destruct an; [|rewrite map_length]; exact Lw).
  assert (B8 : length wn <> band_arity bt \/ length wn = band_arity bt) by lia.
  destruct B8 as [B|G8].
  { left. split; [left; do 7 right; left; exact B|]. rewrite Lw. destruct bt; cbn [band_arity] in B; destruct (Nat.eqb_spec (length wn) 1), (Nat.eqb_spec (length wn) 2); try contradiction; reflexivity. }
  right. split.
  { unfold bad', bad_arguments. fold w. intros Q. intuition. }
  unfold reduced. cbv zeta. fold w W.
  assert (Eb : forall pz,
    match bt with
    | Lowpass => if negb (Nat.eqb (length w) 1) then Panic else let! w0 := index W 0 in lp2lp_zpk_dyn pz (Some w0)
    | Highpass => if negb (Nat.eqb (length w) 1) then Panic else let! w0 := index W 0 in lp2hp_zpk_dyn pz (Some w0)
    | Bandpass => if negb (Nat.eqb (length w) 2) then Panic else
        let! w0 := index W 0 in let! w1 := index W 1 in lp2bp_zpk_dyn pz (Some (nsqrt (nmul w0 w1))) (Some (nsub w1 w0))
    | Bandstop => if negb (Nat.eqb (length w) 2) then Panic else
        let! w0 := index W 0 in let! w1 := index W 1 in lp2bs_zpk_dyn pz (Some (nsqrt (nmul w0 w1))) (Some (nsub w1 w0))
    end = apply_band bt pz W).
  { intros pz. rewrite Lw, G8. clearbody W bt. rewrite G8 in LW. destruct bt; cbn [band_arity] in *.
    - destruct W as [|a [|? ?]]; try discriminate LW. reflexivity.
    - destruct W as [|a [|? ?]]; try discriminate LW. reflexivity.
    - destruct W as [|a [|b [|? ?]]]; try discriminate LW. reflexivity.
    - destruct W as [|a [|b [|? ?]]]; try discriminate LW. reflexivity. }
  rewrite Eb. destruct (apply_band bt (proto ft order rp rs) W) as [f1| | |]; cbn [bind]; try reflexivity.
  destruct an; cbn [negb]; [reflexivity|]. rewrite Hfs by reflexivity. reflexivity.
Qed.
End Iir.
