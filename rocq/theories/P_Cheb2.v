(** Designs from prototypes with zeros on the imaginary axis (Chebyshev II): low-pass
    and band-pass. *)
From Coq Require Import List Arith ZArith Reals Permutation Sorted Lra Lia.
From Verif Require Import Base Num Trans M_Complex M_Filter M_Design Cx S_Bessel S_Design P_Bessel P_Savgol P_Poly P_Lp P_CPoly P_Proto P_Cheb P_Iir P_Iir2.
Import ListNotations.
Local Open Scope R_scope.

Definition keeps_zeros (bt : FilterBandType) : Prop := bt = Lowpass \/ bt = Bandpass.

Section BandZ.
Variables (z p : list C) (k : R).
Hypothesis Hz : Forall (fun r => cre r = 0) z.
Hypothesis Hcz : conj_closed z.
Hypothesis Hl : (length z <= length p)%nat.
Hypothesis Hs : Forall (fun r => cre r < 0) p.
Hypothesis Hc : conj_closed p.
Notation g := (mkZpk z p k).

Lemma band_specz bt w : keeps_zeros bt -> valid_warped bt w -> exists f1, apply_band bt g w = Ok f1 /\ proper f1 /\ real_filter f1 /\ stable_analog f1 /\
  length (zk_p f1) = (band_arity bt * length p)%nat /\ ~ In (RtoC 4) (zk_z f1) /\
  forall a b, numH f1 a b = (RtoC k * hom z (fst (XY bt w a b)) (snd (XY bt w a b)) * cpow (snd (XY bt w a b)) (length p - length z))%C /\
              denH f1 a b = hom p (fst (XY bt w a b)) (snd (XY bt w a b)).
Proof.
  intros [-> | ->] Hw; cbn [valid_warped] in Hw.
  - set (w0 := nth 0 w 0) in *.
    assert (Ex : exists f1, lp2lp_zpk_dyn g (Some w0) = Ok f1).
    { unfold lp2lp_zpk_dyn. rewrite relative_degree_le by (cbn; lia). cbn [bind]. eauto. }
    destruct Ex as [f1 E1]. exists f1. split; [exact E1|]. pose proof (lp2lp_eq _ _ _ E1) as [_ [Ez [Ep Ek]]].
    cbn [zk_z zk_p zk_k] in Ez, Ep, Ek. unfold proper, real_filter, stable_analog.
    rewrite Ez, Ep. cbn [band_arity Nat.mul]. rewrite !map_length, Nat.add_0_r. split; [exact Hl|]. split; [split|split; [|split; [reflexivity|split]]].
    + apply conj_closed_map; [intros; apply scale_conj|exact Hcz].
    + apply conj_closed_map; [intros; apply scale_conj|exact Hc].
    + apply (Forall_map_in _ (fun r => cre r < 0)); [intros; apply scale_stable; assumption|exact Hs].
    + intros Hin. apply in_map_iff in Hin. destruct Hin as [r [Q Hr]]. rewrite Forall_forall in Hz. apply Hz in Hr.
      apply (f_equal cre) in Q. destruct r as [x y]. cbn in Q, Hr. subst x. lra.
    + intros a b. unfold numH, denH. rewrite Ez, Ep, Ek, !lp2lp_hom. cbn [XY fst snd]. fold w0.
      rewrite !map_length, cpow_mul, RtoC_mul, RtoC_pow. split; ring.
  - set (w0 := nth 0 w 0) in *. set (w1 := nth 1 w 0) in *.
    assert (Wo : sqrt (w0 * w1) * sqrt (w0 * w1) = w0 * w1) by (apply sqrt_sqrt; nra).
    assert (Wn : sqrt (w0 * w1) <> 0) by (intros Q; rewrite Q in Wo; nra).
    assert (Ex : exists f1, lp2bp_zpk_dyn g (Some (sqrt (w0 * w1))) (Some (w1 - w0)) = Ok f1).
    { unfold lp2bp_zpk_dyn. rewrite relative_degree_le by (cbn; lia). cbn [bind]. eauto. }
    destruct Ex as [f1 E1]. exists f1. split; [exact E1|]. pose proof (lp2bp_eq _ _ _ _ E1) as [_ [Ez [Ep Ek]]].
    cbn [zk_z zk_p zk_k] in Ez, Ep, Ek. unfold proper, real_filter, stable_analog.
    assert (Lp : length (zk_p f1) = (2 * length p)%nat) by (rewrite Ep, app_length, !map_length; lia).
    assert (Lz : length (zk_z f1) = (length p + length z)%nat) by (rewrite Ez, !app_length, !map_length, repeat_length; lia).
    assert (HZ : forall a b, hom (zk_z f1) a b = (hom z (a * a + b * b * RtoC (w0 * w1)%R) (RtoC (w1 - w0)%R * a * b) * cpow a (length p - length z))%C).
    { intros a b. rewrite Ez, hom_app, bp_hom, hom_repeat, Wo by lra. f_equal. f_equal. ring. }
    rewrite Lp, Lz. cbn [band_arity]. split; [lia|]. split; [split|split; [|split; [reflexivity|split]]].
    + rewrite Ez. apply conj_closed_app; [apply quad_conj_closed, conj_closed_map; [intros; apply scale_conj|exact Hcz]|].
      apply conj_closed_repeat. reflexivity.
    + rewrite Ep. apply quad_conj_closed, conj_closed_map; [intros; apply scale_conj|exact Hc].
    + rewrite Ep. apply quad_Forall; [exact Wn|]. apply (Forall_map_in _ (fun r => cre r < 0)); [intros; apply scale_stable; [lra|assumption]|exact Hs].
    + intros Hin.
      assert (Q : hom (zk_z f1) (RtoC 4) C1 = C0).
      { clear - Hin. induction (zk_z f1) as [|r l IH]; [contradiction|]. rewrite hom_cons. destruct Hin as [-> |Hin]; [ring|rewrite (IH Hin); ring]. }
      rewrite HZ in Q. revert Q. apply Cmul_neq0.
      * apply hom_neq0. revert Hz. apply Forall_impl. intros [x y] Hx Q. cbn in Hx. subst x. apply (f_equal cre) in Q. cbn in Q. nra.
      * apply cpow_neq0, RtoC_neq0. lra.
    + intros a b. unfold numH, denH. rewrite Lp, Lz, Ek, HZ, Ep, bp_hom, Wo by lra.
      cbn [XY fst snd]. fold w0 w1. replace (2 * length p - (length p + length z))%nat with (length p - length z)%nat by lia.
      rewrite !cpow_mul, RtoC_mul, RtoC_pow. split; ring.
Qed.

Lemma digital_specz bt w : keeps_zeros bt -> valid_warped bt w -> exists f', (let! f1 := apply_band bt g w in bilinear_zpk_dyn f1 2) = Ok f' /\
  real_filter f' /\ stable_digital f' /\
  length (zk_z f') = (band_arity bt * length p)%nat /\ length (zk_p f') = (band_arity bt * length p)%nat /\
  forall x, let a := (RtoC 4 * (x - C1))%C in let b := (x + C1)%C in
    H f' x = (RtoC k * hom z (fst (XY bt w a b)) (snd (XY bt w a b)) * cpow (snd (XY bt w a b)) (length p - length z) /
              hom p (fst (XY bt w a b)) (snd (XY bt w a b)))%C.
Proof.
  intros Hk Hw. destruct (band_specz bt w Hk Hw) as [f1 [E1 [P1 [R1 [S1 [L1 [Z1 HN]]]]]]]. rewrite E1. cbn [bind].
  destruct (bilinear_total f1 2 P1) as [f' E']. exists f'. split; [exact E'|].
  assert (Nz : ~ In (RtoC (2 * 2)) (zk_z f1)) by (replace (2 * 2) with 4 by lra; exact Z1).
  assert (Np : ~ In (RtoC (2 * 2)) (zk_p f1)).
  { intros Hin. unfold stable_analog in S1. rewrite Forall_forall in S1. apply S1 in Hin. cbn in Hin. lra. }
  pose proof (bilinear_eq _ _ _ E') as [_ [Ez [Ep _]]]. destruct (bilinear_len _ _ _ E') as [Lz Lp].
  split; [|split; [|split; [|split]]].
  - destruct R1 as [Rz Rp]. unfold real_filter. rewrite Ez, Ep. split.
    + apply conj_closed_app; [apply conj_closed_map; [intros; apply bil_conj|exact Rz]|]. apply conj_closed_repeat. cbn. ring.
    + apply conj_closed_map; [intros; apply bil_conj|exact Rp].
  - unfold stable_digital. rewrite Ep. apply Forall_forall. intros r Hr. apply in_map_iff in Hr. destruct Hr as [s [<- Hs1]].
    apply bil_inside; [lra| |].
    + intros ->. contradiction.
    + unfold stable_analog in S1. rewrite Forall_forall in S1. apply S1, Hs1.
  - rewrite Lz. exact L1.
  - rewrite Lp. exact L1.
  - intros x. cbv zeta. rewrite (bilinear_numden f1 2 f' x E' R1 Nz Np). replace (2 * 2) with 4 by lra.
    destruct (HN (RtoC 4 * (x - C1))%C (x + C1)%C) as [-> ->]. reflexivity.
Qed.

Lemma gain_of_XYz X Y a b u sg : u <> C0 -> (sg = 1 \/ sg = -1) ->
  X = (u * (0, a)%R)%C -> Y = (u * RtoC (sg * b)%R)%C ->
  cnorm_sqr (RtoC k * hom z X Y * cpow Y (length p - length z) / hom p X Y)%C =
  k * k * cnorm_sqr (hom z (0, a) (RtoC b)) * (b * b) ^ (length p - length z) / cnorm_sqr (hom p (0, a) (RtoC b)).
Proof.
  intros Hu Hsg -> ->. rewrite !hom_scale, cpow_mul.
  transitivity (cnorm_sqr (RtoC k * hom z (0, a)%R (RtoC (sg * b)%R) * cpow (RtoC (sg * b)%R) (length p - length z) / hom p (0, a)%R (RtoC (sg * b)%R))%C).
  - f_equal. rewrite <- (cdiv_cancel (cpow u (length p)) _ (hom p _ _)) by (apply cpow_neq0, Hu). f_equal.
    replace (cpow u (length p)) with (cpow u (length z) * cpow u (length p - length z))%C; [ring|].
    rewrite <- cpow_add. f_equal. lia.
  - rewrite cnorm_sqr_div0, !cnorm_sqr_mul, cnorm_sqr_pow, !cnorm_sqr_RtoC. destruct Hsg as [-> | ->].
    + rewrite Rmult_1_l. reflexivity.
    + replace (-1 * b) with (- b) by ring. rewrite !hom_even by assumption. replace (- b * - b) with (b * b) by ring. reflexivity.
Qed.

Lemma dgain_digitalz bt wn f' t : keeps_zeros bt -> valid_digital bt wn ->
  (let! f1 := apply_band bt g (map warp wn) in bilinear_zpk_dyn f1 2) = Ok f' ->
  let a := fst (band_ratio bt wn t) in let b := snd (band_ratio bt wn t) in
  dgain_sqr f' t = k * k * cnorm_sqr (hom z (0, a) (RtoC b)) * (b * b) ^ (length p - length z) / cnorm_sqr (hom p (0, a) (RtoC b)).
Proof.
  intros Hk Hv E' a b. destruct (digital_specz bt (map warp wn) Hk (valid_warp _ _ Hv)) as [f2 [E2 [_ [_ [_ [_ HH]]]]]].
  assert (f2 = f') by congruence. subst f2. unfold dgain_sqr. change (cos t, sin t) with (E t). rewrite (HH (E t)). cbv zeta.
  destruct (band_ratio_XY bt wn t Hv) as [u [sg [Hu [Hsg Q]]]]. rewrite Q. cbn [fst snd].
  apply (gain_of_XYz _ _ _ _ u sg); try assumption; reflexivity.
Qed.
End BandZ.

(** The Chebyshev II prototype at the frequency a / b. *)
Section C2.
Variables (n : nat) (rs : R).
Hypothesis Hn : (0 < n)%nat.
Hypothesis Hrs : 0 < rs.
Notation Q2 := (map (cp n (eps2 rs)) (seq 0 n)).
Notation P2 := (map (fun r => C1 / r)%C Q2).
Notation Z2 := (map (fun x => ((0, 1 / x) : C)) (xs n)).
Lemma Z2_hom1 l v : Forall (fun x => x <> 0) l ->
  cnorm_sqr (hom (map (fun x => ((0, 1 / x) : C)) l) (0, 1) (RtoC v)) * (lprod l * lprod l) = rprod l v * rprod l v.
Proof.
  induction 1 as [|x l Hx Hl IH]; [cbn; ring|]. cbn [map]. rewrite hom_cons, cnorm_sqr_mul. cbn [lprod].
  change (rprod (x :: l) v) with ((v - x) * rprod l v).
  assert (Q : cnorm_sqr ((0, 1)%R - RtoC v * (0, 1 / x)%R)%C = (v - x) * (v - x) / (x * x)) by (cbn; field; assumption).
  rewrite Q. transitivity ((v - x) * (v - x) * (cnorm_sqr (hom (map (fun x => ((0, 1 / x) : C)) l) (0, 1) (RtoC v)) * (lprod l * lprod l))).
  - field. assumption.
  - rewrite IH. ring.
Qed.
Lemma cheb2_hom a b : a <> 0 -> let T := chebT n (b / a) in
  k2 n rs * k2 n rs * cnorm_sqr (hom Z2 (0, a) (RtoC b)) * (b * b) ^ (length P2 - length Z2) / cnorm_sqr (hom P2 (0, a) (RtoC b)) =
  T * T / ((Rpower 10 (rs / 10) - 1) + T * T).
Proof.
  intros Ha T. set (v := b / a).
  assert (EA : ((0, a) : C) = (RtoC a * (0, 1)%R)%C) by cx.
  assert (EB : RtoC b = (RtoC a * RtoC v)%C) by (rewrite <- RtoC_mul; f_equal; unfold v; field; exact Ha).
  assert (LP : length P2 = n) by (rewrite !map_length, seq_length; reflexivity).
  assert (LZ : length Z2 = length (xs n)) by apply map_length.
  rewrite EA, EB, !hom_scale, !cnorm_sqr_mul, !cnorm_sqr_pow, cnorm_sqr_RtoC, LP, LZ.
  destruct (xs_cheb n Hn v) as [XC XL].
  assert (Ebb : b * b = (a * a) * (v * v)) by (unfold v; field; exact Ha). rewrite Ebb, (Rpow_mult_distr (a * a) (v * v)).
  (* hom P2 i v *)
  assert (HQ : hom Q2 (RtoC v) (0, 1) = (cpow (0, 1)%R n * hom Q2 (0, (- v)%R) C1)%C).
  { transitivity (hom Q2 ((0, 1)%R * (0, (- v)%R))%C ((0, 1)%R * C1)%C); [f_equal; cx|]. rewrite hom_scale, map_length, seq_length. reflexivity. }
  rewrite (P2_hom n rs Hn Hrs), HQ.
  pose proof (Q2_hom0 n rs Hn Hrs) as N0. pose proof (Z2_0 n Hn) as NZ.
  rewrite cnorm_sqr_div by exact N0. rewrite cnorm_sqr_mul, cnorm_sqr_pow. replace (cnorm_sqr ((0, 1) : C)) with 1 by (cbn; ring). rewrite pow1, Rmult_1_l.
  pose proof (hom_cp_neq0 n Hn (eps2 rs) (- v) (eps2_pos rs Hrs)) as Nv.
  assert (HN : cnorm_sqr (hom Q2 (0, (- v)%R) C1) = cnorm_sqr (hom Q2 (0, v) C1)).
  { transitivity (cnorm_sqr (cconj (hom Q2 (0, v) C1))).
    - rewrite cconj_hom, cconj_1. rewrite (hom_perm _ Q2 _ _ (cp_closed n (eps2 rs))). reflexivity.
    - destruct (hom Q2 (0, v) C1). cbn. ring. }
  assert (EK : k2 n rs * k2 n rs = 1 / cnorm_sqr (hom Q2 C0 C1) / cnorm_sqr (hom Z2 C0 C1)).
  { rewrite <- cnorm_sqr_RtoC, (k2_RtoC n rs Hn), cnorm_sqr_div by exact NZ. f_equal. rewrite (P2_hom n rs Hn Hrs), hom_1_0, cnorm_sqr_div by exact N0.
    f_equal. cbn. ring. }
  rewrite EK. apply cnorm_sqr_neq0 in Nv, N0, NZ. rewrite HN in *.
  pose proof (cheb_norm n (eps2 rs) Hn (eps2_pos rs Hrs) v) as CN. pose proof (Z2_hom1 (xs n) v (xs_nz n Hn)) as Z1. pose proof (Z2_norm0 (xs n) (xs_nz n Hn)) as Z0.
  set (ha := cnorm_sqr (hom Z2 (0, 1) (RtoC v))) in *. set (hb := cnorm_sqr (hom Z2 C0 C1)) in *. set (d := cnorm_sqr (hom Q2 (0, v) C1)) in *. set (q0 := cnorm_sqr (hom Q2 C0 C1)) in *.
  pose proof (lprod_nz (xs n) (xs_nz n Hn)) as Lx. set (e := lprod (xs n)) in *. rewrite (eps2_sq rs Hrs) in CN. pose proof (gt2 rs Hrs) as G. set (gg := Rpower 10 (rs / 10) - 1) in *.
  unfold T. fold v. set (TT := chebT n v) in *. set (r := rprod (xs n) v) in *. set (t := 2 ^ (n - 1)) in *.
  assert (Ht : t <> 0) by (apply pow_nonzero; lra).
  set (A := (a * a) ^ (n - length (xs n))). set (B := (a * a) ^ length (xs n)). assert (EN : (a * a) ^ n = B * A) by (unfold A, B; rewrite <- pow_add; f_equal; lia).
  rewrite EN. assert (HA : A <> 0) by (apply pow_nonzero; nra). assert (HB : B <> 0) by (apply pow_nonzero; nra).
  assert (Eab : ha / hb = r * r).
  { rewrite <- Z1. apply (Rmult_eq_reg_r hb); [|exact NZ]. transitivity (ha * (hb * (e * e))); [rewrite Z0; field; exact NZ|ring]. }
  assert (Dt : d * (t * t) = gg + TT * TT).
  { apply (Rmult_eq_reg_r (1 / gg)); [|unfold Rdiv; rewrite Rmult_1_l; apply Rinv_neq_0_compat; lra].
    transitivity (1 + 1 / gg * (TT * TT)); [rewrite <- CN; ring|field; lra]. }
  assert (Hd : 0 < gg + TT * TT) by nra.
  transitivity ((ha / hb) * (v * v) ^ (n - length (xs n)) / d); [field; repeat split; assumption|]. rewrite Eab.
  transitivity (r * r * (v * v) ^ (n - length (xs n)) * (t * t) / (d * (t * t))); [field; split; assumption|]. rewrite Dt. f_equal.
  rewrite XC, Rpow_mult_distr. ring.
Qed.
Lemma cheb2_hom0 b : b <> 0 ->
  k2 n rs * k2 n rs * cnorm_sqr (hom Z2 C0 (RtoC b)) * (b * b) ^ (length P2 - length Z2) / cnorm_sqr (hom P2 C0 (RtoC b)) = 1.
Proof.
  intros Hb. destruct (xs_cheb n Hn 0) as [_ XL].
  assert (SC : forall l, hom l C0 (RtoC b) = (cpow (RtoC b) (length l) * hom l C0 C1)%C).
  { intros l. rewrite <- hom_scale. f_equal; ring. }
  rewrite !SC, !cnorm_sqr_mul, !cnorm_sqr_pow, cnorm_sqr_RtoC.
  assert (LP : length P2 = n) by (rewrite !map_length, seq_length; reflexivity).
  assert (LZ : length Z2 = length (xs n)) by apply map_length. rewrite LP, LZ.
  pose proof (Q2_hom0 n rs Hn Hrs) as N0. pose proof (Z2_0 n Hn) as NZ.
  rewrite <- cnorm_sqr_RtoC at 1. rewrite (k2_RtoC n rs Hn), cnorm_sqr_div by exact NZ.
  assert (NP : hom P2 C0 C1 <> C0).
  { rewrite (P2_hom n rs Hn Hrs), hom_1_0. intros Q. apply C10.
    transitivity (C1 / hom Q2 C0 C1 * hom Q2 C0 C1)%C; [field; exact N0|]. rewrite Q. ring. }
  apply cnorm_sqr_neq0 in NZ, NP. set (x := cnorm_sqr (hom P2 C0 C1)) in *. set (y := cnorm_sqr (hom Z2 C0 C1)) in *.
  replace ((b * b) ^ n) with ((b * b) ^ length (xs n) * (b * b) ^ (n - length (xs n))) by (rewrite <- pow_add; f_equal; lia).
  field. repeat split; try assumption; apply pow_nonzero; nra.
Qed.
End C2.
