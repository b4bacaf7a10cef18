(** Properties C52, C55-C59, C64-C66: the design functions end to end. *)
From Coq Require Import List Arith ZArith Reals Permutation Sorted Lra Lia.
From Verif Require Import Base Num Trans M_Complex M_Filter M_Design Cx S_Bessel S_Design P_Bessel P_Poly P_Lp P_Sort P_Proto P_Cheb P_Iir P_Iir2.
Import ListNotations.
Local Open Scope R_scope.

(** ** The prototype frequency *)
Lemma trig01 w : 0 < w < 1 -> 0 < sin (PI * w / 2) /\ 0 < cos (PI * w / 2).
Proof. intros Hw. destruct (warp_trig w Hw) as [A [B _]]. split; assumption. Qed.
Lemma valid1 bt wn : valid_digital bt wn -> band_arity bt = 1%nat -> exists w, wn = [w] /\ 0 < w < 1.
Proof.
  intros [Hl [Hf _]] E'. rewrite E' in Hl. destruct wn as [|w [|? ?]]; try discriminate Hl. exists w. split; [reflexivity|]. inversion Hf; assumption.
Qed.
Lemma valid2 bt wn : valid_digital bt wn -> band_arity bt = 2%nat ->
  exists w0 w1, wn = [w0; w1] /\ 0 < w0 < 1 /\ 0 < w1 < 1 /\ w0 < w1 /\ 0 < sin (PI * w1 / 2) * cos (PI * w0 / 2) - sin (PI * w0 / 2) * cos (PI * w1 / 2).
Proof.
  intros [Hl [Hf Hs]] E'. rewrite E' in Hl. destruct wn as [|w0 [|w1 [|? ?]]]; try discriminate Hl. exists w0, w1.
  inversion Hf as [|? ? H0 HF]; subst. inversion HF as [|? ? H1 _]; subst. inversion Hs as [|? ? _ HS]; subst. inversion HS as [|? ? H2 _]; subst.
  split; [reflexivity|]. split; [exact H0|]. split; [exact H1|]. split; [exact H2|].
  replace (sin (PI * w1 / 2) * cos (PI * w0 / 2) - sin (PI * w0 / 2) * cos (PI * w1 / 2)) with (sin (PI * w1 / 2 - PI * w0 / 2)).
  2:{ rewrite sin_minus. ring. }
  pose proof PI_RGT_0. apply sin_gt_0; nra.
Qed.
Lemma sc1 t : sin t * sin t + cos t * cos t = 1.
Proof. pose proof (sin2_cos2 t) as Q. unfold Rsqr in Q. exact Q. Qed.
Lemma ab_nz a b : a <> 0 \/ b <> 0 -> 0 < a * a + b * b.
Proof. intros [Q|Q]; nra. Qed.

(** The pair never vanishes, so it determines a frequency in [0, infinity]. *)
Theorem C57_band_ratio_defined bt wn theta : valid_digital bt wn ->
  fst (band_ratio bt wn theta) <> 0 \/ snd (band_ratio bt wn theta) <> 0.
Proof.
  intros Hv. pose proof (sc1 (theta / 2)) as Q. destruct bt.
  - destruct (valid1 _ _ Hv eq_refl) as [w [-> Hw]]. destruct (trig01 w Hw) as [A B]. cbn [band_ratio fst snd nth].
    destruct (Req_dec (sin (theta / 2)) 0) as [Z|Z]; [right|left]; apply Rmult_integral_contrapositive; split; try lra. intros Z'. rewrite Z, Z' in Q. lra.
  - destruct (valid1 _ _ Hv eq_refl) as [w [-> Hw]]. destruct (trig01 w Hw) as [A B]. cbn [band_ratio fst snd nth].
    destruct (Req_dec (cos (theta / 2)) 0) as [Z|Z]; [right|left]; apply Rmult_integral_contrapositive; split; try lra. intros Z'. rewrite Z, Z' in Q. lra.
  - destruct (valid2 _ _ Hv eq_refl) as [w0 [w1 [-> [H0 [H1 [_ D]]]]]]. destruct (trig01 w0 H0) as [A0 B0]. destruct (trig01 w1 H1) as [A1 B1].
    cbn [band_ratio fst snd nth]. set (s := sin (theta / 2)) in *. set (c := cos (theta / 2)) in *.
    set (s0 := sin (PI * w0 / 2)) in *. set (c0 := cos (PI * w0 / 2)) in *. set (s1 := sin (PI * w1 / 2)) in *. set (c1 := cos (PI * w1 / 2)) in *.
    destruct (Req_dec s 0) as [Z|Z]; [|destruct (Req_dec c 0) as [Z'|Z']].
    + left. rewrite Z in *. assert (0 < s0 * s1) by (apply Rmult_lt_0_compat; lra). nra.
    + left. rewrite Z' in *. assert (0 < c0 * c1) by (apply Rmult_lt_0_compat; lra). nra.
    + right. repeat apply Rmult_integral_contrapositive_currified; try assumption; lra.
  - destruct (valid2 _ _ Hv eq_refl) as [w0 [w1 [-> [H0 [H1 [_ D]]]]]]. destruct (trig01 w0 H0) as [A0 B0]. destruct (trig01 w1 H1) as [A1 B1].
    cbn [band_ratio fst snd nth]. set (s := sin (theta / 2)) in *. set (c := cos (theta / 2)) in *.
    set (s0 := sin (PI * w0 / 2)) in *. set (c0 := cos (PI * w0 / 2)) in *. set (s1 := sin (PI * w1 / 2)) in *. set (c1 := cos (PI * w1 / 2)) in *.
    destruct (Req_dec s 0) as [Z|Z]; [|destruct (Req_dec c 0) as [Z'|Z']].
    + right. rewrite Z in *. assert (0 < s0 * s1) by (apply Rmult_lt_0_compat; lra). nra.
    + right. rewrite Z' in *. assert (0 < c0 * c1) by (apply Rmult_lt_0_compat; lra). nra.
    + left. repeat apply Rmult_integral_contrapositive_currified; try assumption; lra.
Qed.
Print Assumptions C57_band_ratio_defined.

(** The pair in terms of tangents. *)
Theorem C57_band_ratio_tan bt wn theta : valid_digital bt wn -> cos (theta / 2) <> 0 -> snd (band_ratio bt wn theta) <> 0 ->
  let O := tan (theta / 2) in let O0 := tan (PI * nth 0 wn 0 / 2) in let O1 := tan (PI * nth 1 wn 0 / 2) in
  fst (band_ratio bt wn theta) / snd (band_ratio bt wn theta) =
  match bt with
  | Lowpass => O / O0
  | Highpass => O0 / O
  | Bandpass => (O0 * O1 - O ^ 2) / (O * (O1 - O0))
  | Bandstop => O * (O1 - O0) / (O0 * O1 - O ^ 2)
  end.
Proof.
  intros Hv Hc Hb. cbv zeta. unfold tan. destruct bt.
  - destruct (valid1 _ _ Hv eq_refl) as [w [-> Hw]]. destruct (trig01 w Hw) as [A B]. cbn [band_ratio fst snd nth] in *. field. repeat split; lra.
  - destruct (valid1 _ _ Hv eq_refl) as [w [-> Hw]]. destruct (trig01 w Hw) as [A B]. cbn [band_ratio fst snd nth] in *.
    assert (sin (theta / 2) <> 0) by (intros Z; apply Hb; rewrite Z; ring). field. repeat split; lra.
  - destruct (valid2 _ _ Hv eq_refl) as [w0 [w1 [-> [H0 [H1 [_ D]]]]]]. destruct (trig01 w0 H0) as [A0 B0]. destruct (trig01 w1 H1) as [A1 B1].
    cbn [band_ratio fst snd nth] in *. assert (sin (theta / 2) <> 0) by (intros Z; apply Hb; rewrite Z; ring).
    field. repeat split; try lra.
  - destruct (valid2 _ _ Hv eq_refl) as [w0 [w1 [-> [H0 [H1 [_ D]]]]]]. destruct (trig01 w0 H0) as [A0 B0]. destruct (trig01 w1 H1) as [A1 B1].
    cbn [band_ratio fst snd nth] in *. field. repeat split; try lra.
Qed.
Print Assumptions C57_band_ratio_tan.

Lemma half_PI x : PI * x / 2 = (PI * x) / 2. Proof. reflexivity. Qed.
Lemma band_ratio_critical bt wn w : valid_digital bt wn -> In w wn ->
  fst (band_ratio bt wn (PI * w)) * fst (band_ratio bt wn (PI * w)) = snd (band_ratio bt wn (PI * w)) * snd (band_ratio bt wn (PI * w)) /\
  snd (band_ratio bt wn (PI * w)) <> 0.
Proof.
  intros Hv Hi. destruct bt.
  - destruct (valid1 _ _ Hv eq_refl) as [w0 [-> Hw]]. destruct Hi as [<-|[]]. destruct (trig01 w0 Hw) as [A B]. cbn [band_ratio fst snd nth]. split; [ring|nra].
  - destruct (valid1 _ _ Hv eq_refl) as [w0 [-> Hw]]. destruct Hi as [<-|[]]. destruct (trig01 w0 Hw) as [A B]. cbn [band_ratio fst snd nth]. split; [ring|nra].
  - destruct (valid2 _ _ Hv eq_refl) as [w0 [w1 [-> [H0 [H1 [_ D]]]]]]. destruct (trig01 w0 H0) as [A0 B0]. destruct (trig01 w1 H1) as [A1 B1].
    destruct Hi as [<-|[<-|[]]]; cbn [band_ratio fst snd nth]; (split; [ring|]); repeat apply Rmult_integral_contrapositive_currified; lra.
  - destruct (valid2 _ _ Hv eq_refl) as [w0 [w1 [-> [H0 [H1 [_ D]]]]]]. destruct (trig01 w0 H0) as [A0 B0]. destruct (trig01 w1 H1) as [A1 B1].
    destruct Hi as [<-|[<-|[]]]; cbn [band_ratio fst snd nth]; (split; [ring|]).
    + replace (_ - _) with ((sin (PI * w1 / 2) * cos (PI * w0 / 2) - sin (PI * w0 / 2) * cos (PI * w1 / 2)) * sin (PI * w0 / 2) * cos (PI * w0 / 2)) by ring.
      repeat apply Rmult_integral_contrapositive_currified; lra.
    + replace (sin (PI * w0 / 2) * sin (PI * w1 / 2) * cos (PI * w1 / 2) ^ 2 - cos (PI * w0 / 2) * cos (PI * w1 / 2) * sin (PI * w1 / 2) ^ 2)
        with (- (sin (PI * w1 / 2) * cos (PI * w0 / 2) - sin (PI * w0 / 2) * cos (PI * w1 / 2)) * sin (PI * w1 / 2) * cos (PI * w1 / 2)) by ring.
      repeat apply Rmult_integral_contrapositive_currified; lra.
Qed.

Lemma reference_ratio bt wn theta : valid_digital bt wn -> reference bt wn theta -> fst (band_ratio bt wn theta) = 0.
Proof.
  intros Hv Hr. destruct bt; cbn [reference] in Hr.
  - subst. cbn [band_ratio fst]. replace (0 / 2) with 0 by field. rewrite sin_0. ring.
  - subst. cbn [band_ratio fst]. rewrite cos_PI2. ring.
  - destruct (valid2 _ _ Hv eq_refl) as [w0 [w1 [-> [H0 [H1 [_ D]]]]]]. destruct (trig01 w0 H0) as [A0 B0]. destruct (trig01 w1 H1) as [A1 B1].
    destruct Hr as [Hc Hr]. cbn [band_ratio fst nth] in *. unfold tan in Hr.
    set (s := sin (theta / 2)) in *. set (c := cos (theta / 2)) in *.
    set (s0 := sin (PI * w0 / 2)) in *. set (c0 := cos (PI * w0 / 2)) in *. set (s1 := sin (PI * w1 / 2)) in *. set (c1 := cos (PI * w1 / 2)) in *.
    assert (Q : s * s * (c0 * c1) = s0 * s1 * (c * c)).
    { replace (s * s * (c0 * c1)) with ((s / c) ^ 2 * (c * c * (c0 * c1))) by (field; exact Hc). rewrite Hr. field. lra. }
    cbn [pow]. lra.
  - cbn [band_ratio fst]. destruct Hr as [-> | ->].
    + replace (0 / 2) with 0 by field. rewrite sin_0. ring.
    + rewrite cos_PI2. ring.
Qed.

(** ** Butterworth *)
Lemma proto_butter n rp rs : proto Butterworth n rp rs = mkZpk [] (map (bp n) (seq 0 n)) 1.
Proof. apply buttap_eq. Qed.
Lemma butter_poles_stable n : Forall (fun r => cre r < 0) (map (bp n) (seq 0 n)).
Proof. apply Forall_forall. intros r Hr. apply in_map_iff in Hr. destruct Hr as [k [<- Hk]]. apply in_seq in Hk. apply bp_stable. lia. Qed.
Lemma butter_poles_length n : length (map (bp n) (seq 0 n)) = n.
Proof. rewrite map_length, seq_length. reflexivity. Qed.
Lemma butter_ripple_ok : ripple_ok Butterworth None None.
Proof. split; [discriminate|]. split; [discriminate|exact I]. Qed.

Lemma butter_digital epsilon sort N wn bt analog fs :
  analog <> Some true -> valid_digital bt (normalised wn fs) ->
  exists f, butter_dyn epsilon sort N wn (Some bt) analog (Some OutZpk) fs = Ok (DZpk f) /\
    butter_dyn epsilon sort N wn (Some bt) analog (Some OutBa) fs = finish epsilon sort N false (Some OutBa) f /\
    butter_dyn epsilon sort N wn (Some bt) analog (Some OutSos) fs = finish epsilon sort N false (Some OutSos) f /\
    real_filter f /\ stable_digital f /\
    length (zk_z f) = (band_arity bt * N)%nat /\ length (zk_p f) = (band_arity bt * N)%nat /\
    ((0 < N)%nat -> forall theta, let (a, b) := band_ratio bt (normalised wn fs) theta in
       dgain_sqr f theta = (b * b) ^ N / ((a * a) ^ N + (b * b) ^ N)).
Proof.
  intros Ha Hv. unfold butter_dyn. cbn [unwrap_or].
  assert (Ea : unwrap_or analog false = false) by (destruct analog as [[|]|]; [contradiction Ha; reflexivity|reflexivity|reflexivity]).
  rewrite Ea.
  destruct (digital_design epsilon sort Butterworth N None None _ 1 (proto_butter N None None) (butter_poles_stable N) (buttap_closed N) butter_ripple_ok
              bt wn (Some bt) (Some Butterworth) (Some false) fs eq_refl eq_refl eq_refl Hv) as [f [E' [Q1 [Q2 [Q3 [Q4 Q5]]]]]].
  rewrite butter_poles_length in *.
  exists f. split; [rewrite E'; reflexivity|]. split; [apply E'|]. split; [apply E'|]. split; [exact Q1|]. split; [exact Q2|]. split; [exact Q3|]. split; [exact Q4|].
  intros HN theta. rewrite Q5. destruct (band_ratio bt (normalised wn fs) theta) as [a b]. cbn [fst snd].
  rewrite butter_hom. destruct (Nat.eqb_spec N 0); [lia|]. rewrite !Rmult_1_l. reflexivity.
Qed.

Lemma sq_pow x N : (x * x) ^ N = x ^ (2 * N).
Proof. rewrite pow_mult. f_equal. ring. Qed.
Lemma even_pow_nonneg x N : 0 <= x ^ (2 * N).
Proof. rewrite pow_mult. apply pow_le. apply pow2_ge_0. Qed.
Lemma even_pow_pos x N : x <> 0 -> 0 < x ^ (2 * N).
Proof. intros Hx. rewrite pow_mult. apply pow_lt. cbn [pow]. nra. Qed.

(** C57 *)
Theorem C57_butter_digital epsilon sort N wn bt analog fs :
  (0 < N)%nat -> analog <> Some true -> valid_digital bt (normalised wn fs) ->
  exists f, butter_dyn epsilon sort N wn (Some bt) analog (Some OutZpk) fs = Ok (DZpk f) /\
    (forall theta, let (a, b) := band_ratio bt (normalised wn fs) theta in
       (b <> 0 -> dgain_sqr f theta = 1 / (1 + (a / b) ^ (2 * N))) /\ (b = 0 -> dgain_sqr f theta = 0)) /\
    (forall theta, reference bt (normalised wn fs) theta -> dgain_sqr f theta = 1) /\
    (forall w, In w (normalised wn fs) -> dgain_sqr f (PI * w) = 1 / 2) /\
    (forall theta, 0 <= dgain_sqr f theta <= 1).
Proof.
  intros HN Ha Hv. destruct (butter_digital epsilon sort N wn bt analog fs Ha Hv) as [f [E' [_ [_ [_ [_ [_ [_ Q]]]]]]]]. specialize (Q HN).
  exists f. split; [exact E'|].
  assert (G : forall theta, let (a, b) := band_ratio bt (normalised wn fs) theta in
       (b <> 0 -> dgain_sqr f theta = 1 / (1 + (a / b) ^ (2 * N))) /\ (b = 0 -> dgain_sqr f theta = 0)).
  { intros theta. specialize (Q theta). destruct (band_ratio bt (normalised wn fs) theta) as [a b]. rewrite Q, !sq_pow. split.
    - intros Hb. unfold Rdiv at 3. rewrite Rpow_mult_distr, pow_inv. pose proof (even_pow_pos b N Hb). pose proof (even_pow_nonneg a N). field. lra.
    - intros ->. rewrite pow_i by lia. unfold Rdiv. ring. }
  split; [exact G|].
  split; [|split].
  - intros theta Hr. specialize (G theta). pose proof (reference_ratio bt _ theta Hv Hr) as Z. pose proof (C57_band_ratio_defined bt _ theta Hv) as D.
    destruct (band_ratio bt (normalised wn fs) theta) as [a b]. cbn [fst snd] in *. subst a. destruct D as [D|D]; [contradiction D; reflexivity|].
    rewrite (proj1 G D). unfold Rdiv at 2. rewrite Rmult_0_l, pow_i by lia. field.
  - intros w Hw. specialize (Q (PI * w)). destruct (band_ratio_critical bt _ w Hv Hw) as [E2 Hb].
    destruct (band_ratio bt (normalised wn fs) (PI * w)) as [a b]. cbn [fst snd] in *. rewrite Q, E2.
    rewrite sq_pow. pose proof (even_pow_pos b N Hb). field. lra.
  - intros theta. specialize (G theta). destruct (band_ratio bt (normalised wn fs) theta) as [a b]. destruct G as [G1 G2].
    destruct (Req_dec b 0) as [Z|Z]; [rewrite (G2 Z); lra|]. rewrite (G1 Z). pose proof (even_pow_nonneg (a / b) N).
    split; [apply Rle_mult_inv_pos; lra|]. apply (Rmult_le_reg_r (1 + (a / b) ^ (2 * N))); [lra|]. unfold Rdiv at 1. rewrite Rmult_assoc, Rinv_l by lra. lra.
Qed.
Print Assumptions C57_butter_digital.
Example C57_hyp_met : valid_digital Bandpass (normalised [10; 20] (Some 100)).
Proof. unfold valid_digital. cbn. split; [reflexivity|]. split; repeat constructor; lra. Qed.

(** C58 *)
Theorem C58_butter_stable epsilon sort N wn bt analog fs :
  analog <> Some true -> valid_digital bt (normalised wn fs) ->
  exists f, butter_dyn epsilon sort N wn (Some bt) analog (Some OutZpk) fs = Ok (DZpk f) /\
    stable_digital f /\ conj_closed (zk_z f) /\ conj_closed (zk_p f) /\
    length (zk_z f) = length (zk_p f) /\ length (zk_p f) = (band_arity bt * N)%nat.
Proof.
  intros Ha Hv. destruct (butter_digital epsilon sort N wn bt analog fs Ha Hv) as [f [E' [_ [_ [[Q1 Q2] [Q3 [Q4 [Q5 _]]]]]]]].
  exists f. repeat (split; [assumption|]). split; [congruence|exact Q5].
Qed.
Print Assumptions C58_butter_stable.

(** C52: the analog design with cutoff 1. *)
Lemma butter_analog epsilon sort N wn bt :
  valid_freqs bt wn ->
  exists f, butter_dyn epsilon sort N wn (Some bt) (Some true) (Some OutZpk) None = Ok (DZpk f) /\
    proper f /\ real_filter f /\ stable_analog f /\ length (zk_p f) = (band_arity bt * N)%nat /\
    ((0 < N)%nat -> forall w, let (a, b) := analog_ratio bt wn w in gain_sqr f w = (b * b) ^ N / ((a * a) ^ N + (b * b) ^ N)).
Proof.
  intros Hv. unfold butter_dyn. cbn [unwrap_or].
  destruct (analog_design epsilon sort Butterworth N None None _ 1 (proto_butter N None None) (butter_poles_stable N) (buttap_closed N) butter_ripple_ok
              bt wn (Some bt) (Some Butterworth) (Some true) eq_refl eq_refl eq_refl Hv) as [f [E' [Q0 [Q1 [Q2 [Q3 Q4]]]]]].
  rewrite butter_poles_length in *. exists f. split; [rewrite E'; reflexivity|]. split; [exact Q0|]. split; [exact Q1|]. split; [exact Q2|]. split; [exact Q3|].
  intros HN w. unfold gain_sqr. rewrite Q4. destruct (analog_ratio_XY bt wn w) as [u [sg [Hu [Hsg E2]]]]. rewrite E2. cbn [fst snd].
  destruct (analog_ratio bt wn w) as [a b]. cbn [fst snd].
  pose proof (gain_of_XY (map (bp N) (seq 0 N)) 1 _ _ a b u sg (buttap_closed N) Hu Hsg eq_refl eq_refl) as G. rewrite butter_poles_length in G. rewrite G.
  rewrite butter_hom. destruct (Nat.eqb_spec N 0); [lia|]. rewrite !Rmult_1_l. reflexivity.
Qed.

Theorem C52_butter_prototype epsilon sort N : (0 < N)%nat ->
  exists f, butter_dyn epsilon sort N [1] (Some Lowpass) (Some true) (Some OutZpk) None = Ok (DZpk f) /\
    zk_z f = [] /\ length (zk_p f) = N /\
    Forall (fun p => cnorm_sqr p = 1 /\ cre p < 0) (zk_p f) /\ conj_closed (zk_p f) /\
    forall w, gain_sqr f w = 1 / (1 + w ^ (2 * N)).
Proof.
  intros HN. assert (Hv : valid_freqs Lowpass [1]) by (split; [reflexivity|]; split; repeat constructor; lra).
  destruct (butter_analog epsilon sort N [1] Lowpass Hv) as [f [E' [Q0 [Q1 [Q2 [Q3 Q4]]]]]]. exists f. split; [exact E'|].
  assert (E2 : zk_z f = [] /\ zk_p f = map (fun r => r * RtoC 1)%C (map (bp N) (seq 0 N))).
  { unfold butter_dyn in E'. cbn [unwrap_or] in E'. rewrite iir_good in E'.
    2:{ cbn [unwrap_or]. apply valid_not_bad; [exact Hv|discriminate|reflexivity|apply butter_ripple_ok]. }
    unfold reduced in E'. cbv zeta in E'. cbn [unwrap_or normalised] in E'. rewrite proto_butter in E'. unfold apply_band in E'. cbn [nth] in E'.
    destruct (lp2lp_zpk_dyn (mkZpk [] (map (bp N) (seq 0 N)) 1) (Some 1)) as [f1| | |] eqn:E1; cbn [bind] in E'; try discriminate E'.
    unfold finish in E'. cbn [unwrap_or] in E'. injection E' as ->. destruct (lp2lp_eq _ _ _ E1) as [_ [A [B _]]]. split; assumption. }
  destruct E2 as [Ez Ep]. split; [exact Ez|]. split; [rewrite Q3; cbn [band_arity]; lia|]. split; [|split; [apply Q1|]].
  - rewrite Ep. apply Forall_forall. intros r Hr. apply in_map_iff in Hr. destruct Hr as [r' [<- Hr]]. apply in_map_iff in Hr. destruct Hr as [k [<- Hk]].
    apply in_seq in Hk. replace (bp N k * RtoC 1)%C with (bp N k) by cx. split; [|apply bp_stable; lia].
    unfold bp. pose proof (E_norm (phi N k)) as Q. unfold cnorm_sqr, E in Q |- *. cbn in Q |- *. lra.
  - intros w. specialize (Q4 HN w). cbn [analog_ratio nth] in Q4. rewrite Q4, Rmult_1_r, pow1, sq_pow. pose proof (even_pow_nonneg w N). field. lra.
Qed.
Print Assumptions C52_butter_prototype.

(** C66: analog Butterworth designs of every band type. *)
Theorem C66_butter_analog epsilon sort N wn bt : (0 < N)%nat -> valid_freqs bt wn ->
  exists f, butter_dyn epsilon sort N wn (Some bt) (Some true) (Some OutZpk) None = Ok (DZpk f) /\
    stable_analog f /\ real_filter f /\ proper f /\ length (zk_p f) = (band_arity bt * N)%nat /\
    (forall w, let (a, b) := analog_ratio bt wn w in
       (b <> 0 -> gain_sqr f w = 1 / (1 + (a / b) ^ (2 * N))) /\ (b = 0 -> gain_sqr f w = 0)) /\
    (forall w, In w wn -> gain_sqr f w = 1 / 2).
Proof.
  intros HN Hv. destruct (butter_analog epsilon sort N wn bt Hv) as [f [E' [Q0 [Q1 [Q2 [Q3 Q4]]]]]]. specialize (Q4 HN).
  exists f. split; [exact E'|]. split; [exact Q2|]. split; [exact Q1|]. split; [exact Q0|]. split; [exact Q3|].
  split.
  - intros w. specialize (Q4 w). destruct (analog_ratio bt wn w) as [a b]. rewrite Q4, !sq_pow. split.
    + intros Hb. unfold Rdiv at 3. rewrite Rpow_mult_distr, pow_inv. pose proof (even_pow_pos b N Hb). pose proof (even_pow_nonneg a N). field. lra.
    + intros ->. rewrite pow_i by lia. unfold Rdiv. ring.
  - intros w Hw. specialize (Q4 w).
    assert (Hab : fst (analog_ratio bt wn w) * fst (analog_ratio bt wn w) = snd (analog_ratio bt wn w) * snd (analog_ratio bt wn w) /\ snd (analog_ratio bt wn w) <> 0).
    { destruct Hv as [Hl [Hf Hso]]. destruct bt; cbn [band_arity] in Hl; destruct wn as [|w0 [|w1 [|? ?]]]; try discriminate Hl; cbn [analog_ratio nth fst snd].
      - inversion Hf; subst. destruct Hw as [<-|[]]. split; [ring|lra].
      - inversion Hf; subst. destruct Hw as [<-|[]]. split; [ring|lra].
      - inversion Hf as [|? ? H0 Hf']; subst. inversion Hf' as [|? ? H1 _]; subst. inversion Hso as [|? ? _ HF]; subst. inversion HF; subst.
        destruct Hw as [<-|[<-|[]]]; (split; [ring|apply Rmult_integral_contrapositive_currified; lra]).
      - inversion Hf as [|? ? H0 Hf']; subst. inversion Hf' as [|? ? H1 _]; subst. inversion Hso as [|? ? _ HF]; subst. inversion HF; subst.
        destruct Hw as [<-|[<-|[]]]; (split; [ring|]); cbn [pow]; [|assert (w1 * (w1 - w0) <> 0) by (apply Rmult_integral_contrapositive_currified; lra); lra].
        assert (w0 * (w1 - w0) <> 0) by (apply Rmult_integral_contrapositive_currified; lra). lra. }
    destruct (analog_ratio bt wn w) as [a b]. cbn [fst snd] in Hab. destruct Hab as [Hab Hb]. rewrite Q4, Hab, sq_pow. pose proof (even_pow_pos b N Hb). field. lra.
Qed.
Print Assumptions C66_butter_analog.
Example C66_hyp_met : valid_freqs Bandstop [1; 3].
Proof. split; [reflexivity|]. split; repeat constructor; lra. Qed.

(** ** Chebyshev I *)
Lemma chebT_even_sq n x : chebT n (- x) * chebT n (- x) = chebT n x * chebT n x.
Proof.
  assert (Q : forall n, chebT n (- x) = (-1) ^ n * chebT n x /\ chebT (S n) (- x) = (-1) ^ (S n) * chebT (S n) x).
  { induction n0 as [|m [IH1 IH2]]; [split; cbn [chebT pow]; ring|]. split; [exact IH2|]. rewrite !chebT_SS, IH1, IH2. cbn [pow]. ring. }
  destruct (Q n) as [-> _]. replace ((-1) ^ n * chebT n x * ((-1) ^ n * chebT n x)) with (((-1) ^ n * (-1) ^ n) * (chebT n x * chebT n x)) by ring.
  rewrite <- Rpow_mult_distr. replace (-1 * -1) with 1 by ring. rewrite pow1. ring.
Qed.
Lemma chebT_ge1 n x : 1 <= x -> 1 <= chebT n x.
Proof.
  intros Hx. assert (Q : 1 <= chebT n x /\ chebT n x <= chebT (S n) x).
  { induction n as [|n [IH1 IH2]]; [cbn [chebT]; lra|]. split; [lra|]. rewrite chebT_SS. nra. }
  apply Q.
Qed.
Lemma chebT_abs_ge1 n x : 1 <= Rabs x -> 1 <= chebT n x * chebT n x.
Proof.
  intros Hx. unfold Rabs in Hx. destruct (Rcase_abs x).
  - rewrite <- chebT_even_sq. pose proof (chebT_ge1 n (- x) Hx). nra.
  - pose proof (chebT_ge1 n x Hx). nra.
Qed.
Lemma chebT_abs_le1 n x : Rabs x <= 1 -> chebT n x * chebT n x <= 1.
Proof.
  intros Hx. assert (Hx' : -1 <= x <= 1) by (unfold Rabs in Hx; destruct (Rcase_abs x); lra).
  pose proof (chebT_bound n x Hx') as Q. unfold Rabs in Q. destruct (Rcase_abs (chebT n x)); nra.
Qed.
Lemma Rpower_neg x : Rpower 10 (- x) = / Rpower 10 x.
Proof. apply Rpower_Ropp. Qed.

Lemma cheby1_setup n rp : (0 < n)%nat -> 0 < rp ->
  exists p k, proto ChebyshevI n (Some rp) None = mkZpk [] p k /\ Forall (fun r => cre r < 0) p /\ conj_closed p /\ length p = n /\
    forall w, cnorm_sqr (H (mkZpk [] p k) (0, w)) = 1 / (1 + (Rpower 10 (rp / 10) - 1) * (chebT n w * chebT n w)).
Proof.
  intros Hn Hr. eexists. eexists. split; [cbn [proto unwrap_or]; apply cheb1ap_eq; exact Hn|].
  assert (He : 0 < eps1 rp) by (apply eps1_pos; exact Hr). split; [|split; [|split]].
  - apply Forall_forall. intros p Hp. apply in_map_iff in Hp. destruct Hp as [k [<- Hk]]. apply in_seq in Hk. apply cp_stable; [lia|exact He|lia].
  - apply cp_closed; lia.
  - rewrite map_length, seq_length. reflexivity.
  - intros w. apply cheb1_mag; assumption.
Qed.
Lemma cheby1_ripple_ok rp : 0 < rp -> ripple_ok ChebyshevI (Some rp) None.
Proof. intros Hr. split; [intros r E'; injection E' as <-; lra|]. split; [discriminate|discriminate]. Qed.
Lemma gain_ratio p k a b : b <> 0 ->
  k * k * (b * b) ^ length p / cnorm_sqr (hom p (0, a) (RtoC b)) = cnorm_sqr (H (mkZpk [] p k) (0, a / b)).
Proof.
  intros Hb. rewrite H_hom. cbn [zk_k zk_z zk_p]. change (hom [] (0, a / b) C1) with C1.
  rewrite cnorm_sqr_div0, cnorm_sqr_mul, cnorm_sqr_RtoC.
  assert (Hbc : RtoC b <> C0) by (apply RtoC_neq0; exact Hb).
  rewrite (hom_div p (0, a) (RtoC b) Hbc), hom_1. replace ((0, a) / RtoC b)%C with ((0, a / b) : C) by (apply C_ext; cbn; field; exact Hb).
  rewrite cnorm_sqr_mul, cnorm_sqr_pow, cnorm_sqr_RtoC. replace (cnorm_sqr C1) with 1 by (cbn; ring).
  set (m := (b * b) ^ length p). assert (Hm : m <> 0) by (apply pow_nonzero; nra). unfold Rdiv. rewrite Rinv_mult.
  set (X := / cnorm_sqr (root_product p _)). replace (k * k * m * (/ m * X)) with (k * k * X * (m * / m)) by ring. rewrite Rinv_r by exact Hm. ring.
Qed.
Lemma gain_infinite p k a : (0 < length p)%nat -> k * k * (0 * 0) ^ length p / cnorm_sqr (hom p (0, a) (RtoC 0)) = 0.
Proof. intros Hl. rewrite Rmult_0_l, pow_i by exact Hl. unfold Rdiv. ring. Qed.

(** C64: digital Chebyshev I designs. *)
Theorem C64_cheby1_digital epsilon sort N rp wn bt analog fs :
  (0 < N)%nat -> 0 < rp -> analog <> Some true -> valid_digital bt (normalised wn fs) ->
  let minimum := Rpower 10 (- rp / 10) in
  exists f, cheby1_dyn epsilon sort N rp wn (Some bt) analog (Some OutZpk) fs = Ok (DZpk f) /\
    stable_digital f /\ real_filter f /\ length (zk_z f) = length (zk_p f) /\ length (zk_p f) = (band_arity bt * N)%nat /\
    (forall theta, let (a, b) := band_ratio bt (normalised wn fs) theta in
       (b <> 0 -> dgain_sqr f theta = 1 / (1 + (Rpower 10 (rp / 10) - 1) * chebT N (a / b) ^ 2)) /\
       (b = 0 -> dgain_sqr f theta = 0) /\
       (Rabs a <= Rabs b -> minimum <= dgain_sqr f theta <= 1) /\
       (Rabs b <= Rabs a -> dgain_sqr f theta <= minimum)) /\
    (forall w, In w (normalised wn fs) -> dgain_sqr f (PI * w) = minimum).
Proof.
  intros HN Hr Ha Hv minimum. destruct (cheby1_setup N rp HN Hr) as [p [k [Hpr [Hs [Hc [Hl Hg]]]]]].
  assert (Ea : unwrap_or analog false = false) by (destruct analog as [[|]|]; [contradiction Ha; reflexivity|reflexivity|reflexivity]).
  destruct (digital_design epsilon sort ChebyshevI N (Some rp) None p k Hpr Hs Hc (cheby1_ripple_ok rp Hr)
              bt wn (Some bt) (Some ChebyshevI) analog fs eq_refl eq_refl Ea Hv) as [f [E' [Q1 [Q2 [Q3 [Q4 Q5]]]]]].
  exists f. split; [unfold cheby1_dyn; rewrite E'; reflexivity|]. split; [exact Q2|]. split; [exact Q1|]. split; [congruence|]. split; [congruence|].
  pose proof (Rpower_10_gt (rp / 10) ltac:(lra)) as G1. set (P := Rpower 10 (rp / 10)) in *.
  assert (Em : minimum = 1 / P) by (unfold minimum, P; replace (- rp / 10) with (- (rp / 10)) by field; rewrite Rpower_neg; unfold Rdiv; ring).
  assert (Hm : 0 < minimum) by (rewrite Em; apply Rdiv_lt_0_compat; lra).
  assert (K : forall theta, let (a, b) := band_ratio bt (normalised wn fs) theta in
       (b <> 0 -> dgain_sqr f theta = 1 / (1 + (P - 1) * chebT N (a / b) ^ 2)) /\ (b = 0 -> dgain_sqr f theta = 0)).
  { intros theta. rewrite Q5. destruct (band_ratio bt (normalised wn fs) theta) as [a b]. cbn [fst snd]. split.
    - intros Hb. rewrite gain_ratio by exact Hb. rewrite Hg. cbn [pow]. rewrite Rmult_1_r. reflexivity.
    - intros ->. apply gain_infinite. lia. }
  assert (Hle : forall T2, 0 <= T2 -> T2 <= 1 -> minimum <= 1 / (1 + (P - 1) * T2) <= 1).
  { intros T2 H0 H1. rewrite Em. assert (1 <= 1 + (P - 1) * T2 <= P) by nra. split.
    - unfold Rdiv. rewrite !Rmult_1_l. apply Rinv_le_contravar; lra.
    - apply (Rmult_le_reg_r (1 + (P - 1) * T2)); [lra|]. unfold Rdiv. rewrite Rmult_1_l, Rinv_l by lra. lra. }
  assert (Hge : forall T2, 1 <= T2 -> 1 / (1 + (P - 1) * T2) <= minimum).
  { intros T2 H1. rewrite Em. unfold Rdiv. rewrite !Rmult_1_l. apply Rinv_le_contravar; nra. }
  assert (Hdiv : forall a b, b <> 0 -> Rabs (a / b) = Rabs a / Rabs b) by (intros; unfold Rdiv; rewrite Rabs_mult, Rabs_inv; reflexivity).
  split.
  - intros theta. specialize (K theta). pose proof (C57_band_ratio_defined bt _ theta Hv) as D.
    destruct (band_ratio bt (normalised wn fs) theta) as [a b]. cbn [fst snd] in D. destruct K as [K1 K2]. split; [exact K1|]. split; [exact K2|]. split.
    + intros Hab. assert (Hb : b <> 0).
      { intros ->. rewrite Rabs_R0 in Hab. pose proof (Rabs_pos a). destruct D as [D|D]; [|contradiction D; reflexivity]. pose proof (Rabs_pos_lt a D). lra. }
      rewrite (K1 Hb). pose proof (Rabs_pos_lt b Hb).
      assert (Rabs (a / b) <= 1) by (rewrite Hdiv by exact Hb; apply (Rmult_le_reg_r (Rabs b)); [lra|]; unfold Rdiv; rewrite Rmult_assoc, Rinv_l by lra; lra).
      apply Hle; cbn [pow]; rewrite Rmult_1_r; [nra|apply chebT_abs_le1; assumption].
    + intros Hab. destruct (Req_dec b 0) as [Z|Hb]; [rewrite (K2 Z); lra|]. rewrite (K1 Hb). pose proof (Rabs_pos_lt b Hb).
      assert (1 <= Rabs (a / b)) by (rewrite Hdiv by exact Hb; apply (Rmult_le_reg_r (Rabs b)); [lra|]; unfold Rdiv; rewrite Rmult_assoc, Rinv_l by lra; lra).
      apply Hge. cbn [pow]. rewrite Rmult_1_r. apply chebT_abs_ge1. assumption.
  - intros w Hw. specialize (K (PI * w)). destruct (band_ratio_critical bt _ w Hv Hw) as [E2 Hb].
    destruct (band_ratio bt (normalised wn fs) (PI * w)) as [a b]. cbn [fst snd] in *. rewrite (proj1 K Hb).
    assert (A1 : Rabs (a / b) = 1).
    { rewrite Hdiv by exact Hb. assert (Rabs a = Rabs b) as ->; [|field; apply Rabs_no_R0; exact Hb].
      rewrite <- !sqrt_Rsqr_abs. unfold Rsqr. rewrite E2. reflexivity. }
    assert (A2 : chebT N (a / b) ^ 2 = 1).
    { cbn [pow]. rewrite Rmult_1_r. pose proof (chebT_abs_le1 N (a / b)). pose proof (chebT_abs_ge1 N (a / b)). lra. }
    rewrite A2, Em. f_equal. ring.
Qed.
Print Assumptions C64_cheby1_digital.

(** C55.  Panics exactly for the listed arguments: Ba and Zpk output, and (because of the
    wrong check refuted below) either not Chebyshev II or rp given as well. *)
Theorem C55_iirfilter_panics_partial epsilon sort order wn rp rs btype ftype analog output fs :
  is_sort sort -> output <> Some OutSos -> (ftype <> Some ChebyshevII \/ rp <> None) ->
  let bad := bad_arguments wn rp rs (unwrap_or btype Bandpass) (unwrap_or ftype Butterworth) (unwrap_or analog false) fs in
  (bad -> iirfilter_dyn epsilon sort order wn rp rs btype ftype analog output fs = Panic) /\
  (~ bad -> exists d, iirfilter_dyn epsilon sort order wn rp rs btype ftype analog output fs = Ok d).
Proof.
  intros Hso Ho Ht bad.
  assert (Ho' : unwrap_or output OutBa <> OutSos) by (destruct output as [o|]; cbn; [intros ->; apply Ho; reflexivity|discriminate]).
  destruct (iir_cases epsilon sort order wn rp rs btype ftype analog output fs) as [[B E']|[B E']]; rewrite E'.
  - split; [reflexivity|]. intros Hn. exfalso. destruct B as [B|[B1 B2]]; [contradiction|].
    destruct Ht as [Ht|Ht]; [|contradiction]. apply Ht. destruct ftype as [t|]; cbn in B1; congruence.
  - split; [intros Hb; contradiction B; left; exact Hb|]. intros _. apply reduced_total; assumption.
Qed.
Print Assumptions C55_iirfilter_panics_partial.

(** For section output the listed arguments always panic too. *)
Theorem C55_iirfilter_bad_panics_sos epsilon sort order wn rp rs btype ftype analog output fs :
  bad_arguments wn rp rs (unwrap_or btype Bandpass) (unwrap_or ftype Butterworth) (unwrap_or analog false) fs ->
  iirfilter_dyn epsilon sort order wn rp rs btype ftype analog output fs = Panic.
Proof.
  intros Hb. destruct (iir_cases epsilon sort order wn rp rs btype ftype analog output fs) as [[B E']|[B E']]; [exact E'|]. contradiction B. left. exact Hb.
Qed.
Print Assumptions C55_iirfilter_bad_panics_sos.

Example C55_hyp_met : ~ bad_arguments [1 / 4] None None Lowpass Butterworth false None.
Proof.
  intros Q. apply (valid_not_bad Lowpass [1 / 4] None false None None Butterworth); [| |discriminate|apply butter_ripple_ok|left; exact Q].
  - split; [reflexivity|]. split; repeat constructor; cbn; lra.
  - intros _. repeat constructor; cbn; lra.
Qed.

(** Chebyshev II with the stop-band attenuation given panics: rp is checked instead. *)
Lemma cheby2_args : ~ bad_arguments [1 / 4] None (Some 40) Lowpass ChebyshevII false None.
Proof.
  intros B. destruct B as [B|[B|[B|[B|[B|[B|[B|[B|[B|[B|[B|B]]]]]]]]]]]; cbn [normalised] in B.
  - cbn in B. lia.
  - destruct B. discriminate.
  - destruct B as [w [[<-|[]] B]]. lra.
  - destruct B as [? [? [_ [B _]]]]. discriminate B.
  - destruct B as [? [B _]]. discriminate B.
  - destruct B as [? [B B']]. injection B as <-. lra.
  - destruct B as [_ [w [[<-|[]] B]]]. lra.
  - apply B. reflexivity.
  - destruct B. discriminate.
  - destruct B. discriminate.
  - discriminate B.
  - discriminate B.
Qed.
Theorem C55_iirfilter_cheby2_refuted epsilon sort order : exists wn rp rs btype ftype analog output fs,
  ~ bad_arguments wn rp rs (unwrap_or btype Bandpass) (unwrap_or ftype Butterworth) (unwrap_or analog false) fs /\
  iirfilter_dyn epsilon sort order wn rp rs btype ftype analog output fs = Panic.
Proof.
  exists [1 / 4], None, (Some 40), (Some Lowpass), (Some ChebyshevII), None, None, None. split; [exact cheby2_args|].
  destruct (iir_cases epsilon sort order [1 / 4] None (Some 40) (Some Lowpass) (Some ChebyshevII) None None None) as [[_ E']|[B _]]; [exact E'|].
  contradiction B. right. split; reflexivity.
Qed.
Print Assumptions C55_iirfilter_cheby2_refuted.

(** C56: no arguments make [cheby2_dyn] return. *)
Theorem C56_cheby2_always_panics_refuted epsilon sort :
  (forall n rs wn btype analog output fs, cheby2_dyn epsilon sort n rs wn btype analog output fs = Panic) /\
  ~ bad_arguments [1 / 4] None (Some 40) Lowpass ChebyshevII false None.
Proof.
  split; [|exact cheby2_args]. intros n rs wn btype analog output fs. unfold cheby2_dyn.
  destruct (iir_cases epsilon sort n wn None (Some rs) btype (Some ChebyshevII) analog output fs) as [[_ E']|[B _]]; [exact E'|].
  contradiction B. right. split; reflexivity.
Qed.
Print Assumptions C56_cheby2_always_panics_refuted.

(** C55: the remaining arguments, a Chebyshev II design without [rp], always panic (whatever [rs] is). *)
Theorem C55_iirfilter_cheby2_no_rp epsilon sort order wn rs btype analog output fs :
  iirfilter_dyn epsilon sort order wn None rs btype (Some ChebyshevII) analog output fs = Panic.
Proof.
  destruct (iir_cases epsilon sort order wn None rs btype (Some ChebyshevII) analog output fs) as [[_ E']|[B _]]; [exact E'|].
  contradiction B. right. split; reflexivity.
Qed.
Print Assumptions C55_iirfilter_cheby2_no_rp.

(** C59 *)
Definition is_representation (o : FilterOutputType) (d : @DigitalFilter R) : Prop :=
  match o, d with OutBa, DBa _ => True | OutZpk, DZpk _ => True | OutSos, DSos _ => True | _, _ => False end.
Theorem C59_representation_partial epsilon sort order wn rp rs btype ftype analog output fs d :
  (iirfilter_dyn epsilon sort order wn rp rs btype ftype analog output fs = Ok d -> is_representation (unwrap_or output OutBa) d) /\
  butter_dyn epsilon sort order wn None analog output fs = butter_dyn epsilon sort order wn (Some Lowpass) analog output fs.
Proof.
  split; [|reflexivity]. destruct (iir_cases epsilon sort order wn rp rs btype ftype analog output fs) as [[_ E']|[_ E']]; rewrite E'; [discriminate|].
  unfold reduced. cbv zeta. destruct (apply_band _ _ _) as [f1| | |]; cbn [bind]; try discriminate.
  destruct (if unwrap_or analog false then _ else _) as [f2| | |]; cbn [bind]; try discriminate.
  unfold finish. destruct (unwrap_or output OutBa).
  - destruct (zpk2tf_dyn _ _ _ _ _); cbn [bind]; try discriminate. intros Q. injection Q as <-. exact I.
  - intros Q. injection Q as <-. exact I.
  - destruct (zpk2sos_dyn _ _ _ _ _ _); cbn [bind]; try discriminate. intros Q. injection Q as <-. exact I.
Qed.
Print Assumptions C59_representation_partial.

(** The Chebyshev default is band-pass: a single frequency panics although the
    documented default low-pass design exists. *)
Theorem C59_cheby1_default_refuted epsilon sort :
  (forall n rp wn analog output fs, cheby1_dyn epsilon sort n rp wn None analog output fs = cheby1_dyn epsilon sort n rp wn (Some Bandpass) analog output fs) /\
  exists n rp wn f, cheby1_dyn epsilon sort n rp wn (Some Lowpass) None (Some OutZpk) None = Ok (DZpk f) /\
    cheby1_dyn epsilon sort n rp wn None None (Some OutZpk) None = Panic.
Proof.
  split; [reflexivity|].
  assert (Hv : valid_digital Lowpass (normalised [1 / 2] None)) by (split; [reflexivity|]; split; repeat constructor; cbn; lra).
  destruct (C64_cheby1_digital epsilon sort 1 1 [1 / 2] Lowpass None None ltac:(lia) ltac:(lra) ltac:(discriminate) Hv) as [f [E' _]].
  exists 1%nat, 1, [1 / 2], f. split; [exact E'|]. apply C55_iirfilter_bad_panics_sos. do 7 right. left. discriminate.
Qed.
Print Assumptions C59_cheby1_default_refuted.

(** C65: the coefficient form has the transfer function of the zero-pole form. *)
Lemma ba_agrees sort N (f : @ZpkFormatFilter R) : is_sort sort -> real_filter f -> length (zk_z f) = length (zk_p f) -> (length (zk_p f) <= 2 * N)%nat ->
  exists b a, zpk2tf_dyn sort (2 * N) (zk_z f) (zk_p f) (zk_k f) = Ok (mkBa b a) /\
    length b = (2 * N + 1)%nat /\ length a = (2 * N + 1)%nat /\ nth 0 a 0 = 1 /\
    forall x, x <> C0 -> ~ In x (zk_p f) -> rpoly_at a x <> C0 /\ (rpoly_at b x / rpoly_at a x)%C = H f x.
Proof.
  intros Hs [Rz Rp] Hl Hle. exists (padded_coef (2 * N) (zk_k f) (zk_z f)), (padded_coef (2 * N) 1 (zk_p f)).
  split; [apply zpk2tf_ok; exact Hs|]. unfold padded_coef at 1 2. rewrite !map_length, !seq_length. split; [reflexivity|]. split; [reflexivity|].
  split.
  - unfold padded_coef. rewrite Nat.add_1_r. cbn [seq map nth]. rewrite pcoef_head. cbn. ring.
  - intros x Hx Hn. rewrite !padded_eval by (assumption || lia). rewrite Hl.
    pose proof (root_product_neq0 _ _ Hn) as N1. pose proof (cpow_neq0 x (2 * N - length (zk_p f)) Hx) as N2.
    split; [apply Cmul_neq0; [apply Cmul_neq0; [apply RtoC_neq0; lra|exact N1]|exact N2]|].
    unfold H. change (RtoC 1) with C1.
    generalize dependent (cpow x (2 * N - length (zk_p f))). generalize dependent (root_product (zk_p f) x). generalize (root_product (zk_z f) x). generalize (RtoC (zk_k f)).
    intros k A B HB P HP. field. split; assumption.
Qed.
Theorem C65_ba_output epsilon sort N wn bt analog fs rp :
  is_sort sort -> analog <> Some true -> valid_digital bt (normalised wn fs) ->
  let agree (zpk ba : res DigitalFilter) := exists f b a, zpk = Ok (DZpk f) /\ ba = Ok (DBa (mkBa b a)) /\
    length b = (2 * N + 1)%nat /\ length a = (2 * N + 1)%nat /\ nth 0 a 0 = 1 /\
    forall x, x <> C0 -> ~ In x (zk_p f) -> rpoly_at a x <> C0 /\ (rpoly_at b x / rpoly_at a x)%C = H f x in
  agree (butter_dyn epsilon sort N wn (Some bt) analog (Some OutZpk) fs) (butter_dyn epsilon sort N wn (Some bt) analog (Some OutBa) fs) /\
  ((0 < N)%nat -> 0 < rp ->
   agree (cheby1_dyn epsilon sort N rp wn (Some bt) analog (Some OutZpk) fs) (cheby1_dyn epsilon sort N rp wn (Some bt) analog (Some OutBa) fs)).
Proof.
  intros Hso Ha Hv agree.
  assert (Hle : (band_arity bt * N <= 2 * N)%nat) by (destruct bt; cbn; lia). split.
  - destruct (butter_digital epsilon sort N wn bt analog fs Ha Hv) as [f [E1 [E2 [_ [R1 [_ [L1 [L2 _]]]]]]]].
    destruct (ba_agrees sort N f Hso R1 ltac:(congruence) ltac:(lia)) as [b [a [Eb Q]]].
    exists f, b, a. split; [exact E1|]. split; [rewrite E2; unfold finish; cbn [unwrap_or]; rewrite Eb; reflexivity|exact Q].
  - intros HN Hr. destruct (cheby1_setup N rp HN Hr) as [p [k [Hpr [Hs [Hc [Hl _]]]]]].
    assert (Ea : unwrap_or analog false = false) by (destruct analog as [[|]|]; [contradiction Ha; reflexivity|reflexivity|reflexivity]).
    destruct (digital_design epsilon sort ChebyshevI N (Some rp) None p k Hpr Hs Hc (cheby1_ripple_ok rp Hr)
              bt wn (Some bt) (Some ChebyshevI) analog fs eq_refl eq_refl Ea Hv) as [f [E' [Q1 [_ [Q3 [Q4 _]]]]]].
    rewrite Hl in *. destruct (ba_agrees sort N f Hso Q1 ltac:(congruence) ltac:(lia)) as [b [a [Eb Q]]].
    exists f, b, a. unfold cheby1_dyn. rewrite !E'. unfold finish. cbn [unwrap_or]. split; [reflexivity|]. split; [rewrite Eb; reflexivity|exact Q].
Qed.
Print Assumptions C65_ba_output.
