(** Property C91: analog Chebyshev II designs and the shape of Chebyshev II responses,
    low-pass and band-pass (the other two are wrong, see C78). *)
From Coq Require Import List Arith ZArith Reals Permutation Sorted Lra Lia Psatz.
From Verif Require Import Base Num Trans M_Complex M_Filter M_Design Cx S_Bessel S_Design P_Bessel P_Savgol P_Poly P_Lp P_CPoly P_Sort P_Proto P_Cheb P_Iir P_Iir2 P_Cheb2 T_Iir T_Sos T_Cheb2 T_Shape.
Import ListNotations.
Local Open Scope R_scope.

Lemma level_low P T2 : 1 < P -> 0 <= T2 -> T2 <= 1 -> T2 / (P - 1 + T2) <= 1 / P.
Proof.
  intros HP H0 H1. apply (Rmult_le_reg_r ((P - 1 + T2) * P)); [apply Rmult_lt_0_compat; lra|]. unfold Rdiv.
  replace (T2 * / (P - 1 + T2) * ((P - 1 + T2) * P)) with (T2 * P) by (field; lra). replace (1 * / P * ((P - 1 + T2) * P)) with (P - 1 + T2) by (field; lra). nra.
Qed.
Lemma level_high P T2 : 1 < P -> 1 <= T2 -> 1 / P <= T2 / (P - 1 + T2) <= 1.
Proof.
  intros HP H1. split.
  - apply (Rmult_le_reg_r ((P - 1 + T2) * P)); [apply Rmult_lt_0_compat; lra|]. unfold Rdiv.
    replace (T2 * / (P - 1 + T2) * ((P - 1 + T2) * P)) with (T2 * P) by (field; lra). replace (1 * / P * ((P - 1 + T2) * P)) with (P - 1 + T2) by (field; lra). nra.
  - apply (Rmult_le_reg_r (P - 1 + T2)); [lra|]. unfold Rdiv. rewrite Rmult_assoc, Rinv_l by lra. lra.
Qed.

Theorem C91_cheby2_analog epsilon sort N rp rs wn bt :
  (0 < N)%nat -> 0 <= rp -> 0 < rs -> valid_freqs bt wn -> bt = Lowpass \/ bt = Bandpass ->
  let maximum := Rpower 10 (- rs / 10) in
  exists f, iirfilter_dyn epsilon sort N wn (Some rp) (Some rs) (Some bt) (Some ChebyshevII) (Some true) (Some OutZpk) None = Ok (DZpk f) /\
    stable_analog f /\ real_filter f /\ proper f /\ length (zk_p f) = (band_arity bt * N)%nat /\
    (forall w, let (a, b) := analog_ratio bt wn w in
       (a = 0 -> gain_sqr f w = 1) /\
       (a <> 0 -> chebT N (b / a) = 0 -> gain_sqr f w = 0) /\
       (a <> 0 -> chebT N (b / a) <> 0 -> gain_sqr f w = 1 / (1 + (Rpower 10 (rs / 10) - 1) / chebT N (b / a) ^ 2)) /\
       (Rabs b <= Rabs a -> gain_sqr f w <= maximum) /\
       (Rabs a <= Rabs b -> maximum <= gain_sqr f w <= 1)) /\
    (forall w, In w wn -> gain_sqr f w = maximum).
Proof.
  intros HN Hp Hs Hv Hbt maximum.
  assert (Hw : valid_warped bt wn).
  { destruct Hv as [Hl' [Hf Hso]]. destruct Hbt as [-> | ->]; cbn in Hl' |- *; destruct wn as [|a [|b [|? ?]]]; try discriminate Hl'; cbn [nth].
    - inversion Hf; assumption.
    - inversion Hf; subst. inversion Hso as [|? ? _ HF]; subst. inversion HF; subst. split; assumption. }
  set (z := map (fun x => ((0, 1 / x) : C)) (xs N)). set (p := map (fun r => C1 / r)%C (map (cp N (eps2 rs)) (seq 0 N))). set (k := k2 N rs).
  assert (Ez : @cheb2ap_dyn R RNum RTrans N rs = mkZpk z p k) by (apply cheb2ap_eq; assumption).
  assert (Hz : Forall (fun r => cre r = 0) z).
  { apply Forall_forall. intros r Hr. apply in_map_iff in Hr. destruct Hr as [x [<- _]]. reflexivity. }
  assert (Hcz : conj_closed z) by (apply Z2_closed; assumption).
  assert (LP : length p = N) by (unfold p; rewrite !map_length, seq_length; reflexivity).
  assert (Hl : (length z <= length p)%nat) by (rewrite LP; unfold z; rewrite map_length; apply (xs_cheb N HN 0)).
  assert (Hps : Forall (fun r => cre r < 0) p) by (apply P2_stable; assumption).
  assert (Hpc : conj_closed p) by apply P2_closed.
  destruct (band_specz z p k Hz Hcz Hl Hps Hpc bt wn Hbt Hw) as [f [E' [Q1 [Q2 [Q3 [Q4 [_ Q5]]]]]]].
  exists f. split.
  { rewrite iir_good; [|cbn [unwrap_or]; apply valid_not_bad; [exact Hv|discriminate|reflexivity|apply cheby2_ripple_ok; assumption]].
    cbn [unwrap_or]. unfold reduced. cbv zeta. cbn [proto unwrap_or normalised]. rewrite Ez, E'. reflexivity. }
  split; [exact Q3|]. split; [exact Q2|]. split; [exact Q1|]. split; [congruence|].
  pose proof (Rpower_10_gt (rs / 10) ltac:(lra)) as G1. set (P := Rpower 10 (rs / 10)) in *.
  assert (Em : maximum = 1 / P) by (unfold maximum, P; replace (- rs / 10) with (- (rs / 10)) by field; rewrite Rpower_neg; unfold Rdiv; ring).
  assert (K : forall w, let (a, b) := analog_ratio bt wn w in
     (a = 0 -> gain_sqr f w = 1) /\ (a <> 0 -> gain_sqr f w = chebT N (b / a) * chebT N (b / a) / (P - 1 + chebT N (b / a) * chebT N (b / a)))).
  { intros w. unfold gain_sqr. rewrite H_numden. destruct (Q5 (0, w) C1) as [-> ->]. destruct (analog_ratio_XY bt wn w) as [u [sg [Hu [Hsg E2]]]]. rewrite E2. cbn [fst snd].
    pose proof (analog_defined bt wn w Hv) as D. destruct (analog_ratio bt wn w) as [a b]. cbn [fst snd].
    rewrite (gain_of_XYz z p k Hcz Hl Hpc _ _ a b u sg Hu Hsg eq_refl eq_refl). split.
    - intros ->. apply cheb2_hom0; try assumption. destruct D as [D|D]; [contradiction D; reflexivity|exact D].
    - intros Hna. apply cheb2_hom; assumption. }
  split.
  - intros w. specialize (K w). pose proof (analog_defined bt wn w Hv) as D. destruct (analog_ratio bt wn w) as [a b]. destruct K as [K1 K2]. split; [exact K1|]. split; [|split; [|split]].
    + intros Hna T0. rewrite (K2 Hna), T0. unfold Rdiv. ring.
    + intros Hna T0. rewrite (K2 Hna). set (T := chebT N (b / a)) in *. assert (0 < T * T) by nra. assert (T * T + (P - 1) <> 0) by lra. field. cbn [pow].
      repeat split; try exact T0; replace (T * (T * 1)) with (T * T) by ring; lra.
    + intros Hab. assert (Hna : a <> 0).
      { intros ->. rewrite Rabs_R0 in Hab. pose proof (Rabs_pos b). destruct D as [D|D]; [contradiction D; reflexivity|]. pose proof (Rabs_pos_lt b D). lra. }
      rewrite (K2 Hna), Em. apply level_low; [exact G1|nra|]. apply chebT_abs_le1, abs_ratio_le; assumption.
    + intros Hab. rewrite Em. destruct (Req_dec a 0) as [Z|Hna].
      { rewrite (K1 Z). split; [|lra]. apply (Rmult_le_reg_r P); [lra|]. unfold Rdiv. rewrite Rmult_assoc, Rinv_l by lra. lra. }
      rewrite (K2 Hna). apply level_high; [exact G1|]. apply chebT_abs_ge1, abs_ratio_ge; assumption.
  - intros w Hin. specialize (K w). pose proof (analog_critical bt wn w Hv Hin) as Q. destruct (analog_ratio bt wn w) as [a b]. destruct Q as [E2 Hb].
    assert (Hna : a <> 0) by (intros ->; apply Hb; nra). rewrite (proj2 K Hna).
    assert (A : Rabs a = Rabs b) by (rewrite <- !sqrt_Rsqr_abs; unfold Rsqr; rewrite E2; reflexivity).
    assert (A2 : chebT N (b / a) * chebT N (b / a) = 1).
    { pose proof (chebT_abs_le1 N (b / a) (abs_ratio_le b a Hna ltac:(lra))). pose proof (chebT_abs_ge1 N (b / a) (abs_ratio_ge b a Hna ltac:(lra))). lra. }
    rewrite A2, Em. field. lra.
Qed.
Print Assumptions C91_cheby2_analog.
Example C91_hyp_met : valid_freqs Bandpass [1; 3].
Proof. exact C88_hyp_met. Qed.

(** Digital Chebyshev II: strictly falling through the pass band; the stop-band maximum and
    the value 0 are both attained at the points where the ripple predicts. *)
Theorem C91_cheby2_shape epsilon sort N rp rs wn bt analog fs :
  is_sort sort -> 0 <= epsilon ->
  (0 < N)%nat -> 0 <= rp -> 0 < rs -> analog <> Some true -> valid_digital bt (normalised wn fs) ->
  bt = Lowpass \/ bt = Bandpass ->
  let maximum := Rpower 10 (- rs / 10) in
  exists f, iirfilter_dyn epsilon sort N wn (Some rp) (Some rs) (Some bt) (Some ChebyshevII) analog (Some OutZpk) fs = Ok (DZpk f) /\
    (forall k, (k <= N)%nat -> forall theta, let (a, b) := band_ratio bt (normalised wn fs) theta in
       a <> 0 -> b / a = cos (INR k * PI / INR N) -> dgain_sqr f theta = maximum) /\
    (forall k, (k < N)%nat -> forall theta, let (a, b) := band_ratio bt (normalised wn fs) theta in
       a <> 0 -> b / a = cos ((2 * INR k + 1) * PI / (2 * INR N)) -> dgain_sqr f theta = 0) /\
    (forall t1 t2, further_out bt (normalised wn fs) t1 t2 ->
       (let (a, b) := band_ratio bt (normalised wn fs) t2 in Rabs a <= Rabs b) -> dgain_sqr f t2 < dgain_sqr f t1).
Proof.
  intros Hso He HN Hp Hs Ha Hv Hbt maximum.
  destruct (C78_cheby2_digital_partial epsilon sort N rp rs wn bt analog fs Hso He HN Hp Hs Ha Hv Hbt) as [f [Ef [_ [_ [_ [_ [G _]]]]]]].
  exists f. split; [exact Ef|]. pose proof (Rpower_10_gt (rs / 10) ltac:(lra)) as G1. set (P := Rpower 10 (rs / 10)) in *.
  assert (Em : maximum = 1 / P) by (unfold maximum, P; replace (- rs / 10) with (- (rs / 10)) by field; rewrite Rpower_neg; unfold Rdiv; ring).
  assert (NN : 0 < INR N) by (apply lt_0_INR; exact HN). split; [|split].
  - intros k Hk theta. specialize (G theta). destruct (band_ratio bt (normalised wn fs) theta) as [a b]. intros Hna Eab.
    assert (T2 : chebT N (b / a) ^ 2 = 1) by (rewrite Eab, chebT_cos; replace (INR N * (INR k * PI / INR N)) with (INR k * PI) by (field; lra); apply cos_kPI).
    assert (T0 : chebT N (b / a) <> 0) by (intros Q; rewrite Q in T2; cbn in T2; lra).
    destruct G as [_ [_ [G _]]]. rewrite (G Hna T0), T2, Em. f_equal. field.
  - intros k Hk theta. specialize (G theta). destruct (band_ratio bt (normalised wn fs) theta) as [a b]. intros Hna Eab.
    destruct G as [_ [G _]]. apply G; [exact Hna|]. rewrite Eab, chebT_cos. replace (INR N * ((2 * INR k + 1) * PI / (2 * INR N))) with ((2 * INR k + 1) * PI / 2) by (field; lra). apply cos_odd_half.
  - intros t1 t2 Hf. apply (further_closer bt _ t1 t2 Hv) in Hf. unfold closer in Hf. pose proof (G t1) as Q1. pose proof (G t2) as Q2.
    destruct (band_ratio bt (normalised wn fs) t1) as [a1 b1]. destruct (band_ratio bt (normalised wn fs) t2) as [a2 b2]. intros Hab.
    assert (A2 : a2 <> 0).
    { intros ->. rewrite Rabs_R0, Rmult_0_l in Hf. pose proof (Rabs_pos a1). pose proof (Rabs_pos b2). assert (0 <= Rabs a1 * Rabs b2) by (apply Rmult_le_pos; lra). lra. }
    pose proof (abs_ratio_ge b2 a2 A2 Hab) as R2. pose proof (chebT_abs_ge1 N _ R2) as C2.
    assert (T2 : chebT N (b2 / a2) <> 0) by (intros Q; rewrite Q in C2; lra).
    destruct Q2 as [_ [_ [Q2 _]]]. rewrite (Q2 A2 T2). destruct Q1 as [Q10 [_ [Q11 _]]].
    assert (X2 : 0 < (P - 1) / chebT N (b2 / a2) ^ 2) by (apply Rdiv_lt_0_compat; [lra|]; cbn [pow]; nra).
    destruct (Req_dec a1 0) as [Z|A1].
    { rewrite (Q10 Z). apply (Rmult_lt_reg_r (1 + (P - 1) / chebT N (b2 / a2) ^ 2)); [lra|]. unfold Rdiv at 1. rewrite Rmult_assoc, Rinv_l by lra. lra. }
    assert (Lt : Rabs (b2 / a2) < Rabs (b1 / a1)).
    { rewrite !abs_div by assumption. pose proof (Rabs_pos_lt a1 A1). pose proof (Rabs_pos_lt a2 A2). apply (Rmult_lt_reg_r (Rabs a1 * Rabs a2)); [apply Rmult_lt_0_compat; assumption|].
      replace (Rabs b2 / Rabs a2 * (Rabs a1 * Rabs a2)) with (Rabs a1 * Rabs b2) by (field; lra). replace (Rabs b1 / Rabs a1 * (Rabs a1 * Rabs a2)) with (Rabs a2 * Rabs b1) by (field; lra). exact Hf. }
    pose proof (chebT_sq_lt N _ _ HN R2 Lt) as LT. assert (T1 : chebT N (b1 / a1) <> 0).
    { intros Q. rewrite Q in LT. cbn [pow] in LT. nra. }
    rewrite (Q11 A1 T1). assert (Z2 : 0 < chebT N (b2 / a2) ^ 2) by (cbn [pow]; nra).
    apply inv_lt; [assert (0 < (P - 1) / chebT N (b1 / a1) ^ 2) by (apply Rdiv_lt_0_compat; lra); lra|].
    apply Rplus_lt_compat_l, Rmult_lt_compat_l; [lra|]. apply Rinv_lt_contravar; [apply Rmult_lt_0_compat; lra|exact LT].
Qed.
Print Assumptions C91_cheby2_shape.
