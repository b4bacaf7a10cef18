(** C105: relations between digital designs.  Low-pass and high-pass, and band-pass and
    band-stop, Butterworth filters with the same edges share out the signal's power;
    mirrored edges give mirrored responses; a higher order is flatter in the pass band and
    steeper outside. *)
From Coq Require Import Reals List Arith Lia Lra Psatz Sorted.
From Verif Require Import Base Num Trans M_Complex M_Filter M_Design Cx S_Design S_Filter S_Bessel P_Sort P_Poly P_Lp P_Proto P_Cheb P_Iir P_Iir2 T_Iir.
Import ListNotations.
Local Open Scope R_scope.

Lemma den_pos N a b : a <> 0 \/ b <> 0 -> 0 < (a * a) ^ N + (b * b) ^ N.
Proof.
  intros H. assert (A : 0 <= (a * a) ^ N) by (apply pow_le; nra). assert (B : 0 <= (b * b) ^ N) by (apply pow_le; nra).
  destruct H as [H|H]; [assert (0 < (a * a) ^ N) by (apply pow_lt; nra)|assert (0 < (b * b) ^ N) by (apply pow_lt; nra)]; lra.
Qed.
Lemma ratio_swap bt bt' wn theta : (bt = Lowpass /\ bt' = Highpass) \/ (bt = Bandpass /\ bt' = Bandstop) ->
  band_ratio bt' wn theta = (snd (band_ratio bt wn theta), fst (band_ratio bt wn theta)).
Proof. intros [[-> ->]|[-> ->]]; reflexivity. Qed.

Theorem C105_power_complementary epsilon sort N wn bt bt' analog fs :
  (0 < N)%nat -> analog <> Some true -> (bt = Lowpass /\ bt' = Highpass) \/ (bt = Bandpass /\ bt' = Bandstop) ->
  valid_digital bt (normalised wn fs) ->
  exists f g, butter_dyn epsilon sort N wn (Some bt) analog (Some OutZpk) fs = Ok (DZpk f) /\
    butter_dyn epsilon sort N wn (Some bt') analog (Some OutZpk) fs = Ok (DZpk g) /\
    forall theta, dgain_sqr f theta + dgain_sqr g theta = 1.
Proof.
  intros HN Ha Hb Hv.
  assert (Hv' : valid_digital bt' (normalised wn fs)) by (destruct Hb as [[-> ->]|[-> ->]]; exact Hv).
  destruct (butter_digital epsilon sort N wn bt analog fs Ha Hv) as [f [E1 [_ [_ [_ [_ [_ [_ Q1]]]]]]]].
  destruct (butter_digital epsilon sort N wn bt' analog fs Ha Hv') as [g [E2 [_ [_ [_ [_ [_ [_ Q2]]]]]]]].
  exists f, g. split; [exact E1|]. split; [exact E2|]. intros theta. specialize (Q1 HN theta). specialize (Q2 HN theta).
  pose proof (C57_band_ratio_defined bt _ theta Hv) as D. rewrite (ratio_swap bt bt' _ _ Hb) in Q2.
  destruct (band_ratio bt (normalised wn fs) theta) as [a b]. cbn [fst snd] in *. rewrite Q1, Q2.
  pose proof (den_pos N a b D). field. lra.
Qed.
Print Assumptions C105_power_complementary.

(** The edge [1 - w] of a high-pass filter mirrors the edge [w] of a low-pass one. *)
Lemma mirror_ratio w theta : band_ratio Highpass [1 - w] theta = band_ratio Lowpass [w] (PI - theta).
Proof.
  cbn [band_ratio nth]. replace (PI * (1 - w) / 2) with (PI / 2 - PI * w / 2) by field. replace ((PI - theta) / 2) with (PI / 2 - theta / 2) by field.
  rewrite !sin_shift, !cos_shift. reflexivity.
Qed.
Theorem C105_mirrored epsilon sort N w analog rp :
  (0 < N)%nat -> analog <> Some true -> 0 < w < 1 -> 0 < rp ->
  let mirrored (low high : res DigitalFilter) := exists f g, low = Ok (DZpk f) /\ high = Ok (DZpk g) /\
    forall theta, dgain_sqr g theta = dgain_sqr f (PI - theta) in
  mirrored (butter_dyn epsilon sort N [w] (Some Lowpass) analog (Some OutZpk) None) (butter_dyn epsilon sort N [1 - w] (Some Highpass) analog (Some OutZpk) None) /\
  mirrored (cheby1_dyn epsilon sort N rp [w] (Some Lowpass) analog (Some OutZpk) None) (cheby1_dyn epsilon sort N rp [1 - w] (Some Highpass) analog (Some OutZpk) None).
Proof.
  intros HN Ha Hw Hr mirrored.
  assert (V1 : valid_digital Lowpass (normalised [w] None)) by (split; [reflexivity|]; split; repeat constructor; cbn; lra).
  assert (V2 : valid_digital Highpass (normalised [1 - w] None)) by (split; [reflexivity|]; split; repeat constructor; cbn; lra).
  split.
  - destruct (butter_digital epsilon sort N [w] Lowpass analog None Ha V1) as [f [E1 [_ [_ [_ [_ [_ [_ Q1]]]]]]]].
    destruct (butter_digital epsilon sort N [1 - w] Highpass analog None Ha V2) as [g [E2 [_ [_ [_ [_ [_ [_ Q2]]]]]]]].
    exists f, g. split; [exact E1|]. split; [exact E2|]. intros theta. specialize (Q1 HN (PI - theta)). specialize (Q2 HN theta).
    cbn [normalised] in Q1, Q2. rewrite mirror_ratio in Q2. destruct (band_ratio Lowpass [w] (PI - theta)). congruence.
  - destruct (C64_cheby1_digital epsilon sort N rp [w] Lowpass analog None HN Hr Ha V1) as [f [E1 [_ [_ [_ [_ [Q1 _]]]]]]].
    destruct (C64_cheby1_digital epsilon sort N rp [1 - w] Highpass analog None HN Hr Ha V2) as [g [E2 [_ [_ [_ [_ [Q2 _]]]]]]].
    exists f, g. split; [exact E1|]. split; [exact E2|]. intros theta. specialize (Q1 (PI - theta)). specialize (Q2 theta).
    cbn [normalised] in Q1, Q2. rewrite mirror_ratio in Q2. destruct (band_ratio Lowpass [w] (PI - theta)) as [a b].
    destruct Q1 as [A1 [B1 _]]. destruct Q2 as [A2 [B2 _]]. destruct (Req_dec b 0) as [Z|Z]; [rewrite (B1 Z), (B2 Z); reflexivity|rewrite (A1 Z), (A2 Z); reflexivity].
Qed.
Print Assumptions C105_mirrored.

(** Orders: [Rabs a <= Rabs b] is the pass band. *)
Lemma gain_order N M a b : (N <= M)%nat -> a <> 0 \/ b <> 0 -> (Rabs a <= Rabs b -> (b * b) ^ N / ((a * a) ^ N + (b * b) ^ N) <= (b * b) ^ M / ((a * a) ^ M + (b * b) ^ M)) /\
  (Rabs b <= Rabs a -> (b * b) ^ M / ((a * a) ^ M + (b * b) ^ M) <= (b * b) ^ N / ((a * a) ^ N + (b * b) ^ N)).
Proof.
  intros HM H. assert (SA : a * a = Rabs a * Rabs a) by (rewrite <- Rabs_mult; symmetry; apply Rabs_pos_eq; nra). assert (SB : b * b = Rabs b * Rabs b) by (rewrite <- Rabs_mult; symmetry; apply Rabs_pos_eq; nra).
  pose proof (den_pos N a b H) as DN. pose proof (den_pos M a b H) as DM. pose proof (Rabs_pos a). pose proof (Rabs_pos b).
  set (A := a * a) in *. set (B := b * b) in *. assert (HA : 0 <= A) by (unfold A; nra). assert (HB : 0 <= B) by (unfold B; nra).
  replace M with (N + (M - N))%nat in * by lia. set (d := (M - N)%nat) in *. rewrite !pow_add in *.
  assert (0 <= A ^ N) by (apply pow_le; exact HA). assert (0 <= B ^ N) by (apply pow_le; exact HB).
  assert (0 <= A ^ d) by (apply pow_le; exact HA). assert (0 <= B ^ d) by (apply pow_le; exact HB).
  assert (CR : forall x y z t, 0 < y -> 0 < t -> x * t <= z * y -> x / y <= z / t).
  { intros x y z t Hy Ht Q. apply (Rmult_le_reg_r (y * t)); [nra|]. replace (x / y * (y * t)) with (x * t) by (field; lra). replace (z / t * (y * t)) with (z * y) by (field; lra). exact Q. }
  split; intros Hc; apply CR; try assumption.
  - assert (AB : A ^ d <= B ^ d) by (apply pow_incr; split; [exact HA|rewrite SA, SB; apply Rmult_le_compat; assumption]).
    assert (0 <= A ^ N * B ^ N) by (apply Rmult_le_pos; assumption). nra.
  - assert (AB : B ^ d <= A ^ d) by (apply pow_incr; split; [exact HB|rewrite SA, SB; apply Rmult_le_compat; assumption]).
    assert (0 <= A ^ N * B ^ N) by (apply Rmult_le_pos; assumption). nra.
Qed.
Theorem C105_order_monotone epsilon sort N M wn bt analog fs :
  (0 < N <= M)%nat -> analog <> Some true -> valid_digital bt (normalised wn fs) ->
  exists f g, butter_dyn epsilon sort N wn (Some bt) analog (Some OutZpk) fs = Ok (DZpk f) /\
    butter_dyn epsilon sort M wn (Some bt) analog (Some OutZpk) fs = Ok (DZpk g) /\
    forall theta, let (a, b) := band_ratio bt (normalised wn fs) theta in
      (Rabs a <= Rabs b -> dgain_sqr f theta <= dgain_sqr g theta) /\ (Rabs b <= Rabs a -> dgain_sqr g theta <= dgain_sqr f theta).
Proof.
  intros HN Ha Hv.
  destruct (butter_digital epsilon sort N wn bt analog fs Ha Hv) as [f [E1 [_ [_ [_ [_ [_ [_ Q1]]]]]]]].
  destruct (butter_digital epsilon sort M wn bt analog fs Ha Hv) as [g [E2 [_ [_ [_ [_ [_ [_ Q2]]]]]]]].
  exists f, g. split; [exact E1|]. split; [exact E2|]. intros theta. specialize (Q1 ltac:(lia) theta). specialize (Q2 ltac:(lia) theta).
  pose proof (C57_band_ratio_defined bt _ theta Hv) as D. destruct (band_ratio bt (normalised wn fs) theta) as [a b]. cbn [fst snd] in *.
  rewrite Q1, Q2. apply gain_order; [lia|exact D].
Qed.
Print Assumptions C105_order_monotone.

(** A quarter and half of Nyquist. *)
Example C105_hyp_met : valid_digital Bandpass (normalised [1 / 4; 1 / 2] None) /\ valid_digital Lowpass (normalised [1 / 4] None) /\ 0 < 1 / 4 < 1.
Proof. split; [split; [reflexivity|]; split; repeat constructor; cbn; lra|]. split; [split; [reflexivity|]; split; repeat constructor; cbn; lra|lra]. Qed.
