(** C103: the frequency response of filters designed in floating point.  At every IEEE 754
    format fine enough, with every accurate library of elementary functions, the gain of
    the filter returned is the Butterworth or Chebyshev gain up to a multiple of the unit
    roundoff, uniformly over all frequencies, in either output format, and the filter is
    stable. *)
From Coq Require Import Reals ZArith SpecFloat List Lia Lra Bool Sorted.
From Flocq Require Import Core BinarySingleNaN.
From Verif Require Import Base Num Trans M_Complex M_Filter M_Design Cx S_Design S_Filter S_Bessel S_Float S_FloatFft S_FloatZpk S_FloatTrans S_FloatResponse
  P_Sort P_Float P_FloatStats P_Poly P_Lp P_Proto P_Cheb P_Iir P_Iir2 T_Iir P_FloatMed P_FloatI0 P_FloatZi P_FloatPoly T_FloatPoly P_FloatDesign T_FloatDesign P_FloatResponse.
Import ListNotations.
Local Open Scope R_scope.

Lemma edge_digital bt w fs : (bt = Lowpass \/ bt = Highpass) -> valid_edge false w fs -> valid_digital bt (normalised [w] fs).
Proof.
  intros Hb Hv. unfold valid_digital, normalised, valid_edge in *.
  assert (G : forall x, 0 < x < 1 -> length [x] = band_arity bt /\ Forall (fun w => 0 < w < 1) [x] /\ StronglySorted Rlt [x]).
  { intros x Hx. split; [destruct Hb as [-> | ->]; reflexivity|]. split; [repeat constructor; apply Hx|repeat constructor]. }
  destruct fs as [s|]; cbn [map]; apply G; [apply Hv|]. destruct Hv as [A B]. specialize (B eq_refl). lra.
Qed.

(** The real design does not depend on the sorting function or the tolerance. *)
Lemma outputs_agree N w rp bt ft analog fs proto h0 :
  (bt = Lowpass \/ bt = Highpass) -> unwrap_or analog false = false -> valid_edge false w fs ->
  (ft = Butterworth /\ rp = None /\ proto = buttap_dyn N \/
   exists r, ft = ChebyshevI /\ rp = Some r /\ nltb r nzero = false /\ proto = cheb1ap_dyn N r) ->
  iirfilter_dyn 0 isort N [w] rp None (Some bt) (Some ft) analog (Some OutZpk) fs = Ok (DZpk h0) ->
  forall eps sort, is_sort sort ->
  iirfilter_dyn eps sort N [w] rp None (Some bt) (Some ft) analog (Some OutZpk) fs = Ok (DZpk h0) /\
  iirfilter_dyn eps sort N [w] rp None (Some bt) (Some ft) analog (Some OutBa) fs =
    Ok (DBa (mkBa (padded_coef (2 * N) (zk_k h0) (zk_z h0)) (padded_coef (2 * N) 1 (zk_p h0)))).
Proof.
  intros Hb Ha Hv Hp E0 eps sort Hs.
  assert (Hv' : valid_edge (unwrap_or analog false) w fs) by (rewrite Ha; exact Hv).
  destruct (edge_checks w fs _ Hv') as [R1 R2]. pose proof (edge_an w fs _ Hv') as R3.
  rewrite (@iir_tail _ RNum RTrans 0 isort N w rp bt ft analog (Some OutZpk) fs proto Hb R3 R1 R2 Hp) in E0.
  rewrite !(@iir_tail _ RNum RTrans eps sort N w rp bt ft analog _ fs proto Hb R3 R1 R2 Hp).
  cbn [unwrap_or] in E0 |- *.
  destruct (band bt proto (warped_freq _ _)) as [g| | |]; cbn [bind] in E0 |- *; try discriminate E0.
  destruct (to_digital _ g) as [g'| | |]; cbn [bind emit] in E0 |- *; try discriminate E0.
  injection E0 as ->. split; [reflexivity|]. unfold emit. rewrite zpk2tf_ok by exact Hs. reflexivity.
Qed.

(** Both outputs of a design, given that each rounds well. *)
Section Both.
Variables (h0 : @ZpkFormatFilter R) (N : nat).
Hypothesis Hs : stable_digital h0.
Hypothesis Hr : real_filter h0.
Hypothesis Hl : length (zk_z h0) = length (zk_p h0).
Hypothesis HN : (length (zk_p h0) <= 2 * N)%nat.
Variables K1 K2 : R.
Hypothesis HK1 : 1 <= K1.
Hypothesis HK2 : 1 <= K2.
Lemma both : exists K, 1 <= K /\ K1 <= K /\ K2 <= K /\ forall prec emax f g, (1 < prec)%Z ->
  K * uround prec <= 1 ->
  filter_within prec emax (K1 * uround prec) f (DZpk h0) ->
  filter_within prec emax (K2 * uround prec) g (DBa (mkBa (padded_coef (2 * N) (zk_k h0) (zk_z h0)) (padded_coef (2 * N) 1 (zk_p h0)))) ->
  exists zf bf, f = DZpk zf /\ g = DBa bf /\ ba_stable (map fval (ba_a bf)) /\
    forall t x, x = dgain_sqr (zpk_val zf) t \/ x = ba_gain_sqr (map fval (ba_b bf)) (map fval (ba_a bf)) t -> Rabs (x - dgain_sqr h0 t) <= K * uround prec.
Proof.
  destruct (zpk_response h0 Hs) as [K3 [HK3 Q3]]. destruct (ba_response h0 (2 * N) Hs Hr Hl HN) as [K4 [HK4 Q4]].
  assert (A1 : K1 <= K1 * K3) by nra. assert (A2 : K2 <= K2 * K4) by nra.
  exists (K1 * K3 + K2 * K4). split; [lra|]. split; [lra|]. split; [lra|].
  intros prec emax f g Hp Hu W1 W2. destruct (u_half prec ltac:(lia)) as [U0 _]. set (u := uround prec) in *.
  unfold filter_within in W1, W2. destruct f as [|zf|]; try (destruct W1; fail). destruct g as [bf|zg|]; try (destruct W2; fail).
  exists zf, bf. split; [reflexivity|]. split; [reflexivity|].
  destruct W1 as [_ W1]. destruct W2 as [_ [_ [Wb Wa]]]. cbn [ba_b ba_a] in Wb, Wa.
  assert (M : forall l m, Forall2 (fun x y => Rabs (fval x - y) <= K2 * u) l m -> Forall2 (fun x y => Rabs (x - y) <= K2 * u) (map fval l) m).
  { clear. intros l m F. induction F; constructor; assumption. }
  assert (B1 : K3 * (K1 * u) <= 1) by nra. assert (B2 : K4 * (K2 * u) <= 1) by nra.
  specialize (Q3 _ _ W1 ltac:(nra) B1). specialize (Q4 _ _ _ (M _ _ Wb) (M _ _ Wa) ltac:(nra) B2). destruct Q4 as [Q4 Q5].
  split; [exact Q4|]. intros t x [-> | ->].
  - destruct (Q3 t) as [_ Q]. eapply Rle_trans; [exact Q|]. nra.
  - eapply Rle_trans; [apply Q5|]. nra.
Qed.
End Both.

Theorem C103_butter_response (N : nat) (w : R) (fs : option R) (bt : FilterBandType) (analog : option bool) (E : R) :
  (0 < N)%nat -> (bt = Lowpass \/ bt = Highpass) -> analog <> Some true -> valid_edge false w fs -> 0 <= E ->
  exists K, 1 <= K /\ forall prec emax szero (T : Trans spec_float) epsilon sort wf fsf,
  (1 < prec < emax)%Z -> is_sort sort -> accurate_trans prec emax E T ->
  reads prec emax wf w -> reads_opt prec emax fsf fs -> K * uround prec <= 1 ->
  exists f g,
    @butter_dyn _ (SFNum prec emax szero) T epsilon sort N [wf] (Some bt) analog (Some OutZpk) fsf = Ok (DZpk f) /\
    @butter_dyn _ (SFNum prec emax szero) T epsilon sort N [wf] (Some bt) analog (Some OutBa) fsf = Ok (DBa g) /\
    stable_digital (zpk_val f) /\ ba_stable (map fval (ba_a g)) /\
    forall theta gain, gain = dgain_sqr (zpk_val f) theta \/ gain = ba_gain_sqr (map fval (ba_b g)) (map fval (ba_a g)) theta ->
      let (a, b) := band_ratio bt (normalised [w] fs) theta in
      (b <> 0 -> Rabs (gain - 1 / (1 + (a / b) ^ (2 * N))) <= K * uround prec) /\ (b = 0 -> Rabs gain <= K * uround prec).
Proof.
  intros HN Hb Ha Hv HE. assert (Ea : unwrap_or analog false = false) by (destruct analog as [[|]|]; [contradiction Ha; reflexivity|reflexivity|reflexivity]).
  pose proof (edge_digital bt w fs Hb Hv) as Hd.
  destruct (butter_digital 0 isort N [w] bt analog fs Ha Hd) as [h0 [E0 [_ [_ [Hr [Hs [Lz [Lp _]]]]]]]].
  destruct (C57_butter_digital 0 isort N [w] bt analog fs HN Ha Hd) as [h1 [E1 [G _]]]. assert (h1 = h0) by congruence. subst h1. clear E1.
  unfold butter_dyn in E0. cbn [unwrap_or] in E0. rewrite Ea in E0.
  destruct (C102_butter_rounding N w fs bt analog (Some OutZpk) E Hb ltac:(discriminate) ltac:(rewrite Ea; exact Hv) HE) as [K1 [HK1 Q1]].
  destruct (C102_butter_rounding N w fs bt analog (Some OutBa) E Hb ltac:(discriminate) ltac:(rewrite Ea; exact Hv) HE) as [K2 [HK2 Q2]].
  destruct (both h0 N Hs Hr ltac:(congruence) ltac:(destruct Hb as [-> | ->]; cbn [band_arity] in Lp; lia) K1 K2 HK1 HK2) as [K [HK [L1 [L2 Q]]]].
  exists K. split; [exact HK|]. intros prec emax sz T eps sort wf fsf Hpe Hso HT Rw Rf Hu. destruct (u_half prec ltac:(lia)) as [U0 _].
  destruct (Q1 prec emax sz T 0 eps sort wf fsf Hpe Hso HT Rw Rf ltac:(nra)) as [f [h [F1 [F2 [W1 S1]]]]].
  destruct (Q2 prec emax sz T 0 eps sort wf fsf Hpe Hso HT Rw Rf ltac:(nra)) as [f' [h' [F1' [F2' [W2 _]]]]].
  destruct (outputs_agree N w None bt Butterworth (Some false) fs _ h0 Hb eq_refl Hv (or_introl (conj eq_refl (conj eq_refl eq_refl))) E0 0 sort Hso) as [O1 O2].
  unfold butter_dyn in F2, F2'. cbn [unwrap_or] in F2, F2'. rewrite Ea in F2, F2'. rewrite O1 in F2. rewrite O2 in F2'. injection F2 as <-. injection F2' as <-.
  destruct (Q prec emax f f' ltac:(lia) Hu W1 W2) as [zf [bf [-> [-> [SB R]]]]].
  exists zf, bf. split; [exact F1|]. split; [exact F1'|]. specialize (S1 eq_refl). rewrite Ea in S1. split; [exact S1|]. split; [exact SB|].
  intros theta gain Hg. specialize (R theta gain Hg). specialize (G theta). destruct (band_ratio bt (normalised [w] fs) theta) as [a b]. destruct G as [G1 G2]. split.
  - intros Z. rewrite <- (G1 Z). exact R.
  - intros Z. rewrite (G2 Z), Rminus_0_r in R. exact R.
Qed.
Print Assumptions C103_butter_response.

Theorem C103_cheby1_response (N : nat) (rp : R) (w : R) (fs : option R) (bt : FilterBandType) (analog : option bool) (E : R) :
  (0 < N)%nat -> 0 < rp -> (bt = Lowpass \/ bt = Highpass) -> analog <> Some true -> valid_edge false w fs -> 0 <= E ->
  exists K, 1 <= K /\ forall prec emax szero (T : Trans spec_float) epsilon sort rpf wf fsf,
  (1 < prec < emax)%Z -> is_sort sort -> accurate_trans prec emax E T ->
  reads prec emax rpf rp -> reads prec emax wf w -> reads_opt prec emax fsf fs -> K * uround prec <= 1 ->
  exists f g,
    @cheby1_dyn _ (SFNum prec emax szero) T epsilon sort N rpf [wf] (Some bt) analog (Some OutZpk) fsf = Ok (DZpk f) /\
    @cheby1_dyn _ (SFNum prec emax szero) T epsilon sort N rpf [wf] (Some bt) analog (Some OutBa) fsf = Ok (DBa g) /\
    stable_digital (zpk_val f) /\ ba_stable (map fval (ba_a g)) /\
    forall theta gain, gain = dgain_sqr (zpk_val f) theta \/ gain = ba_gain_sqr (map fval (ba_b g)) (map fval (ba_a g)) theta ->
      let (a, b) := band_ratio bt (normalised [w] fs) theta in
      (b <> 0 -> Rabs (gain - 1 / (1 + (Rpower 10 (rp / 10) - 1) * chebT N (a / b) ^ 2)) <= K * uround prec) /\ (b = 0 -> Rabs gain <= K * uround prec).
Proof.
  intros HN Hrp Hb Ha Hv HE. assert (Ea : unwrap_or analog false = false) by (destruct analog as [[|]|]; [contradiction Ha; reflexivity|reflexivity|reflexivity]).
  pose proof (edge_digital bt w fs Hb Hv) as Hd.
  destruct (C64_cheby1_digital 0 isort N rp [w] bt analog fs HN Hrp Ha Hd) as [h0 [E0 [Hs [Hr [Lz [Lp [G _]]]]]]].
  unfold cheby1_dyn in E0.
  destruct (C102_cheby1_rounding N rp w fs bt analog (Some OutZpk) E Hb ltac:(discriminate) ltac:(rewrite Ea; exact Hv) Hrp HE) as [K1 [HK1 Q1]].
  destruct (C102_cheby1_rounding N rp w fs bt analog (Some OutBa) E Hb ltac:(discriminate) ltac:(rewrite Ea; exact Hv) Hrp HE) as [K2 [HK2 Q2]].
  destruct (both h0 N Hs Hr ltac:(congruence) ltac:(destruct Hb as [-> | ->]; cbn [band_arity] in Lp; lia) K1 K2 HK1 HK2) as [K [HK [L1 [L2 Q]]]].
  exists K. split; [exact HK|]. intros prec emax sz T eps sort rpf wf fsf Hpe Hso HT Rr Rw Rf Hu. destruct (u_half prec ltac:(lia)) as [U0 _].
  destruct (Q1 prec emax sz T 0 eps sort rpf wf fsf Hpe Hso HT Rr Rw Rf ltac:(nra)) as [f [h [F1 [F2 [W1 S1]]]]].
  destruct (Q2 prec emax sz T 0 eps sort rpf wf fsf Hpe Hso HT Rr Rw Rf ltac:(nra)) as [f' [h' [F1' [F2' [W2 _]]]]].
  assert (Hc : nltb rp 0 = false) by (cbn [nltb RNum]; unfold Rltb; destruct (Rlt_dec _ _); [lra|reflexivity]).
  destruct (outputs_agree N w (Some rp) bt ChebyshevI analog fs _ h0 Hb Ea Hv (or_intror (ex_intro _ rp (conj eq_refl (conj eq_refl (conj Hc eq_refl))))) E0 0 sort Hso) as [O1 O2].
  unfold cheby1_dyn in F2, F2'. rewrite O1 in F2. rewrite O2 in F2'. injection F2 as <-. injection F2' as <-.
  destruct (Q prec emax f f' ltac:(lia) Hu W1 W2) as [zf [bf [-> [-> [SB R]]]]].
  exists zf, bf. split; [exact F1|]. split; [exact F1'|]. specialize (S1 eq_refl). rewrite Ea in S1. split; [exact S1|]. split; [exact SB|].
  intros theta gain Hg. specialize (R theta gain Hg). specialize (G theta). destruct (band_ratio bt (normalised [w] fs) theta) as [a b]. destruct G as [G1 [G2 _]]. split.
  - intros Z. rewrite <- (G1 Z). exact R.
  - intros Z. rewrite (G2 Z), Rminus_0_r in R. exact R.
Qed.
Print Assumptions C103_cheby1_response.

(** Fourth order, edge 1 at sampling rate 4: formats of any precision asked for exist, and
    at the edge the gain wanted is 1/2. *)
Example C103_hyp_met : (forall K, exists prec emax T wf fsf, (1 < prec < emax)%Z /\
  accurate_trans prec emax 5 T /\ reads prec emax wf 1 /\ reads_opt prec emax (Some fsf) (Some 4) /\ K * uround prec <= 1) /\
  valid_edge false 1 (Some 4) /\ let (a, b) := band_ratio Lowpass (normalised [1] (Some 4)) (PI / 2) in b <> 0 /\ 1 / (1 + (a / b) ^ (2 * 4)) = 1 / 2.
Proof.
  split; [apply C102_hyp_met|]. split; [apply C102_hyp_met|]. cbn [normalised map band_ratio]. cbn [nth].
  replace (PI * (2 * 1 / 4) / 2) with (PI / 4) by field. replace (PI / 2 / 2) with (PI / 4) by field.
  rewrite sin_PI4, cos_PI4. assert (S : 0 < sqrt 2) by (apply sqrt_lt_R0; lra).
  assert (N0 : 1 / sqrt 2 * (1 / sqrt 2) <> 0) by (apply Rmult_integral_contrapositive_currified; apply Rgt_not_eq; apply Rdiv_lt_0_compat; lra).
  split; [exact N0|]. set (q := 1 / sqrt 2 * (1 / sqrt 2)) in *. replace (q / q) with 1 by (field; exact N0). rewrite pow1. lra.
Qed.
