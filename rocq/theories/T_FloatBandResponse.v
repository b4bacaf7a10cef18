(** C107: the frequency response of band-pass and band-stop filters designed in floating
    point: within a multiple of the unit roundoff of the Butterworth or Chebyshev gain,
    uniformly over all frequencies, and stable. *)
From Coq Require Import Reals ZArith SpecFloat List Lia Lra Bool Sorted Permutation.
From Flocq Require Import Core BinarySingleNaN.
From Verif Require Import Base Num Trans M_Complex M_Filter M_Design Cx S_Design S_Filter S_Bessel S_Float S_FloatFft S_FloatZpk S_FloatTrans S_FloatResponse S_FloatBand
  P_Sort P_Float P_FloatStats P_Poly P_Lp P_Proto P_Cheb P_Iir P_Iir2 T_Iir P_FloatMed P_FloatI0 P_FloatZi P_FloatPoly T_FloatPoly P_FloatDesign T_FloatDesign P_FloatResponse T_FloatResponse
  P_FloatBandStage T_FloatBand.
Import ListNotations.
Local Open Scope R_scope.

Lemma band_digital bt w0 w1 fs : (bt = Bandpass \/ bt = Bandstop) -> valid_band false w0 w1 fs -> valid_digital bt (normalised [w0; w1] fs).
Proof.
  intros Hb [A [B L]]. unfold valid_digital, normalised, valid_edge in *.
  assert (G : forall x y, 0 < x < 1 -> 0 < y < 1 -> x < y -> length [x; y] = band_arity bt /\ Forall (fun w => 0 < w < 1) [x; y] /\ StronglySorted Rlt [x; y]).
  { intros x y Hx Hy Hxy. split; [destruct Hb as [-> | ->]; reflexivity|]. split; [repeat constructor; apply Hx || apply Hy|repeat constructor; exact Hxy]. }
  destruct fs as [s|]; cbn [map]; apply G.
  - apply A.
  - apply B.
  - destruct A as [_ [S _]]. unfold Rdiv. apply Rmult_lt_compat_r; [apply Rinv_0_lt_compat; exact S|lra].
  - destruct A as [A1 A2]. specialize (A2 eq_refl). lra.
  - destruct B as [B1 B2]. specialize (B2 eq_refl). lra.
  - exact L.
Qed.

Lemma outputs_agree2 N w0 w1 rp bt ft analog fs proto h0 :
  (bt = Bandpass \/ bt = Bandstop) -> unwrap_or analog false = false -> valid_band false w0 w1 fs ->
  (ft = Butterworth /\ rp = None /\ proto = buttap_dyn N \/
   exists r, ft = ChebyshevI /\ rp = Some r /\ nltb r nzero = false /\ proto = cheb1ap_dyn N r) ->
  iirfilter_dyn 0 isort N [w0; w1] rp None (Some bt) (Some ft) analog (Some OutZpk) fs = Ok (DZpk h0) ->
  forall eps sort, is_sort sort ->
  iirfilter_dyn eps sort N [w0; w1] rp None (Some bt) (Some ft) analog (Some OutZpk) fs = Ok (DZpk h0) /\
  iirfilter_dyn eps sort N [w0; w1] rp None (Some bt) (Some ft) analog (Some OutBa) fs =
    Ok (DBa (mkBa (padded_coef (2 * N) (zk_k h0) (zk_z h0)) (padded_coef (2 * N) 1 (zk_p h0)))).
Proof.
  intros Hb Ha Hv Hp E0 eps sort Hs.
  assert (Hv' : valid_band (unwrap_or analog false) w0 w1 fs) by (rewrite Ha; exact Hv).
  destruct (real_checks w0 w1 fs _ Hv') as [B1 [B2 [B3 [B4 B5]]]]. pose proof (edge_an w0 fs _ (proj1 Hv')) as R3.
  rewrite (@iir_tail2 _ RNum RTrans 0 isort N w0 w1 rp bt ft analog (Some OutZpk) fs proto Hb R3 B1 B2 B3 B4 B5 Hp) in E0.
  rewrite !(@iir_tail2 _ RNum RTrans eps sort N w0 w1 rp bt ft analog _ fs proto Hb R3 B1 B2 B3 B4 B5 Hp).
  cbn [unwrap_or] in E0 |- *.
  destruct (band2 bt proto _ _) as [g| | |]; cbn [bind] in E0 |- *; try discriminate E0.
  destruct (to_digital _ g) as [g'| | |]; cbn [bind emit] in E0 |- *; try discriminate E0.
  injection E0 as ->. split; [reflexivity|]. unfold emit. rewrite zpk2tf_ok by exact Hs. reflexivity.
Qed.

(** Poles in another order: reorder those of the float filter. *)
Lemma reorder prec emax e zf h0 h' : upto_order (DZpk h0) h' -> filter_within prec emax e (DZpk zf) h' ->
  exists zf', filter_within prec emax e (DZpk zf') (DZpk h0) /\ forall t, dgain_sqr (zpk_val zf') t = dgain_sqr (zpk_val zf) t.
Proof.
  destruct h' as [|h'|]; intros U W; try (destruct U; fail). destruct U as [EZ [PP EK]]. destruct W as [[FZ [FP FK]] [WZ [WP WK]]].
  assert (FL : Forall2 (fun c f => cwithin e (cval f) c) (zk_p h') (zk_p zf)).
  { cbn [zpk_val zk_p] in WP. clear -WP. revert WP. generalize (zk_p h'). induction (zk_p zf) as [|f l IH]; intros m F; inversion F; subst; constructor; [assumption|apply IH; assumption]. }
  destruct (Permutation_Forall2 (Permutation_sym PP) FL) as [l [Pl Fl]].
  exists (mkZpk (zk_z zf) l (zk_k zf)). split.
  - split; [split; [exact FZ|split; [exact (Permutation_Forall Pl FP)|exact FK]]|]. split; [rewrite EZ; exact WZ|]. split; [|rewrite EK; exact WK].
    cbn [zpk_val zk_p]. clear -Fl. revert Fl. generalize (zk_p h0). induction l as [|f l IH]; intros m F; inversion F; subst; constructor; [assumption|apply IH; assumption].
  - intros t. unfold dgain_sqr. rewrite !H_hom. cbn [zpk_val zk_z zk_p zk_k]. rewrite (hom_perm (map cval l) (map cval (zk_p zf))); [reflexivity|]. apply Permutation_map, Permutation_sym, Pl.
Qed.
Lemma within_zpk prec emax e f h0 h' : upto_order (DZpk h0) h' -> filter_within prec emax e f h' -> exists zf, f = DZpk zf.
Proof. destruct h' as [|h'|]; intros U W; try (destruct U; fail). destruct f as [|zf|]; try (destruct W; fail). exists zf. reflexivity. Qed.

Theorem C107_butter_band_response (N : nat) (w0 w1 : R) (fs : option R) (bt : FilterBandType) (analog : option bool) (E : R) :
  (0 < N)%nat -> (bt = Bandpass \/ bt = Bandstop) -> analog <> Some true -> valid_band false w0 w1 fs -> 0 <= E ->
  (Nat.odd N = true -> ~ double_pole bt 1 (edge_freq false w0 fs) (edge_freq false w1 fs)) ->
  exists K, 1 <= K /\ forall prec emax szero (T : Trans spec_float) epsilon sort w0f w1f fsf,
  (1 < prec < emax)%Z -> is_sort sort -> accurate_trans prec emax E T ->
  reads prec emax w0f w0 -> reads prec emax w1f w1 -> reads_opt prec emax fsf fs -> K * uround prec <= 1 ->
  exists f g,
    @butter_dyn _ (SFNum prec emax szero) T epsilon sort N [w0f; w1f] (Some bt) analog (Some OutZpk) fsf = Ok (DZpk f) /\
    @butter_dyn _ (SFNum prec emax szero) T epsilon sort N [w0f; w1f] (Some bt) analog (Some OutBa) fsf = Ok (DBa g) /\
    stable_digital (zpk_val f) /\ ba_stable (map fval (ba_a g)) /\
    forall theta gain, gain = dgain_sqr (zpk_val f) theta \/ gain = ba_gain_sqr (map fval (ba_b g)) (map fval (ba_a g)) theta ->
      let (a, b) := band_ratio bt (normalised [w0; w1] fs) theta in
      (b <> 0 -> Rabs (gain - 1 / (1 + (a / b) ^ (2 * N))) <= K * uround prec) /\ (b = 0 -> Rabs gain <= K * uround prec).
Proof.
  intros HN Hb Ha Hv HE ND. assert (Ea : unwrap_or analog false = false) by (destruct analog as [[|]|]; [contradiction Ha; reflexivity|reflexivity|reflexivity]).
  pose proof (band_digital bt w0 w1 fs Hb Hv) as Hd.
  destruct (butter_digital 0 isort N [w0; w1] bt analog fs Ha Hd) as [h0 [E0 [_ [_ [Hr [Hs [Lz [Lp _]]]]]]]].
  destruct (C57_butter_digital 0 isort N [w0; w1] bt analog fs HN Ha Hd) as [h1 [E1 [G _]]]. assert (h1 = h0) by congruence. subst h1. clear E1.
  unfold butter_dyn in E0. cbn [unwrap_or] in E0. rewrite Ea in E0.
  destruct (C106_butter_band_rounding N w0 w1 fs bt analog (Some OutZpk) E Hb ltac:(discriminate) ltac:(rewrite Ea; exact Hv) HE ltac:(rewrite Ea; exact ND)) as [K1 [HK1 Q1]].
  destruct (C106_butter_band_rounding N w0 w1 fs bt analog (Some OutBa) E Hb ltac:(discriminate) ltac:(rewrite Ea; exact Hv) HE ltac:(rewrite Ea; exact ND)) as [K2 [HK2 Q2]].
  destruct (both h0 N Hs Hr ltac:(congruence) ltac:(destruct Hb as [-> | ->]; cbn [band_arity] in Lp; lia) K1 K2 HK1 HK2) as [K [HK [L1 [L2 Q]]]].
  exists K. split; [exact HK|]. intros prec emax sz T eps sort w0f w1f fsf Hpe Hso HT R0 R1 Rf Hu. destruct (u_half prec ltac:(lia)) as [U0 _].
  destruct (Q1 prec emax sz T 0 eps sort w0f w1f fsf Hpe Hso HT R0 R1 Rf ltac:(nra)) as [f [h [h2 [F1 [F2 [UP [W1 S1]]]]]]].
  destruct (Q2 prec emax sz T 0 eps sort w0f w1f fsf Hpe Hso HT R0 R1 Rf ltac:(nra)) as [f' [h' [h2' [F1' [F2' [UP' [W2 _]]]]]]].
  destruct (outputs_agree2 N w0 w1 None bt Butterworth (Some false) fs _ h0 Hb eq_refl Hv (or_introl (conj eq_refl (conj eq_refl eq_refl))) E0 0 sort Hso) as [O1 O2].
  unfold butter_dyn in F2, F2'. cbn [unwrap_or] in F2, F2'. rewrite Ea in F2, F2'. rewrite O1 in F2. rewrite O2 in F2'. injection F2 as <-. injection F2' as <-.
  destruct h2' as [h2'| |]; try (destruct UP'; fail). cbn [upto_order] in UP'. subst h2'.
  destruct (within_zpk _ _ _ _ _ _ UP W1) as [z0 ->]. destruct (reorder _ _ _ _ _ _ UP W1) as [z1 [W1' EG]].
  destruct (Q prec emax (DZpk z1) f' ltac:(lia) Hu W1' W2) as [zf [bf [EZ [-> [SB R]]]]]. injection EZ as <-.
  exists z0, bf. split; [exact F1|]. split; [exact F1'|]. specialize (S1 eq_refl). rewrite Ea in S1. split; [exact S1|]. split; [exact SB|].
  intros theta gain Hg. rewrite <- EG in Hg. specialize (R theta gain Hg). specialize (G theta). destruct (band_ratio bt (normalised [w0; w1] fs) theta) as [a b]. destruct G as [G1 G2]. split.
  - intros Z. rewrite <- (G1 Z). exact R.
  - intros Z. rewrite (G2 Z), Rminus_0_r in R. exact R.
Qed.
Print Assumptions C107_butter_band_response.

Theorem C107_cheby1_band_response (N : nat) (rp w0 w1 : R) (fs : option R) (bt : FilterBandType) (analog : option bool) (E : R) :
  (0 < N)%nat -> 0 < rp -> (bt = Bandpass \/ bt = Bandstop) -> analog <> Some true -> valid_band false w0 w1 fs -> 0 <= E ->
  (Nat.odd N = true -> ~ double_pole bt (cheb_pole N rp) (edge_freq false w0 fs) (edge_freq false w1 fs)) ->
  exists K, 1 <= K /\ forall prec emax szero (T : Trans spec_float) epsilon sort rpf w0f w1f fsf,
  (1 < prec < emax)%Z -> is_sort sort -> accurate_trans prec emax E T ->
  reads prec emax rpf rp -> reads prec emax w0f w0 -> reads prec emax w1f w1 -> reads_opt prec emax fsf fs -> K * uround prec <= 1 ->
  exists f g,
    @cheby1_dyn _ (SFNum prec emax szero) T epsilon sort N rpf [w0f; w1f] (Some bt) analog (Some OutZpk) fsf = Ok (DZpk f) /\
    @cheby1_dyn _ (SFNum prec emax szero) T epsilon sort N rpf [w0f; w1f] (Some bt) analog (Some OutBa) fsf = Ok (DBa g) /\
    stable_digital (zpk_val f) /\ ba_stable (map fval (ba_a g)) /\
    forall theta gain, gain = dgain_sqr (zpk_val f) theta \/ gain = ba_gain_sqr (map fval (ba_b g)) (map fval (ba_a g)) theta ->
      let (a, b) := band_ratio bt (normalised [w0; w1] fs) theta in
      (b <> 0 -> Rabs (gain - 1 / (1 + (Rpower 10 (rp / 10) - 1) * chebT N (a / b) ^ 2)) <= K * uround prec) /\ (b = 0 -> Rabs gain <= K * uround prec).
Proof.
  intros HN Hrp Hb Ha Hv HE ND. assert (Ea : unwrap_or analog false = false) by (destruct analog as [[|]|]; [contradiction Ha; reflexivity|reflexivity|reflexivity]).
  pose proof (band_digital bt w0 w1 fs Hb Hv) as Hd.
  destruct (C64_cheby1_digital 0 isort N rp [w0; w1] bt analog fs HN Hrp Ha Hd) as [h0 [E0 [Hs [Hr [Lz [Lp [G _]]]]]]].
  unfold cheby1_dyn in E0.
  destruct (C106_cheby1_band_rounding N rp w0 w1 fs bt analog (Some OutZpk) E Hb ltac:(discriminate) ltac:(rewrite Ea; exact Hv) Hrp HE ltac:(rewrite Ea; exact ND)) as [K1 [HK1 Q1]].
  destruct (C106_cheby1_band_rounding N rp w0 w1 fs bt analog (Some OutBa) E Hb ltac:(discriminate) ltac:(rewrite Ea; exact Hv) Hrp HE ltac:(rewrite Ea; exact ND)) as [K2 [HK2 Q2]].
  destruct (both h0 N Hs Hr ltac:(congruence) ltac:(destruct Hb as [-> | ->]; cbn [band_arity] in Lp; lia) K1 K2 HK1 HK2) as [K [HK [L1 [L2 Q]]]].
  exists K. split; [exact HK|]. intros prec emax sz T eps sort rpf w0f w1f fsf Hpe Hso HT Rr R0 R1 Rf Hu. destruct (u_half prec ltac:(lia)) as [U0 _].
  destruct (Q1 prec emax sz T 0 eps sort rpf w0f w1f fsf Hpe Hso HT Rr R0 R1 Rf ltac:(nra)) as [f [h [h2 [F1 [F2 [UP [W1 S1]]]]]]].
  destruct (Q2 prec emax sz T 0 eps sort rpf w0f w1f fsf Hpe Hso HT Rr R0 R1 Rf ltac:(nra)) as [f' [h' [h2' [F1' [F2' [UP' [W2 _]]]]]]].
  assert (Hc : nltb rp 0 = false) by (cbn [nltb RNum]; unfold Rltb; destruct (Rlt_dec _ _); [lra|reflexivity]).
  destruct (outputs_agree2 N w0 w1 (Some rp) bt ChebyshevI analog fs _ h0 Hb Ea Hv (or_intror (ex_intro _ rp (conj eq_refl (conj eq_refl (conj Hc eq_refl))))) E0 0 sort Hso) as [O1 O2].
  unfold cheby1_dyn in F2, F2'. rewrite O1 in F2. rewrite O2 in F2'. injection F2 as <-. injection F2' as <-.
  destruct h2' as [h2'| |]; try (destruct UP'; fail). cbn [upto_order] in UP'. subst h2'.
  destruct (within_zpk _ _ _ _ _ _ UP W1) as [z0 ->]. destruct (reorder _ _ _ _ _ _ UP W1) as [z1 [W1' EG]].
  destruct (Q prec emax (DZpk z1) f' ltac:(lia) Hu W1' W2) as [zf [bf [EZ [-> [SB R]]]]]. injection EZ as <-.
  exists z0, bf. split; [exact F1|]. split; [exact F1'|]. specialize (S1 eq_refl). rewrite Ea in S1. split; [exact S1|]. split; [exact SB|].
  intros theta gain Hg. rewrite <- EG in Hg. specialize (R theta gain Hg). specialize (G theta). destruct (band_ratio bt (normalised [w0; w1] fs) theta) as [a b]. destruct G as [G1 [G2 _]]. split.
  - intros Z. rewrite <- (G1 Z). exact R.
  - intros Z. rewrite (G2 Z), Rminus_0_r in R. exact R.
Qed.
Print Assumptions C107_cheby1_band_response.

(** Third order, edges 1 and 2 at sampling rate 8 (normalised edges 1/4 and 1/2): the
    second warped edge is 4, the first is 4 tan (pi/8), and no double pole arises. *)
Example C107_hyp_met : valid_band false 1 2 (Some 8) /\ edge_freq false 2 (Some 8) = 4 /\
  ~ double_pole Bandpass 1 (edge_freq false 1 (Some 8)) (edge_freq false 2 (Some 8)) /\
  forall K, exists prec emax T w0f w1f fsf, (1 < prec < emax)%Z /\ accurate_trans prec emax 5 T /\
    reads prec emax w0f 1 /\ reads prec emax w1f 2 /\ reads_opt prec emax (Some fsf) (Some 8) /\ K * uround prec <= 1.
Proof.
  assert (E2 : edge_freq false 2 (Some 8) = 4).
  { unfold edge_freq. replace (PI * (2 * 2 / 8) / 2) with (PI / 4) by field. rewrite tan_PI4. ring. }
  split; [cbn; repeat split; lra|]. split; [exact E2|]. split.
  - rewrite E2. unfold double_pole, edge_freq. set (t := tan (PI * (2 * 1 / 8) / 2)).
    assert (TQ : t * t + 2 * t - 1 = 0 /\ 0 < t).
    { unfold t. replace (PI * (2 * 1 / 8) / 2) with (PI / 8) by field. pose proof PI_RGT_0. assert (P : 0 < tan (PI / 8)) by (apply tan_gt_0; lra). split; [|exact P].
      assert (CC : 0 < cos (PI / 8)) by (apply cos_gt_0; lra).
      assert (D1 : sin (PI / 4) = 2 * sin (PI / 8) * cos (PI / 8)) by (rewrite <- sin_2a; f_equal; field).
      assert (D2 : cos (PI / 4) = cos (PI / 8) * cos (PI / 8) - sin (PI / 8) * sin (PI / 8)) by (rewrite <- cos_2a; f_equal; field).
      assert (D3 : sin (PI / 4) = cos (PI / 4)) by (rewrite sin_PI4, cos_PI4; reflexivity).
      unfold tan. apply (Rmult_eq_reg_r (cos (PI / 8) * cos (PI / 8))); [|nra]. rewrite Rmult_0_l. transitivity (sin (PI / 8) * sin (PI / 8) + 2 * sin (PI / 8) * cos (PI / 8) - cos (PI / 8) * cos (PI / 8)); [field; lra|lra]. }
    intros Q. nra.
  - intros K. destruct (fine_format (Rabs K + 16)) as [prec [emax [Hpe Hu']]]. destruct (u_half prec ltac:(lia)) as [U0 _].
    pose proof (Rle_abs K) as AK. pose proof (Rabs_pos K) as AP.
    assert (Hu : K * uround prec <= 1) by nra. assert (H16 : 16 * uround prec <= 1) by nra.
    assert (P3 : (3 <= prec)%Z).
    { destruct (Z.eq_dec prec 2) as [-> |]; [|lia]. exfalso. assert (Q : uround 2 = / 4) by (change (uround 2) with (/ (2 * (2 * 1))); lra). rewrite Q in H16. lra. }
    exists prec, emax, (rounding_library prec emax), (SpecFloat.binary_normalize prec emax 1 0 false), (SpecFloat.binary_normalize prec emax 2 0 false), (SpecFloat.binary_normalize prec emax 8 0 false).
    split; [exact Hpe|]. split; [apply rounding_library_accurate; exact Hpe|]. split; [apply small_int; [exact Hpe|lia]|]. split; [apply small_int; [exact Hpe|lia]|]. split; [|exact Hu].
    apply (fofZ_ok prec emax ltac:(unfold Prec_gt_0; lia) ltac:(unfold Prec_lt_emax; lia) 8).
    + cbn [Z.abs]. change 8%Z with (2 ^ 3)%Z. apply Z.pow_le_mono_r; lia.
    + cbn [Z.abs]. apply fmax_inv_u; [exact Hpe|lra].
Qed.
