(** C120: sums of tones through filters designed and run in floating point.  For every
    digital Butterworth or Chebyshev I filter, every Chebyshev II low-pass and every
    Chebyshev II band-pass, a signal close to a sum of tones comes out, at every fine enough
    format, as the sum of the same tones, each changed by the response of the exact design
    at its own frequency - or, under zero-phase filtering, scaled by the squared gain - up
    to transients that decay and rounding that does not accumulate.  The constants do not
    depend on the number of tones. *)
From Coq Require Import Reals ZArith SpecFloat List Lia Lra Bool.
From Flocq Require Import Core BinarySingleNaN.
From Verif Require Import Base Num Trans M_Complex M_Filter M_Design Cx S_Design S_Filter S_Stable S_Float S_FloatFft S_FloatZpk S_FloatTrans S_FloatSos S_FloatBand S_FloatCheb2Band S_Mix S_Bessel
  P_Sort P_Float P_FloatStats P_FloatMed P_FloatZi P_FloatPoly P_FloatDesign T_FloatDesign P_Iir T_Iir P_Sos T_Sos P_FloatI0 P_FloatSosCore P_FloatSosDesign T_FloatSos T_FloatResponse
  P_FloatBand P_FloatBandStage T_FloatBand P_FloatBandMate P_FloatBandSos T_FloatBandSos P_Cheb P_FloatFiltDesign T_FloatFiltDesign T_FloatTone T_FloatCheb2 P_ToneZero T_FloatToneZero
  P_FloatCheb2Band T_FloatCheb2Band T_FloatCheb2Zero P_Mix.
Import ListNotations.
Local Open Scope R_scope.

Theorem C120_butter_mixture (order : nat) (w : R) (fs : option R) (bt : FilterBandType) (analog : option bool) (E : R) :
  (bt = Lowpass \/ bt = Highpass) -> analog <> Some true -> valid_edge false w fs -> (0 < order)%nat -> 0 <= E ->
  exists h K rho, butter_dyn 0 isort order [w] (Some bt) analog (Some OutZpk) fs = Ok (DZpk h) /\ 1 <= K /\ 0 < rho < 1 /\
    (forall theta, let g2 := cnorm_sqr (H h (cos theta, sin theta)) in
    (let (a, b) := band_ratio bt (normalised [w] fs) theta in (b <> 0 -> g2 = 1 / (1 + (a / b) ^ (2 * order))) /\ (b = 0 -> g2 = 0))) /\
    forall prec emax szero (T : Trans spec_float) sort wf fsf,
    (1 < prec < emax)%Z -> is_list_sort sort -> accurate_trans prec emax E T -> symmetric_trans prec emax T ->
    reads prec emax wf w -> reads_opt prec emax fsf fs -> K * uround prec <= 1 ->
    exists sections,
      @butter_dyn _ (SFNum prec emax szero) T (machine_eps prec) sort order [wf] (Some bt) analog (Some OutSos) fsf = Ok (DSos sections) /\
      mixture_passes prec emax szero K rho (fun theta => H h (cos theta, sin theta)) sections.
Proof.
  intros Hb Ha Hv Ho HE. destruct (butter_exact w fs bt analog order Hb Ha Hv) as (h & _ & _ & Sh & Lh & _ & Ez & Es).
  destruct (C109_butter_filter order w fs bt analog E Hb Ha Hv HE) as (Kf & HKf & P).
  assert (Ex : exists l0, realises l0 h) by (destruct (Es isort (list_sort_sort _ isort_list_sort)) as (l & _ & R); exists l; exact R).
  destruct (mix_float h Kf HKf Sh Lh Ex) as (K & rho & HK & HKK & Hr & Q).
  exists h, K, rho. split; [apply Ez|]. split; [exact HK|]. split; [exact Hr|]. split.
  - destruct (C57_butter_digital 0 isort order [w] bt analog fs Ho Ha (edge_digital bt w fs Hb Hv)) as (f & Ef & G & _). rewrite Ez in Ef. injection Ef as <-.
    intros theta. cbn zeta. specialize (G theta). unfold dgain_sqr in G. destruct (band_ratio bt (normalised [w] fs) theta) as [a b]. destruct G as [G1 G2]. split; [exact G1|exact G2].
  - intros prec emax szero T sort wf fsf Hpe Hs HT HS Rw Rf Hu. destruct (u_half prec (proj1 Hpe)) as [U0 _].
    destruct (P prec emax szero T sort wf fsf Hpe Hs HT HS Rw Rf) as (lf & l & E1 & E2 & F). { eapply Rle_trans; [|exact Hu]. apply Rmult_le_compat_r; lra. }
    exists lf. split; [exact E1|]. destruct (Es sort (list_sort_sort sort Hs)) as (l2 & E3 & Rl). assert (l2 = l) by congruence. subst l2. exact (Q prec emax szero lf l Hpe Rl F).
Qed.
Print Assumptions C120_butter_mixture.

Theorem C120_cheby1_mixture (order : nat) (rp w : R) (fs : option R) (bt : FilterBandType) (analog : option bool) (E : R) :
  (bt = Lowpass \/ bt = Highpass) -> analog <> Some true -> valid_edge false w fs -> (0 < order)%nat -> 0 < rp -> 0 <= E ->
  exists h K rho, cheby1_dyn 0 isort order rp [w] (Some bt) analog (Some OutZpk) fs = Ok (DZpk h) /\ 1 <= K /\ 0 < rho < 1 /\
    (forall theta, let g2 := cnorm_sqr (H h (cos theta, sin theta)) in
    (let (a, b) := band_ratio bt (normalised [w] fs) theta in
     (b <> 0 -> g2 = 1 / (1 + (Rpower 10 (rp / 10) - 1) * chebT order (a / b) ^ 2)) /\ (b = 0 -> g2 = 0))) /\
    forall prec emax szero (T : Trans spec_float) sort rpf wf fsf,
    (1 < prec < emax)%Z -> is_list_sort sort -> accurate_trans prec emax E T -> symmetric_trans prec emax T ->
    reads prec emax rpf rp -> reads prec emax wf w -> reads_opt prec emax fsf fs -> K * uround prec <= 1 ->
    exists sections,
      @cheby1_dyn _ (SFNum prec emax szero) T (machine_eps prec) sort order rpf [wf] (Some bt) analog (Some OutSos) fsf = Ok (DSos sections) /\
      mixture_passes prec emax szero K rho (fun theta => H h (cos theta, sin theta)) sections.
Proof.
  intros Hb Ha Hv Ho Hrp HE. destruct (cheby1_exact w fs bt analog order Hb Ha Hv rp Hrp Ho) as (h & _ & _ & Sh & Lh & _ & Ez & Es).
  destruct (C109_cheby1_filter order rp w fs bt analog E Hb Ha Hv Ho Hrp HE) as (Kf & HKf & P).
  assert (Ex : exists l0, realises l0 h) by (destruct (Es isort (list_sort_sort _ isort_list_sort)) as (l & _ & R); exists l; exact R).
  destruct (mix_float h Kf HKf Sh Lh Ex) as (K & rho & HK & HKK & Hr & Q).
  exists h, K, rho. split; [apply Ez|]. split; [exact HK|]. split; [exact Hr|]. split.
  - destruct (C64_cheby1_digital 0 isort order rp [w] bt analog fs Ho Hrp Ha (edge_digital bt w fs Hb Hv)) as (f & Ef & _ & _ & _ & _ & G & _). rewrite Ez in Ef. injection Ef as <-.
    intros theta. cbn zeta. specialize (G theta). unfold dgain_sqr in G. destruct (band_ratio bt (normalised [w] fs) theta) as [a b]. destruct G as (G1 & G2 & _). split; [exact G1|exact G2].
  - intros prec emax szero T sort rpf wf fsf Hpe Hs HT HS Rr Rw Rf Hu. destruct (u_half prec (proj1 Hpe)) as [U0 _].
    destruct (P prec emax szero T sort rpf wf fsf Hpe Hs HT HS Rr Rw Rf) as (lf & l & E1 & E2 & F). { eapply Rle_trans; [|exact Hu]. apply Rmult_le_compat_r; lra. }
    exists lf. split; [exact E1|]. destruct (Es sort (list_sort_sort sort Hs)) as (l2 & E3 & Rl). assert (l2 = l) by congruence. subst l2. exact (Q prec emax szero lf l Hpe Rl F).
Qed.
Print Assumptions C120_cheby1_mixture.

Theorem C120_butter_band_mixture (order : nat) (w0 w1 : R) (fs : option R) (bt : FilterBandType) (analog : option bool) (E : R) :
  (bt = Bandpass \/ bt = Bandstop) -> analog <> Some true -> valid_band false w0 w1 fs -> (0 < order)%nat -> 0 <= E ->
  (Nat.odd order = true -> ~ double_pole bt 1 (edge_freq false w0 fs) (edge_freq false w1 fs)) ->
  exists h K rho, butter_dyn 0 isort order [w0; w1] (Some bt) analog (Some OutZpk) fs = Ok (DZpk h) /\ 1 <= K /\ 0 < rho < 1 /\
    (forall theta, let g2 := cnorm_sqr (H h (cos theta, sin theta)) in
    (let (a, b) := band_ratio bt (normalised [w0; w1] fs) theta in (b <> 0 -> g2 = 1 / (1 + (a / b) ^ (2 * order))) /\ (b = 0 -> g2 = 0))) /\
    forall prec emax szero (T : Trans spec_float) sort w0f w1f fsf,
    (1 < prec < emax)%Z -> is_list_sort sort -> accurate_trans prec emax E T -> symmetric_trans prec emax T ->
    reads prec emax w0f w0 -> reads prec emax w1f w1 -> reads_opt prec emax fsf fs -> K * uround prec <= 1 ->
    exists sections,
      @butter_dyn _ (SFNum prec emax szero) T (machine_eps prec) sort order [w0f; w1f] (Some bt) analog (Some OutSos) fsf = Ok (DSos sections) /\
      mixture_passes prec emax szero K rho (fun theta => H h (cos theta, sin theta)) sections.
Proof.
  intros Hb Ha Hv Ho HE ND. destruct (butter_exact2 w0 w1 fs bt analog order Hb Ha Hv) as (h & _ & _ & Sh & Lh & _ & Ez & Es).
  destruct (C112_butter_band_filter order w0 w1 fs bt analog E Hb Ha Hv HE ND) as (Kf & HKf & P).
  assert (Ex : exists l0, realises l0 h) by (destruct (Es isort (list_sort_sort _ isort_list_sort)) as (l & _ & R); exists l; exact R).
  destruct (mix_float h Kf HKf Sh Lh Ex) as (K & rho & HK & HKK & Hr & Q).
  exists h, K, rho. split; [apply Ez|]. split; [exact HK|]. split; [exact Hr|]. split.
  - destruct (C57_butter_digital 0 isort order [w0; w1] bt analog fs Ho Ha (band_digital bt w0 w1 fs Hb Hv)) as (f & Ef & G & _). rewrite Ez in Ef. injection Ef as <-.
    intros theta. cbn zeta. specialize (G theta). unfold dgain_sqr in G. destruct (band_ratio bt (normalised [w0; w1] fs) theta) as [a b]. destruct G as [G1 G2]. split; [exact G1|exact G2].
  - intros prec emax szero T sort w0f w1f fsf Hpe Hs HT HS R0 R1 Rf Hu. destruct (u_half prec (proj1 Hpe)) as [U0 _].
    destruct (P prec emax szero T sort w0f w1f fsf Hpe Hs HT HS R0 R1 Rf) as (lf & l & E1 & E2 & F). { eapply Rle_trans; [|exact Hu]. apply Rmult_le_compat_r; lra. }
    exists lf. split; [exact E1|]. destruct (Es sort (list_sort_sort sort Hs)) as (l2 & E3 & Rl). assert (l2 = l) by congruence. subst l2. exact (Q prec emax szero lf l Hpe Rl F).
Qed.
Print Assumptions C120_butter_band_mixture.

Theorem C120_cheby1_band_mixture (order : nat) (rp w0 w1 : R) (fs : option R) (bt : FilterBandType) (analog : option bool) (E : R) :
  (bt = Bandpass \/ bt = Bandstop) -> analog <> Some true -> valid_band false w0 w1 fs -> (0 < order)%nat -> 0 < rp -> 0 <= E ->
  (Nat.odd order = true -> ~ double_pole bt (cheb_pole order rp) (edge_freq false w0 fs) (edge_freq false w1 fs)) ->
  exists h K rho, cheby1_dyn 0 isort order rp [w0; w1] (Some bt) analog (Some OutZpk) fs = Ok (DZpk h) /\ 1 <= K /\ 0 < rho < 1 /\
    (forall theta, let g2 := cnorm_sqr (H h (cos theta, sin theta)) in
    (let (a, b) := band_ratio bt (normalised [w0; w1] fs) theta in
     (b <> 0 -> g2 = 1 / (1 + (Rpower 10 (rp / 10) - 1) * chebT order (a / b) ^ 2)) /\ (b = 0 -> g2 = 0))) /\
    forall prec emax szero (T : Trans spec_float) sort rpf w0f w1f fsf,
    (1 < prec < emax)%Z -> is_list_sort sort -> accurate_trans prec emax E T -> symmetric_trans prec emax T ->
    reads prec emax rpf rp -> reads prec emax w0f w0 -> reads prec emax w1f w1 -> reads_opt prec emax fsf fs -> K * uround prec <= 1 ->
    exists sections,
      @cheby1_dyn _ (SFNum prec emax szero) T (machine_eps prec) sort order rpf [w0f; w1f] (Some bt) analog (Some OutSos) fsf = Ok (DSos sections) /\
      mixture_passes prec emax szero K rho (fun theta => H h (cos theta, sin theta)) sections.
Proof.
  intros Hb Ha Hv Ho Hrp HE ND. destruct (cheby1_exact2 w0 w1 fs bt analog order Hb Ha Hv rp Hrp Ho) as (h & _ & _ & Sh & Lh & _ & Ez & Es).
  destruct (C112_cheby1_band_filter order rp w0 w1 fs bt analog E Hb Ha Hv Ho Hrp HE ND) as (Kf & HKf & P).
  assert (Ex : exists l0, realises l0 h) by (destruct (Es isort (list_sort_sort _ isort_list_sort)) as (l & _ & R); exists l; exact R).
  destruct (mix_float h Kf HKf Sh Lh Ex) as (K & rho & HK & HKK & Hr & Q).
  exists h, K, rho. split; [apply Ez|]. split; [exact HK|]. split; [exact Hr|]. split.
  - destruct (C64_cheby1_digital 0 isort order rp [w0; w1] bt analog fs Ho Hrp Ha (band_digital bt w0 w1 fs Hb Hv)) as (f & Ef & _ & _ & _ & _ & G & _). rewrite Ez in Ef. injection Ef as <-.
    intros theta. cbn zeta. specialize (G theta). unfold dgain_sqr in G. destruct (band_ratio bt (normalised [w0; w1] fs) theta) as [a b]. destruct G as (G1 & G2 & _). split; [exact G1|exact G2].
  - intros prec emax szero T sort rpf w0f w1f fsf Hpe Hs HT HS Rr R0 R1 Rf Hu. destruct (u_half prec (proj1 Hpe)) as [U0 _].
    destruct (P prec emax szero T sort rpf w0f w1f fsf Hpe Hs HT HS Rr R0 R1 Rf) as (lf & l & E1 & E2 & F). { eapply Rle_trans; [|exact Hu]. apply Rmult_le_compat_r; lra. }
    exists lf. split; [exact E1|]. destruct (Es sort (list_sort_sort sort Hs)) as (l2 & E3 & Rl). assert (l2 = l) by congruence. subst l2. exact (Q prec emax szero lf l Hpe Rl F).
Qed.
Print Assumptions C120_cheby1_band_mixture.

Theorem C120_cheby2_mixture (order : nat) (rp rs w : R) (fs : option R) (analog : option bool) (E : R) :
  analog <> Some true -> valid_edge false w fs -> (0 < order)%nat -> 0 <= rp -> 0 < rs -> 0 <= E ->
  exists h K rho, iirfilter_dyn 0 isort order [w] (Some rp) (Some rs) (Some Lowpass) (Some ChebyshevII) analog (Some OutZpk) fs = Ok (DZpk h) /\ 1 <= K /\ 0 < rho < 1 /\
    (forall theta, let g2 := cnorm_sqr (H h (cos theta, sin theta)) in
    (let (a, b) := band_ratio Lowpass (normalised [w] fs) theta in
     (a = 0 -> g2 = 1) /\ (a <> 0 -> chebT order (b / a) = 0 -> g2 = 0) /\
     (a <> 0 -> chebT order (b / a) <> 0 -> g2 = 1 / (1 + (Rpower 10 (rs / 10) - 1) / chebT order (b / a) ^ 2)))) /\
    forall prec emax szero (T : Trans spec_float) sort rpf rsf wf fsf,
    (1 < prec < emax)%Z -> is_list_sort sort -> accurate_trans prec emax E T -> symmetric_trans prec emax T ->
    reads prec emax rpf rp -> reads prec emax rsf rs -> reads prec emax wf w -> reads_opt prec emax fsf fs -> K * uround prec <= 1 ->
    exists sections,
      @iirfilter_dyn _ (SFNum prec emax szero) T (machine_eps prec) sort order [wf] (Some rpf) (Some rsf) (Some Lowpass) (Some ChebyshevII) analog (Some OutSos) fsf = Ok (DSos sections) /\
      mixture_passes prec emax szero K rho (fun theta => H h (cos theta, sin theta)) sections.
Proof.
  intros Ha Hv Hn Hp Hr HE. destruct (cheby2_exact order rp rs w fs analog Hn Hp Hr Ha Hv) as (h & _ & _ & Sh & Lh & _ & Ez & _ & Es & G).
  destruct (C115_cheby2_filter order rp rs w fs analog E Ha Hv Hn Hp Hr HE) as (Kf & HKf & P).
  assert (Ex : exists l0, realises l0 h) by (destruct (Es isort (list_sort_sort _ isort_list_sort)) as (l & _ & R); exists l; exact R).
  destruct (mix_float h Kf HKf Sh Lh Ex) as (K & rho & HK & HKK & Hr' & Q).
  exists h, K, rho. split; [apply Ez|]. split; [exact HK|]. split; [exact Hr'|]. split.
  - intros theta. cbn zeta. specialize (G theta). unfold dgain_sqr in G. destruct (band_ratio Lowpass (normalised [w] fs) theta) as [a b]. exact G.
  - intros prec emax szero T sort rpf rsf wf fsf Hpe Hs HT HS Rp Rs Rw Rf Hu. destruct (u_half prec (proj1 Hpe)) as [U0 _].
    destruct (P prec emax szero T sort rpf rsf wf fsf Hpe Hs HT HS Rp Rs Rw Rf) as (lf & l & E1 & E2 & F). { eapply Rle_trans; [|exact Hu]. apply Rmult_le_compat_r; lra. }
    exists lf. split; [exact E1|]. destruct (Es sort (list_sort_sort sort Hs)) as (l2 & E3 & Rl). assert (l2 = l) by congruence. subst l2. exact (Q prec emax szero lf l Hpe Rl F).
Qed.
Print Assumptions C120_cheby2_mixture.

Theorem C120_cheby2_band_mixture (order : nat) (rp rs w0 w1 : R) (fs : option R) (analog : option bool) (E : R) :
  analog <> Some true -> valid_band false w0 w1 fs -> (0 < order)%nat -> 0 <= rp -> 0 < rs -> 0 <= E ->
  (Nat.odd order = true -> ~ double_pole Bandpass (cheb2_pole order rs) (edge_freq false w0 fs) (edge_freq false w1 fs)) ->
  exists h K rho, iirfilter_dyn 0 isort order [w0; w1] (Some rp) (Some rs) (Some Bandpass) (Some ChebyshevII) analog (Some OutZpk) fs = Ok (DZpk h) /\ 1 <= K /\ 0 < rho < 1 /\
    (forall theta, let g2 := cnorm_sqr (H h (cos theta, sin theta)) in
    (let (a, b) := band_ratio Bandpass (normalised [w0; w1] fs) theta in
     (a = 0 -> g2 = 1) /\ (a <> 0 -> chebT order (b / a) = 0 -> g2 = 0) /\
     (a <> 0 -> chebT order (b / a) <> 0 -> g2 = 1 / (1 + (Rpower 10 (rs / 10) - 1) / chebT order (b / a) ^ 2)))) /\
    forall prec emax szero (T : Trans spec_float) sort rpf rsf w0f w1f fsf,
    (1 < prec < emax)%Z -> is_list_sort sort -> accurate_trans prec emax E T -> symmetric_trans prec emax T ->
    reads prec emax rpf rp -> reads prec emax rsf rs -> reads prec emax w0f w0 -> reads prec emax w1f w1 -> reads_opt prec emax fsf fs -> K * uround prec <= 1 ->
    exists sections,
      @iirfilter_dyn _ (SFNum prec emax szero) T (machine_eps prec) sort order [w0f; w1f] (Some rpf) (Some rsf) (Some Bandpass) (Some ChebyshevII) analog (Some OutSos) fsf = Ok (DSos sections) /\
      mixture_passes prec emax szero K rho (fun theta => H h (cos theta, sin theta)) sections.
Proof.
  intros Ha Hv Hn Hp Hr HE ND. destruct (pass_exact order rp rs w0 w1 fs analog Hn Hp Hr Ha Hv) as (h & _ & _ & Sh & Lh & _ & Ez & _ & Es & G).
  destruct (C119_cheby2_band_filter order rp rs w0 w1 fs analog E Ha Hv Hn Hp Hr HE ND) as (Kf & HKf & P).
  assert (Ex : exists l0, realises l0 h) by (destruct (Es isort (list_sort_sort _ isort_list_sort)) as (l & _ & R); exists l; exact R).
  destruct (mix_float h Kf HKf Sh Lh Ex) as (K & rho & HK & HKK & Hr' & Q).
  exists h, K, rho. split; [apply Ez|]. split; [exact HK|]. split; [exact Hr'|]. split.
  - intros theta. cbn zeta. specialize (G theta). unfold dgain_sqr in G. destruct (band_ratio Bandpass (normalised [w0; w1] fs) theta) as [a b]. exact G.
  - intros prec emax szero T sort rpf rsf w0f w1f fsf Hpe Hs HT HS Rp Rs R0 R1 Rf Hu. destruct (u_half prec (proj1 Hpe)) as [U0 _].
    destruct (P prec emax szero T sort rpf rsf w0f w1f fsf Hpe Hs HT HS Rp Rs R0 R1 Rf) as (lf & l & E1 & E2 & F). { eapply Rle_trans; [|exact Hu]. apply Rmult_le_compat_r; lra. }
    exists lf. split; [exact E1|]. destruct (Es sort (list_sort_sort sort Hs)) as (l2 & E3 & Rl). assert (l2 = l) by congruence. subst l2. exact (Q prec emax szero lf l Hpe Rl F).
Qed.
Print Assumptions C120_cheby2_band_mixture.

Theorem C120_butter_zero_phase_mixture (order : nat) (w : R) (fs : option R) (bt : FilterBandType) (analog : option bool) (E : R) :
  (bt = Lowpass \/ bt = Highpass) -> analog <> Some true -> valid_edge false w fs -> (0 < order)%nat -> 0 <= E ->
  exists K rho g, 1 <= K /\ 0 < rho < 1 /\
    (forall theta,
     (let (a, b) := band_ratio bt (normalised [w] fs) theta in (b <> 0 -> g theta = 1 / (1 + (a / b) ^ (2 * order))) /\ (b = 0 -> g theta = 0))) /\
    forall prec emax szero (T : Trans spec_float) sort wf fsf,
    (1 < prec < emax)%Z -> is_list_sort sort -> accurate_trans prec emax E T -> symmetric_trans prec emax T ->
    reads prec emax wf w -> reads_opt prec emax fsf fs -> K * uround prec <= 1 ->
    exists sections,
      @butter_dyn _ (SFNum prec emax szero) T (machine_eps prec) sort order [wf] (Some bt) analog (Some OutSos) fsf = Ok (DSos sections) /\
      mixture_zero_phase prec emax szero (3 * (order + 1)) K rho g sections.
Proof.
  intros Hb Ha Hv Ho HE. destruct (butter_exact w fs bt analog order Hb Ha Hv) as (h & Eh & _ & Sh & Lh & Lp & Ez & Es). pose proof (edge_digital bt w fs Hb Hv) as Hv'.
  pose proof (butter_gain bt analog order [w] fs Ha Hv' Ho h (Ez 0 isort)) as Kh.
  assert (Zh : ~ In C0 (zk_z h)).
  { destruct (band bt (buttap_dyn order) (warped_freq false (norm_freq w fs))) as [g0| | |] eqn:Eg; try discriminate Eh. cbn [bind] in Eh. exact (digital_zeros g0 h Eh (band_zeros bt (buttap_dyn order) _ g0 Hb eq_refl Eg)). }
  assert (TT : forall sort l, is_sort sort -> butter_dyn 0 sort order [w] (Some bt) analog (Some OutSos) fs = Ok (DSos l) -> taps l = S (length (zk_p h))).
  { intros sort l Hs El. exact (butter_taps bt analog order [w] fs Ha Hv' Ho sort h l Hs (Ez 0 sort) Kh Zh El). }
  destruct (C113_butter_filtfilt order w fs bt analog E Hb Ha Hv Ho HE) as (Kf & HKf & P).
  assert (Ex : exists l0, realises l0 h /\ taps l0 = S (length (zk_p h))).
  { destruct (Es isort (list_sort_sort _ isort_list_sort)) as (l & El & R). exists l. split; [exact R|]. exact (TT isort l (list_sort_sort _ isort_list_sort) El). }
  destruct (zero_mix_float h Kf HKf Sh Lh Ex) as (K & rho & HK & HKK & Hr & Q). exists K, rho, (dgain_sqr h). split; [exact HK|]. split; [exact Hr|]. split.
  { intros theta. destruct (C57_butter_digital 0 isort order [w] bt analog fs Ho Ha Hv') as (f & Ef & G & _). rewrite Ez in Ef. injection Ef as <-. exact (G theta). }
  intros prec emax szero T sort wf fsf Hpe Hs HT HS Rw Rf Hu. destruct (u_half prec (proj1 Hpe)) as [U0 _].
  destruct (P prec emax szero T sort wf fsf Hpe Hs HT HS Rw Rf) as (lf & l & E1 & E2 & F). { eapply Rle_trans; [|exact Hu]. apply Rmult_le_compat_r; lra. }
  exists lf. split; [exact E1|]. destruct (Es sort (list_sort_sort sort Hs)) as (l2 & E3 & Rl). assert (l2 = l) by congruence. subst l2.
  exact (Q prec emax szero _ lf l Hpe Rl (TT sort l (list_sort_sort sort Hs) E2) F).
Qed.
Print Assumptions C120_butter_zero_phase_mixture.

Theorem C120_cheby1_zero_phase_mixture (order : nat) (rp w : R) (fs : option R) (bt : FilterBandType) (analog : option bool) (E : R) :
  (bt = Lowpass \/ bt = Highpass) -> analog <> Some true -> valid_edge false w fs -> (0 < order)%nat -> 0 < rp -> 0 <= E ->
  exists K rho g, 1 <= K /\ 0 < rho < 1 /\
    (forall theta,
     (let (a, b) := band_ratio bt (normalised [w] fs) theta in (b <> 0 -> g theta = 1 / (1 + (Rpower 10 (rp / 10) - 1) * chebT order (a / b) ^ 2)) /\ (b = 0 -> g theta = 0))) /\
    forall prec emax szero (T : Trans spec_float) sort rpf wf fsf,
    (1 < prec < emax)%Z -> is_list_sort sort -> accurate_trans prec emax E T -> symmetric_trans prec emax T ->
    reads prec emax rpf rp -> reads prec emax wf w -> reads_opt prec emax fsf fs -> K * uround prec <= 1 ->
    exists sections,
      @cheby1_dyn _ (SFNum prec emax szero) T (machine_eps prec) sort order rpf [wf] (Some bt) analog (Some OutSos) fsf = Ok (DSos sections) /\
      mixture_zero_phase prec emax szero (3 * (order + 1)) K rho g sections.
Proof.
  intros Hb Ha Hv Ho Hrp HE. destruct (cheby1_exact w fs bt analog order Hb Ha Hv rp Hrp Ho) as (h & Eh & _ & Sh & Lh & Lp & Ez & Es). pose proof (edge_digital bt w fs Hb Hv) as Hv'.
  assert (Zh : ~ In C0 (zk_z h)).
  { destruct (band bt (cheb1ap_dyn order rp) (warped_freq false (norm_freq w fs))) as [g0| | |] eqn:Eg; try discriminate Eh. cbn [bind] in Eh. exact (digital_zeros g0 h Eh (band_zeros bt (cheb1ap_dyn order rp) _ g0 Hb (cheb_zeros rp order) Eg)). }
  assert (TT : forall sort l, is_sort sort -> cheby1_dyn 0 sort order rp [w] (Some bt) analog (Some OutSos) fs = Ok (DSos l) -> taps l = S (length (zk_p h))).
  { intros sort l Hs El. exact (cheby1_taps bt analog order [w] fs Ha Hv' Ho rp Hrp sort h l Hs (Ez 0 sort) Zh El). }
  destruct (C113_cheby1_filtfilt order rp w fs bt analog E Hb Ha Hv Ho Hrp HE) as (Kf & HKf & P).
  assert (Ex : exists l0, realises l0 h /\ taps l0 = S (length (zk_p h))).
  { destruct (Es isort (list_sort_sort _ isort_list_sort)) as (l & El & R). exists l. split; [exact R|]. exact (TT isort l (list_sort_sort _ isort_list_sort) El). }
  destruct (zero_mix_float h Kf HKf Sh Lh Ex) as (K & rho & HK & HKK & Hr & Q). exists K, rho, (dgain_sqr h). split; [exact HK|]. split; [exact Hr|]. split.
  { intros theta. destruct (C64_cheby1_digital 0 isort order rp [w] bt analog fs Ho Hrp Ha Hv') as (f & Ef & _ & _ & _ & _ & G & _). rewrite Ez in Ef. injection Ef as <-.
    specialize (G theta). destruct (band_ratio bt (normalised [w] fs) theta) as [a b]. destruct G as (G1 & G2 & _). split; [exact G1|exact G2]. }
  intros prec emax szero T sort rpf wf fsf Hpe Hs HT HS Rr Rw Rf Hu. destruct (u_half prec (proj1 Hpe)) as [U0 _].
  destruct (P prec emax szero T sort rpf wf fsf Hpe Hs HT HS Rr Rw Rf) as (lf & l & E1 & E2 & F). { eapply Rle_trans; [|exact Hu]. apply Rmult_le_compat_r; lra. }
  exists lf. split; [exact E1|]. destruct (Es sort (list_sort_sort sort Hs)) as (l2 & E3 & Rl). assert (l2 = l) by congruence. subst l2.
  exact (Q prec emax szero _ lf l Hpe Rl (TT sort l (list_sort_sort sort Hs) E2) F).
Qed.
Print Assumptions C120_cheby1_zero_phase_mixture.

Theorem C120_butter_band_zero_phase_mixture (order : nat) (w0 w1 : R) (fs : option R) (bt : FilterBandType) (analog : option bool) (E : R) :
  (bt = Bandpass \/ bt = Bandstop) -> analog <> Some true -> valid_band false w0 w1 fs -> (0 < order)%nat -> 0 <= E ->
  (Nat.odd order = true -> ~ double_pole bt 1 (edge_freq false w0 fs) (edge_freq false w1 fs)) ->
  exists K rho g, 1 <= K /\ 0 < rho < 1 /\
    (forall theta,
     (let (a, b) := band_ratio bt (normalised [w0; w1] fs) theta in (b <> 0 -> g theta = 1 / (1 + (a / b) ^ (2 * order))) /\ (b = 0 -> g theta = 0))) /\
    forall prec emax szero (T : Trans spec_float) sort w0f w1f fsf,
    (1 < prec < emax)%Z -> is_list_sort sort -> accurate_trans prec emax E T -> symmetric_trans prec emax T ->
    reads prec emax w0f w0 -> reads prec emax w1f w1 -> reads_opt prec emax fsf fs -> K * uround prec <= 1 ->
    exists sections,
      @butter_dyn _ (SFNum prec emax szero) T (machine_eps prec) sort order [w0f; w1f] (Some bt) analog (Some OutSos) fsf = Ok (DSos sections) /\
      mixture_zero_phase prec emax szero (3 * (2 * order + 1)) K rho g sections.
Proof.
  intros Hb Ha Hv Ho HE ND. destruct (butter_exact2 w0 w1 fs bt analog order Hb Ha Hv) as (h & Eh & _ & Sh & Lh & Lp & Ez & Es). pose proof (band_digital bt w0 w1 fs Hb Hv) as Hv'.
  pose proof (butter_gain bt analog order [w0; w1] fs Ha Hv' Ho h (Ez 0 isort)) as Kh.
  assert (Zh : ~ In C0 (zk_z h)) by exact (staged_zeros _ _ _ _ _ _ _ (butt_staged E w0 w1 0 fs bt order HE Hb Hv ND) h Eh).
  assert (TT : forall sort l, is_sort sort -> butter_dyn 0 sort order [w0; w1] (Some bt) analog (Some OutSos) fs = Ok (DSos l) -> taps l = S (length (zk_p h))).
  { intros sort l Hs El. exact (butter_taps bt analog order [w0; w1] fs Ha Hv' Ho sort h l Hs (Ez 0 sort) Kh Zh El). }
  destruct (C113_butter_band_filtfilt order w0 w1 fs bt analog E Hb Ha Hv Ho HE ND) as (Kf & HKf & P).
  assert (Ex : exists l0, realises l0 h /\ taps l0 = S (length (zk_p h))).
  { destruct (Es isort (list_sort_sort _ isort_list_sort)) as (l & El & R). exists l. split; [exact R|]. exact (TT isort l (list_sort_sort _ isort_list_sort) El). }
  destruct (zero_mix_float h Kf HKf Sh Lh Ex) as (K & rho & HK & HKK & Hr & Q). exists K, rho, (dgain_sqr h). split; [exact HK|]. split; [exact Hr|]. split.
  { intros theta. destruct (C57_butter_digital 0 isort order [w0; w1] bt analog fs Ho Ha Hv') as (f & Ef & G & _). rewrite Ez in Ef. injection Ef as <-. exact (G theta). }
  intros prec emax szero T sort w0f w1f fsf Hpe Hs HT HS R0 R1 Rf Hu. destruct (u_half prec (proj1 Hpe)) as [U0 _].
  destruct (P prec emax szero T sort w0f w1f fsf Hpe Hs HT HS R0 R1 Rf) as (lf & l & E1 & E2 & F). { eapply Rle_trans; [|exact Hu]. apply Rmult_le_compat_r; lra. }
  exists lf. split; [exact E1|]. destruct (Es sort (list_sort_sort sort Hs)) as (l2 & E3 & Rl). assert (l2 = l) by congruence. subst l2.
  exact (Q prec emax szero _ lf l Hpe Rl (TT sort l (list_sort_sort sort Hs) E2) F).
Qed.
Print Assumptions C120_butter_band_zero_phase_mixture.

Theorem C120_cheby1_band_zero_phase_mixture (order : nat) (rp w0 w1 : R) (fs : option R) (bt : FilterBandType) (analog : option bool) (E : R) :
  (bt = Bandpass \/ bt = Bandstop) -> analog <> Some true -> valid_band false w0 w1 fs -> (0 < order)%nat -> 0 < rp -> 0 <= E ->
  (Nat.odd order = true -> ~ double_pole bt (cheb_pole order rp) (edge_freq false w0 fs) (edge_freq false w1 fs)) ->
  exists K rho g, 1 <= K /\ 0 < rho < 1 /\
    (forall theta,
     (let (a, b) := band_ratio bt (normalised [w0; w1] fs) theta in (b <> 0 -> g theta = 1 / (1 + (Rpower 10 (rp / 10) - 1) * chebT order (a / b) ^ 2)) /\ (b = 0 -> g theta = 0))) /\
    forall prec emax szero (T : Trans spec_float) sort rpf w0f w1f fsf,
    (1 < prec < emax)%Z -> is_list_sort sort -> accurate_trans prec emax E T -> symmetric_trans prec emax T ->
    reads prec emax rpf rp -> reads prec emax w0f w0 -> reads prec emax w1f w1 -> reads_opt prec emax fsf fs -> K * uround prec <= 1 ->
    exists sections,
      @cheby1_dyn _ (SFNum prec emax szero) T (machine_eps prec) sort order rpf [w0f; w1f] (Some bt) analog (Some OutSos) fsf = Ok (DSos sections) /\
      mixture_zero_phase prec emax szero (3 * (2 * order + 1)) K rho g sections.
Proof.
  intros Hb Ha Hv Ho Hrp HE ND. destruct (cheby1_exact2 w0 w1 fs bt analog order Hb Ha Hv rp Hrp Ho) as (h & Eh & _ & Sh & Lh & Lp & Ez & Es). pose proof (band_digital bt w0 w1 fs Hb Hv) as Hv'.
  assert (Zh : ~ In C0 (zk_z h)) by exact (staged_zeros _ _ _ _ _ _ _ (cheb_staged E w0 w1 rp fs bt order HE Hb Hv Hrp ND) h Eh).
  assert (TT : forall sort l, is_sort sort -> cheby1_dyn 0 sort order rp [w0; w1] (Some bt) analog (Some OutSos) fs = Ok (DSos l) -> taps l = S (length (zk_p h))).
  { intros sort l Hs El. exact (cheby1_taps bt analog order [w0; w1] fs Ha Hv' Ho rp Hrp sort h l Hs (Ez 0 sort) Zh El). }
  destruct (C113_cheby1_band_filtfilt order rp w0 w1 fs bt analog E Hb Ha Hv Ho Hrp HE ND) as (Kf & HKf & P).
  assert (Ex : exists l0, realises l0 h /\ taps l0 = S (length (zk_p h))).
  { destruct (Es isort (list_sort_sort _ isort_list_sort)) as (l & El & R). exists l. split; [exact R|]. exact (TT isort l (list_sort_sort _ isort_list_sort) El). }
  destruct (zero_mix_float h Kf HKf Sh Lh Ex) as (K & rho & HK & HKK & Hr & Q). exists K, rho, (dgain_sqr h). split; [exact HK|]. split; [exact Hr|]. split.
  { intros theta. destruct (C64_cheby1_digital 0 isort order rp [w0; w1] bt analog fs Ho Hrp Ha Hv') as (f & Ef & _ & _ & _ & _ & G & _). rewrite Ez in Ef. injection Ef as <-.
    specialize (G theta). destruct (band_ratio bt (normalised [w0; w1] fs) theta) as [a b]. destruct G as (G1 & G2 & _). split; [exact G1|exact G2]. }
  intros prec emax szero T sort rpf w0f w1f fsf Hpe Hs HT HS Rr R0 R1 Rf Hu. destruct (u_half prec (proj1 Hpe)) as [U0 _].
  destruct (P prec emax szero T sort rpf w0f w1f fsf Hpe Hs HT HS Rr R0 R1 Rf) as (lf & l & E1 & E2 & F). { eapply Rle_trans; [|exact Hu]. apply Rmult_le_compat_r; lra. }
  exists lf. split; [exact E1|]. destruct (Es sort (list_sort_sort sort Hs)) as (l2 & E3 & Rl). assert (l2 = l) by congruence. subst l2.
  exact (Q prec emax szero _ lf l Hpe Rl (TT sort l (list_sort_sort sort Hs) E2) F).
Qed.
Print Assumptions C120_cheby1_band_zero_phase_mixture.

Theorem C120_cheby2_zero_phase_mixture (order : nat) (rp rs w : R) (fs : option R) (analog : option bool) (E : R) :
  analog <> Some true -> valid_edge false w fs -> (0 < order)%nat -> 0 <= rp -> 0 < rs -> 0 <= E ->
  exists K rho g, 1 <= K /\ 0 < rho < 1 /\
    (forall theta,
     (let (a, b) := band_ratio Lowpass (normalised [w] fs) theta in
     (a = 0 -> g theta = 1) /\ (a <> 0 -> chebT order (b / a) = 0 -> g theta = 0) /\
     (a <> 0 -> chebT order (b / a) <> 0 -> g theta = 1 / (1 + (Rpower 10 (rs / 10) - 1) / chebT order (b / a) ^ 2)))) /\
    forall prec emax szero (T : Trans spec_float) sort rpf rsf wf fsf,
    (1 < prec < emax)%Z -> is_list_sort sort -> accurate_trans prec emax E T -> symmetric_trans prec emax T ->
    reads prec emax rpf rp -> reads prec emax rsf rs -> reads prec emax wf w -> reads_opt prec emax fsf fs -> K * uround prec <= 1 ->
    exists sections,
      @iirfilter_dyn _ (SFNum prec emax szero) T (machine_eps prec) sort order [wf] (Some rpf) (Some rsf) (Some Lowpass) (Some ChebyshevII) analog (Some OutSos) fsf = Ok (DSos sections) /\
      mixture_zero_phase prec emax szero (3 * (order + 1)) K rho g sections.
Proof.
  intros Ha Hv Hn Hp Hr HE. destruct (cheby2_exact order rp rs w fs analog Hn Hp Hr Ha Hv) as (h & Eh & _ & Sh & Lh & _ & _ & _ & Es & G).
  pose proof (fun sort l Hs El => cheby2_taps order rp rs w fs analog Hn Hp Hr Ha Hv sort l h Hs Eh El) as TT.
  destruct (C115_cheby2_filtfilt order rp rs w fs analog E Ha Hv Hn Hp Hr HE) as (Kf & HKf & P).
  assert (Ex : exists l0, realises l0 h /\ taps l0 = S (length (zk_p h))).
  { destruct (Es isort (list_sort_sort _ isort_list_sort)) as (l & El & R). exists l. split; [exact R|]. exact (TT isort l (list_sort_sort _ isort_list_sort) El). }
  destruct (zero_mix_float h Kf HKf Sh Lh Ex) as (K & rho & HK & HKK & Hr' & Q). exists K, rho, (dgain_sqr h). split; [exact HK|]. split; [exact Hr'|]. split; [exact G|].
  intros prec emax szero T sort rpf rsf wf fsf Hpe Hs HT HS Rp Rs Rw Rf Hu. destruct (u_half prec (proj1 Hpe)) as [U0 _].
  destruct (P prec emax szero T sort rpf rsf wf fsf Hpe Hs HT HS Rp Rs Rw Rf) as (lf & l & E1 & E2 & F). { eapply Rle_trans; [|exact Hu]. apply Rmult_le_compat_r; lra. }
  exists lf. split; [exact E1|]. destruct (Es sort (list_sort_sort sort Hs)) as (l2 & E3 & Rl). assert (l2 = l) by congruence. subst l2.
  exact (Q prec emax szero _ lf l Hpe Rl (TT sort l (list_sort_sort sort Hs) E2) F).
Qed.
Print Assumptions C120_cheby2_zero_phase_mixture.

Theorem C120_cheby2_band_zero_phase_mixture (order : nat) (rp rs w0 w1 : R) (fs : option R) (analog : option bool) (E : R) :
  analog <> Some true -> valid_band false w0 w1 fs -> (0 < order)%nat -> 0 <= rp -> 0 < rs -> 0 <= E ->
  (Nat.odd order = true -> ~ double_pole Bandpass (cheb2_pole order rs) (edge_freq false w0 fs) (edge_freq false w1 fs)) ->
  exists K rho g, 1 <= K /\ 0 < rho < 1 /\
    (forall theta,
     (let (a, b) := band_ratio Bandpass (normalised [w0; w1] fs) theta in
     (a = 0 -> g theta = 1) /\ (a <> 0 -> chebT order (b / a) = 0 -> g theta = 0) /\
     (a <> 0 -> chebT order (b / a) <> 0 -> g theta = 1 / (1 + (Rpower 10 (rs / 10) - 1) / chebT order (b / a) ^ 2)))) /\
    forall prec emax szero (T : Trans spec_float) sort rpf rsf w0f w1f fsf,
    (1 < prec < emax)%Z -> is_list_sort sort -> accurate_trans prec emax E T -> symmetric_trans prec emax T ->
    reads prec emax rpf rp -> reads prec emax rsf rs -> reads prec emax w0f w0 -> reads prec emax w1f w1 -> reads_opt prec emax fsf fs -> K * uround prec <= 1 ->
    exists sections,
      @iirfilter_dyn _ (SFNum prec emax szero) T (machine_eps prec) sort order [w0f; w1f] (Some rpf) (Some rsf) (Some Bandpass) (Some ChebyshevII) analog (Some OutSos) fsf = Ok (DSos sections) /\
      mixture_zero_phase prec emax szero (3 * (2 * order + 1)) K rho g sections.
Proof.
  intros Ha Hv Hn Hp Hr HE ND. destruct (pass_exact order rp rs w0 w1 fs analog Hn Hp Hr Ha Hv) as (h & Eh & _ & Sh & Lh & _ & _ & _ & Es & G).
  pose proof (fun sort l Hs El => pass_taps order rp rs w0 w1 fs analog Hn Hp Hr Ha Hv ND sort l h Hs Eh El) as TT.
  destruct (C119_cheby2_band_filtfilt order rp rs w0 w1 fs analog E Ha Hv Hn Hp Hr HE ND) as (Kf & HKf & P).
  assert (Ex : exists l0, realises l0 h /\ taps l0 = S (length (zk_p h))).
  { destruct (Es isort (list_sort_sort _ isort_list_sort)) as (l & El & R). exists l. split; [exact R|]. exact (TT isort l (list_sort_sort _ isort_list_sort) El). }
  destruct (zero_mix_float h Kf HKf Sh Lh Ex) as (K & rho & HK & HKK & Hr' & Q). exists K, rho, (dgain_sqr h). split; [exact HK|]. split; [exact Hr'|]. split; [exact G|].
  intros prec emax szero T sort rpf rsf w0f w1f fsf Hpe Hs HT HS Rp Rs R0 R1 Rf Hu. destruct (u_half prec (proj1 Hpe)) as [U0 _].
  destruct (P prec emax szero T sort rpf rsf w0f w1f fsf Hpe Hs HT HS Rp Rs R0 R1 Rf) as (lf & l & E1 & E2 & F). { eapply Rle_trans; [|exact Hu]. apply Rmult_le_compat_r; lra. }
  exists lf. split; [exact E1|]. destruct (Es sort (list_sort_sort sort Hs)) as (l2 & E3 & Rl). assert (l2 = l) by congruence. subst l2.
  exact (Q prec emax szero _ lf l Hpe Rl (TT sort l (list_sort_sort sort Hs) E2) F).
Qed.
Print Assumptions C120_cheby2_band_zero_phase_mixture.

(** A constant 3 with an alternating disturbance of amplitude 1 (samples 4, 2, 4, 2, ...)
    through a second-order low-pass with its cutoff at half of Nyquist, run with zero
    phase: the constant stays and the disturbance is gone.  The hypotheses on the design
    are met as in C108 and C112. *)
Example C120_denoise_ex : exists K rho, 1 <= K /\ 0 < rho < 1 /\
  forall prec emax szero (T : Trans spec_float) wf d x, (1 < prec < emax)%Z -> accurate_trans prec emax 5 T -> symmetric_trans prec emax T ->
    reads prec emax wf (1 / 2) -> K * uround prec <= 1 -> 0 <= d -> (9 < length x)%nat -> Forall (finite prec emax) x ->
    (forall n, (n < length x)%nat -> Rabs (fval (nth n x (S754_zero false)) - (3 + (-1) ^ n)) <= d) -> K * (4 + d + ftiny prec emax) <= fmax prec emax ->
    exists sections y,
      @butter_dyn _ (SFNum prec emax szero) T (machine_eps prec) isort 2 [wf] (Some Lowpass) None (Some OutSos) None = Ok (DSos sections) /\
      @sosfiltfilt_dyn _ (SFNum prec emax szero) x sections = Ok y /\ length y = length x /\
      forall n, (n < length x)%nat -> Rabs (fval (nth n y (S754_zero false)) - 3) <= K * (uround prec * 4 + d + ftiny prec emax + 4 * (rho ^ n + rho ^ (length x - 1 - n))).
Proof.
  destruct (C120_butter_zero_phase_mixture 2 (1 / 2) None Lowpass None 5) as (K & rho & g & HK & Hr & G & Q); [left; reflexivity|discriminate|cbn; lra|lia|lra|].
  exists K, rho. split; [exact HK|]. split; [exact Hr|]. intros prec emax szero T wf d x Hpe HT HS Rw Hu Hd HL Fx Hx HM.
  destruct (Q prec emax szero T isort wf None Hpe isort_list_sort HT HS Rw Logic.I Hu) as (l & El & M).
  assert (CP : forall n, cos (PI * INR n) = (-1) ^ n).
  { induction n as [|n IH]; [cbn [INR pow]; rewrite Rmult_0_r; apply cos_0|]. rewrite S_INR. replace (PI * (INR n + 1)) with (PI * INR n + PI) by ring. rewrite neg_cos, IH. cbn [pow]. ring. }
  assert (G0 : g 0 = 1).
  { specialize (G 0). cbn [band_ratio normalised map nth] in G. destruct G as [G _]. replace (0 / 2) with 0 in G by field. replace (PI * (1 / 2) / 2) with (PI / 4) in G by field. rewrite sin_0, cos_0, sin_PI4, cos_PI4 in G.
    assert (S2 : sqrt 2 <> 0) by (apply Rgt_not_eq, sqrt_lt_R0; lra). rewrite G.
    - replace (0 * (1 / sqrt 2) / (1 * (1 / sqrt 2))) with 0 by (field; exact S2). cbn. field.
    - rewrite Rmult_1_l. unfold Rdiv. rewrite Rmult_1_l. apply Rinv_neq_0_compat, S2. }
  assert (GP : g PI = 0).
  { specialize (G PI). cbn [band_ratio normalised map nth] in G. destruct G as [_ G]. apply G. rewrite cos_PI2. ring. }
  destruct (M [mkTone 3 0 0; mkTone 1 PI 0] d x) as (y & Ey & Ly & _ & B).
  - cbn. lia.
  - repeat constructor; cbn; lra.
  - exact Hd.
  - exact Fx.
  - intros n Hn. specialize (Hx n Hn). cbn [mix fold_right angle t_amp t_freq t_phase]. unfold angle. cbn [t_freq t_phase]. rewrite Rmult_0_l, !Rplus_0_r, cos_0, CP, Rmult_1_r, Rmult_1_l. exact Hx.
  - cbn [total fold_right t_amp]. replace (3 + (1 + 0)) with 4 by ring. exact HM.
  - exists l, y. split; [exact El|]. split; [exact Ey|]. split; [exact Ly|]. intros n Hn. specialize (B n Hn). cbn [total mix_gain fold_right t_amp t_freq] in B. unfold angle in B. cbn [t_freq t_phase] in B.
    rewrite G0, GP, Rmult_0_l, !Rplus_0_r, cos_0 in B. replace (3 + 1) with 4 in B by ring. replace (3 * 1 * 1 + 1 * 0 * cos (PI * INR n)) with 3 in B by ring. exact B.
Qed.
