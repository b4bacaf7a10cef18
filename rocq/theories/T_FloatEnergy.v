(** C121 in floating point: designing a digital filter as sections and filtering with them, all
    in floats, does not increase the root energy of any signal by more than rounding, which
    adds K (u X + tiny) per sample in root mean square and does not build up over time. *)
From Coq Require Import Reals ZArith SpecFloat List Lia Lra Bool.
From Verif Require Import Base Num Trans M_Complex M_Filter M_Design Cx S_Design S_Filter S_Stable S_Float S_FloatFft S_FloatZpk S_FloatTrans S_FloatSos S_FloatBand S_FloatCheb2Band S_Bessel S_Energy S_FloatEnergy
  P_Sort P_Float P_FloatSos T_Iir T_FloatSos T_FloatResponse P_FloatBand P_FloatBandSos T_FloatBandSos T_FloatCheb2 T_FloatCheb2Band T_Energy P_FloatEnergy.
Import ListNotations.
Local Open Scope R_scope.

Lemma separated_0 l : separated 0 l.
Proof.
  apply Forall_forall. intros r _. destruct (Req_dec (cim r) 0) as [Z|Z]; [left; exact Z|right]. rewrite Rmult_0_r, Rmult_0_l. apply Rabs_pos_lt, Z.
Qed.

Theorem C121_butter_energy_in_floats (order : nat) (w : R) (fs : option R) (bt : FilterBandType) (analog : option bool) (E : R) :
  (bt = Lowpass \/ bt = Highpass) -> analog <> Some true -> valid_edge false w fs -> (0 < order)%nat -> 0 <= E ->
  exists K, 1 <= K /\ forall prec emax szero (T : Trans spec_float) sort wf fsf,
  (1 < prec < emax)%Z -> is_list_sort sort -> accurate_trans prec emax E T -> symmetric_trans prec emax T ->
  reads prec emax wf w -> reads_opt prec emax fsf fs -> K * uround prec <= 1 ->
  exists sections,
    @butter_dyn _ (SFNum prec emax szero) T (machine_eps prec) sort order [wf] (Some bt) analog (Some OutSos) fsf = Ok (DSos sections) /\
    energy_passes prec emax szero K sections.
Proof.
  intros Hb Ha Hv Ho HE. destruct (C109_butter_filter order w fs bt analog E Hb Ha Hv HE) as (K & HK & P). pose proof (edge_digital bt w fs Hb Hv) as Hd.
  exists K. split; [exact HK|]. intros prec emax szero T sort wf fsf Hpe Hs HT HS R0 R1 Hu.
  destruct (P prec emax szero T sort wf fsf Hpe Hs HT HS R0 R1 Hu) as (lf & l & E1 & E2 & F). exists lf. split; [exact E1|].
  pose proof (list_sort_is_sort sort Hs) as Hso. destruct (C57_butter_digital 0 sort order [w] bt analog fs Ho Ha Hd) as [f [Ef _]].
  destruct (butter_energy_sep 0 sort order [w] bt analog fs f (Rle_refl 0) Hso Ho Ha Hd Ef (separated_0 _) (separated_0 _)) as (l2 & E3 & Hg).
  assert (l2 = l) by congruence. subst l2. exact (energy_float K prec emax szero lf l HK Hpe Hg F).
Qed.
Print Assumptions C121_butter_energy_in_floats.

Theorem C121_cheby1_energy_in_floats (order : nat) (rp w : R) (fs : option R) (bt : FilterBandType) (analog : option bool) (E : R) :
  (bt = Lowpass \/ bt = Highpass) -> analog <> Some true -> valid_edge false w fs -> (0 < order)%nat -> 0 < rp -> 0 <= E ->
  exists K, 1 <= K /\ forall prec emax szero (T : Trans spec_float) sort rpf wf fsf,
  (1 < prec < emax)%Z -> is_list_sort sort -> accurate_trans prec emax E T -> symmetric_trans prec emax T ->
  reads prec emax rpf rp -> reads prec emax wf w -> reads_opt prec emax fsf fs -> K * uround prec <= 1 ->
  exists sections,
    @cheby1_dyn _ (SFNum prec emax szero) T (machine_eps prec) sort order rpf [wf] (Some bt) analog (Some OutSos) fsf = Ok (DSos sections) /\
    energy_passes prec emax szero K sections.
Proof.
  intros Hb Ha Hv Ho Hrp HE. destruct (C109_cheby1_filter order rp w fs bt analog E Hb Ha Hv Ho Hrp HE) as (K & HK & P). pose proof (edge_digital bt w fs Hb Hv) as Hd.
  exists K. split; [exact HK|]. intros prec emax szero T sort rpf wf fsf Hpe Hs HT HS R0 R1 R2 Hu.
  destruct (P prec emax szero T sort rpf wf fsf Hpe Hs HT HS R0 R1 R2 Hu) as (lf & l & E1 & E2 & F). exists lf. split; [exact E1|].
  pose proof (list_sort_is_sort sort Hs) as Hso. destruct (C64_cheby1_digital 0 sort order rp [w] bt analog fs Ho Hrp Ha Hd) as [f [Ef _]].
  destruct (cheby1_energy_sep 0 sort order rp [w] bt analog fs f (Rle_refl 0) Hso Ho Hrp Ha Hd Ef (separated_0 _) (separated_0 _)) as (l2 & E3 & Hg).
  assert (l2 = l) by congruence. subst l2. exact (energy_float K prec emax szero lf l HK Hpe Hg F).
Qed.
Print Assumptions C121_cheby1_energy_in_floats.

Theorem C121_butter_band_energy_in_floats (order : nat) (w0 w1 : R) (fs : option R) (bt : FilterBandType) (analog : option bool) (E : R) :
  (bt = Bandpass \/ bt = Bandstop) -> analog <> Some true -> valid_band false w0 w1 fs -> (0 < order)%nat -> 0 <= E ->
  (Nat.odd order = true -> ~ double_pole bt 1 (edge_freq false w0 fs) (edge_freq false w1 fs)) ->
  exists K, 1 <= K /\ forall prec emax szero (T : Trans spec_float) sort w0f w1f fsf,
  (1 < prec < emax)%Z -> is_list_sort sort -> accurate_trans prec emax E T -> symmetric_trans prec emax T ->
  reads prec emax w0f w0 -> reads prec emax w1f w1 -> reads_opt prec emax fsf fs -> K * uround prec <= 1 ->
  exists sections,
    @butter_dyn _ (SFNum prec emax szero) T (machine_eps prec) sort order [w0f; w1f] (Some bt) analog (Some OutSos) fsf = Ok (DSos sections) /\
    energy_passes prec emax szero K sections.
Proof.
  intros Hb Ha Hv Ho HE ND. destruct (C112_butter_band_filter order w0 w1 fs bt analog E Hb Ha Hv HE ND) as (K & HK & P). pose proof (band_digital bt w0 w1 fs Hb Hv) as Hd.
  exists K. split; [exact HK|]. intros prec emax szero T sort w0f w1f fsf Hpe Hs HT HS R0 R1 R2 Hu.
  destruct (P prec emax szero T sort w0f w1f fsf Hpe Hs HT HS R0 R1 R2 Hu) as (lf & l & E1 & E2 & F). exists lf. split; [exact E1|].
  pose proof (list_sort_is_sort sort Hs) as Hso. destruct (C57_butter_digital 0 sort order [w0; w1] bt analog fs Ho Ha Hd) as [f [Ef _]].
  destruct (butter_energy_sep 0 sort order [w0; w1] bt analog fs f (Rle_refl 0) Hso Ho Ha Hd Ef (separated_0 _) (separated_0 _)) as (l2 & E3 & Hg).
  assert (l2 = l) by congruence. subst l2. exact (energy_float K prec emax szero lf l HK Hpe Hg F).
Qed.
Print Assumptions C121_butter_band_energy_in_floats.

Theorem C121_cheby1_band_energy_in_floats (order : nat) (rp w0 w1 : R) (fs : option R) (bt : FilterBandType) (analog : option bool) (E : R) :
  (bt = Bandpass \/ bt = Bandstop) -> analog <> Some true -> valid_band false w0 w1 fs -> (0 < order)%nat -> 0 < rp -> 0 <= E ->
  (Nat.odd order = true -> ~ double_pole bt (cheb_pole order rp) (edge_freq false w0 fs) (edge_freq false w1 fs)) ->
  exists K, 1 <= K /\ forall prec emax szero (T : Trans spec_float) sort rpf w0f w1f fsf,
  (1 < prec < emax)%Z -> is_list_sort sort -> accurate_trans prec emax E T -> symmetric_trans prec emax T ->
  reads prec emax rpf rp -> reads prec emax w0f w0 -> reads prec emax w1f w1 -> reads_opt prec emax fsf fs -> K * uround prec <= 1 ->
  exists sections,
    @cheby1_dyn _ (SFNum prec emax szero) T (machine_eps prec) sort order rpf [w0f; w1f] (Some bt) analog (Some OutSos) fsf = Ok (DSos sections) /\
    energy_passes prec emax szero K sections.
Proof.
  intros Hb Ha Hv Ho Hrp HE ND. destruct (C112_cheby1_band_filter order rp w0 w1 fs bt analog E Hb Ha Hv Ho Hrp HE ND) as (K & HK & P). pose proof (band_digital bt w0 w1 fs Hb Hv) as Hd.
  exists K. split; [exact HK|]. intros prec emax szero T sort rpf w0f w1f fsf Hpe Hs HT HS R0 R1 R2 R3 Hu.
  destruct (P prec emax szero T sort rpf w0f w1f fsf Hpe Hs HT HS R0 R1 R2 R3 Hu) as (lf & l & E1 & E2 & F). exists lf. split; [exact E1|].
  pose proof (list_sort_is_sort sort Hs) as Hso. destruct (C64_cheby1_digital 0 sort order rp [w0; w1] bt analog fs Ho Hrp Ha Hd) as [f [Ef _]].
  destruct (cheby1_energy_sep 0 sort order rp [w0; w1] bt analog fs f (Rle_refl 0) Hso Ho Hrp Ha Hd Ef (separated_0 _) (separated_0 _)) as (l2 & E3 & Hg).
  assert (l2 = l) by congruence. subst l2. exact (energy_float K prec emax szero lf l HK Hpe Hg F).
Qed.
Print Assumptions C121_cheby1_band_energy_in_floats.

Theorem C121_cheby2_energy_in_floats (order : nat) (rp rs w : R) (fs : option R) (analog : option bool) (E : R) :
  analog <> Some true -> valid_edge false w fs -> (0 < order)%nat -> 0 <= rp -> 0 < rs -> 0 <= E ->
  exists K, 1 <= K /\ forall prec emax szero (T : Trans spec_float) sort rpf rsf wf fsf,
  (1 < prec < emax)%Z -> is_list_sort sort -> accurate_trans prec emax E T -> symmetric_trans prec emax T ->
  reads prec emax rpf rp -> reads prec emax rsf rs -> reads prec emax wf w -> reads_opt prec emax fsf fs -> K * uround prec <= 1 ->
  exists sections,
    @iirfilter_dyn _ (SFNum prec emax szero) T (machine_eps prec) sort order [wf] (Some rpf) (Some rsf) (Some Lowpass) (Some ChebyshevII) analog (Some OutSos) fsf = Ok (DSos sections) /\
    energy_passes prec emax szero K sections.
Proof.
  intros Ha Hv Ho Hp Hr HE. destruct (C115_cheby2_filter order rp rs w fs analog E Ha Hv Ho Hp Hr HE) as (K & HK & P). pose proof (edge_digital Lowpass w fs (or_introl eq_refl) Hv) as Hd.
  exists K. split; [exact HK|]. intros prec emax szero T sort rpf rsf wf fsf Hpe Hs HT HS R0 R1 R2 R3 Hu.
  destruct (P prec emax szero T sort rpf rsf wf fsf Hpe Hs HT HS R0 R1 R2 R3 Hu) as (lf & l & E1 & E2 & F). exists lf. split; [exact E1|].
  pose proof (list_sort_is_sort sort Hs) as Hso. destruct (cheby2_energy_sep 0 sort order rp rs [w] Lowpass analog fs (Rle_refl 0) Hso Ho Hp Hr Ha Hd (or_introl eq_refl) (fun f _ => conj (separated_0 _) (separated_0 _))) as (l2 & E3 & Hg).
  assert (l2 = l) by congruence. subst l2. exact (energy_float K prec emax szero lf l HK Hpe Hg F).
Qed.
Print Assumptions C121_cheby2_energy_in_floats.

Theorem C121_cheby2_band_energy_in_floats (order : nat) (rp rs w0 w1 : R) (fs : option R) (analog : option bool) (E : R) :
  analog <> Some true -> valid_band false w0 w1 fs -> (0 < order)%nat -> 0 <= rp -> 0 < rs -> 0 <= E ->
  (Nat.odd order = true -> ~ double_pole Bandpass (cheb2_pole order rs) (edge_freq false w0 fs) (edge_freq false w1 fs)) ->
  exists K, 1 <= K /\ forall prec emax szero (T : Trans spec_float) sort rpf rsf w0f w1f fsf,
  (1 < prec < emax)%Z -> is_list_sort sort -> accurate_trans prec emax E T -> symmetric_trans prec emax T ->
  reads prec emax rpf rp -> reads prec emax rsf rs -> reads prec emax w0f w0 -> reads prec emax w1f w1 -> reads_opt prec emax fsf fs -> K * uround prec <= 1 ->
  exists sections,
    @iirfilter_dyn _ (SFNum prec emax szero) T (machine_eps prec) sort order [w0f; w1f] (Some rpf) (Some rsf) (Some Bandpass) (Some ChebyshevII) analog (Some OutSos) fsf = Ok (DSos sections) /\
    energy_passes prec emax szero K sections.
Proof.
  intros Ha Hv Ho Hp Hr HE ND. destruct (C119_cheby2_band_filter order rp rs w0 w1 fs analog E Ha Hv Ho Hp Hr HE ND) as (K & HK & P). pose proof (band_digital Bandpass w0 w1 fs (or_introl eq_refl) Hv) as Hd.
  exists K. split; [exact HK|]. intros prec emax szero T sort rpf rsf w0f w1f fsf Hpe Hs HT HS R0 R1 R2 R3 R4 Hu.
  destruct (P prec emax szero T sort rpf rsf w0f w1f fsf Hpe Hs HT HS R0 R1 R2 R3 R4 Hu) as (lf & l & E1 & E2 & F). exists lf. split; [exact E1|].
  pose proof (list_sort_is_sort sort Hs) as Hso. destruct (cheby2_energy_sep 0 sort order rp rs [w0; w1] Bandpass analog fs (Rle_refl 0) Hso Ho Hp Hr Ha Hd (or_intror eq_refl) (fun f _ => conj (separated_0 _) (separated_0 _))) as (l2 & E3 & Hg).
  assert (l2 = l) by congruence. subst l2. exact (energy_float K prec emax szero lf l HK Hpe Hg F).
Qed.
Print Assumptions C121_cheby2_band_energy_in_floats.

(** The hypotheses are met in arbitrarily fine formats (C119_hyp_met), so the statement is
    about real designs: here the second-order band-pass from 2 to 4 Hz at 12 Hz. *)
Example C121_float_ex : exists prec emax T rf w0f w1f fsf sections K, (1 < prec < emax)%Z /\ 1 <= K /\ K * uround prec <= 1 /\
  @iirfilter_dyn _ (SFNum prec emax true) T (machine_eps prec) isort 2 [w0f; w1f] (Some rf) (Some rf) (Some Bandpass) (Some ChebyshevII) None (Some OutSos) (Some fsf) = Ok (DSos sections) /\
  energy_passes prec emax true K sections.
Proof.
  destruct C119_hyp_met as (A & _ & B & D). destruct (C121_cheby2_band_energy_in_floats 2 2 2 2 4 (Some 12) None 5) as (K & HK & Q); [discriminate|exact A|lia|lra|lra|lra|discriminate|].
  destruct (D K) as (prec & emax & T & rf & w0f & w1f & fsf & P1 & P2 & P3 & P4 & P5 & P6 & P7 & P8).
  destruct (Q prec emax true T isort rf rf w0f w1f (Some fsf) P1 B P2 P3 P4 P4 P5 P6 P7 P8) as (l & El & Pl).
  exists prec, emax, T, rf, w0f, w1f, fsf, l, K. repeat (split; [first [exact P1|exact HK|exact P8|exact El]|]). exact Pl.
Qed.
