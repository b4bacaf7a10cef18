(** C116: a tone through zero-phase filtering (sosfiltfilt), with the filter designed and
    run in floating point.  For every digital Butterworth or Chebyshev I filter and every
    Chebyshev II low-pass there are constants such that at every fine enough format, for
    tones of every frequency, what comes out of the sections designed in floats is the tone
    times the squared gain of the textbook formula, with no change of phase, up to transients
    that decay away from both ends and rounding that does not accumulate.
    C115 (last part): zero-phase filtering with a Chebyshev II low-pass designed in floats. *)
From Coq Require Import Reals ZArith SpecFloat List Lia Lra Bool.
From Flocq Require Import Core BinarySingleNaN.
From Verif Require Import Base Num Trans M_Complex M_Filter M_Design Cx S_Design S_Filter S_Stable S_Float S_FloatFft S_FloatZpk S_FloatTrans S_FloatSos S_FloatBand S_ToneZero S_Bessel
  P_Sort P_Float P_FloatStats P_FloatMed P_FloatZi P_FloatPoly P_FloatDesign T_FloatDesign P_Iir T_Iir P_Sos T_Sos P_FloatI0 P_FloatSosCore P_FloatSosDesign T_FloatSos T_FloatResponse
  P_FloatBand P_FloatBandStage T_FloatBand P_FloatBandMate P_FloatBandSos T_FloatBandSos P_Cheb P_FloatFiltDesign T_FloatFiltDesign T_FloatTone T_FloatCheb2 P_ToneZero.
Import ListNotations.
Local Open Scope R_scope.

(** ** Zero-phase filtering with a Chebyshev II low-pass *)
Section Facts.
Variables (order : nat) (rp rs w : R) (fs : option R) (analog : option bool).
Hypothesis Hn : (0 < order)%nat.
Hypothesis Hp : 0 <= rp.
Hypothesis Hr : 0 < rs.
Hypothesis Ha : analog <> Some true.
Hypothesis Hv : valid_edge false w fs.
Lemma cheby2_facts h : (let! g := band Lowpass (cheb2ap_dyn order rs) (warped_freq false (norm_freq w fs)) in to_digital false g) = Ok h ->
  zk_k h <> 0 /\ ~ In C0 (zk_z h).
Proof.
  intros Eh. destruct (cheby2_exact order rp rs w fs analog Hn Hp Hr Ha Hv) as (h' & Eh' & _ & _ & _ & _ & _ & _ & _ & G). rewrite Eh in Eh'. injection Eh' as <-. split.
  - specialize (G 0). cbn [band_ratio] in G. apply (gain_nonzero h 0 1); [|lra]. apply G. unfold Rdiv. rewrite Rmult_0_l, sin_0. ring.
  - exact (staged_zeros _ _ _ _ _ _ _ (low_mates 0 w rs fs order (Rle_refl 0) Hn Hr Hv) h Eh).
Qed.
Lemma cheby2_taps sort l h : is_sort sort -> (let! g := band Lowpass (cheb2ap_dyn order rs) (warped_freq false (norm_freq w fs)) in to_digital false g) = Ok h ->
  iirfilter_dyn 0 sort order [w] (Some rp) (Some rs) (Some Lowpass) (Some ChebyshevII) analog (Some OutSos) fs = Ok (DSos l) -> taps l = S (length (zk_p h)).
Proof.
  intros Hs Eh El. destruct (cheby2_exact order rp rs w fs analog Hn Hp Hr Ha Hv) as (h' & Eh' & Rh & _ & Lh & Lp & _). rewrite Eh in Eh'. injection Eh' as <-.
  destruct (cheby2_facts h Eh) as [K Z]. rewrite (cheby2_tail order rp rs w fs analog Hp Hr Ha Hv), <- bind_assoc, Eh in El. cbn [bind unwrap_or] in El.
  apply (finish_taps sort order h l Hs Rh Lh ltac:(lia) K Z). exact El.
Qed.
End Facts.

Theorem C115_cheby2_filtfilt (order : nat) (rp rs w : R) (fs : option R) (analog : option bool) (E : R) :
  analog <> Some true -> valid_edge false w fs -> (0 < order)%nat -> 0 <= rp -> 0 < rs -> 0 <= E ->
  exists K, 1 <= K /\ forall prec emax szero (T : Trans spec_float) sort rpf rsf wf fsf,
  (1 < prec < emax)%Z -> is_list_sort sort -> accurate_trans prec emax E T -> symmetric_trans prec emax T ->
  reads prec emax rpf rp -> reads prec emax rsf rs -> reads prec emax wf w -> reads_opt prec emax fsf fs -> K * uround prec <= 1 ->
  exists lf l,
    @iirfilter_dyn _ (SFNum prec emax szero) T (machine_eps prec) sort order [wf] (Some rpf) (Some rsf) (Some Lowpass) (Some ChebyshevII) analog (Some OutSos) fsf = Ok (DSos lf) /\
    iirfilter_dyn 0 sort order [w] (Some rp) (Some rs) (Some Lowpass) (Some ChebyshevII) analog (Some OutSos) fs = Ok (DSos l) /\
    forall x X, (3 * (order + 1) < length x)%nat -> Forall (finite prec emax) x -> Forall (fun v => Rabs (fval v) <= X) x -> K * (X + ftiny prec emax) <= fmax prec emax ->
    exists yf y,
      @sosfiltfilt_dyn _ (SFNum prec emax szero) x lf = Ok yf /\ sosfiltfilt_dyn (map fval x) l = Ok y /\
      length yf = length x /\ length y = length x /\ Forall (finite prec emax) yf /\
      forall n, (n < length x)%nat -> Rabs (fval (nth n yf (S754_zero false)) - nth n y 0) <= K * (uround prec * X + ftiny prec emax).
Proof.
  intros Ha Hv Hn Hp Hr HE. destruct (cheby2_exact order rp rs w fs analog Hn Hp Hr Ha Hv) as (h & Eh & Rh & Sh & Lh & Lp & _ & _ & Es & _).
  destruct (cheby2_facts order rp rs w fs analog Hn Hp Hr Ha Hv h Eh) as [Kh Zh]. assert (L0 : (0 < length (zk_p h))%nat) by lia.
  destruct (checks_ev E w rs fs Hv) as (K1 & HK1 & Q1).
  destruct (evk_ff idx xprec xemax xsz E HE xT (Vs E w rs fs) (Vs_acc E w rs fs) (Vs_sym E w rs fs) _ _ (low_mates E w rs fs order HE Hn Hr Hv) h Eh Rh Sh Lh L0 Kh) as (K2 & HK2 & Q2).
  exists (K1 + K2). split; [lra|]. intros prec emax sz T sort rpf rsf wf fsf Hpe Hs HT HS Rp Rs Rw Rf Hu. set (i := mkIdx prec emax sz T wf rsf fsf).
  assert (Hi : fmt_ok idx xprec xemax (Vs E w rs fs) (K1 + K2) i).
  { split; [|split; [exact Hpe|exact Hu]]. split; [|exact HS]. split; [exact HT|]. split; [exact Rw|]. split; [exact Rs|exact Rf]. }
  destruct (Q1 i (fmt_mono idx xprec xemax _ (K1 + K2) K1 i Hi ltac:(lra))) as [C1 C2].
  assert (FO := filtfilt_ok_mono _ _ _ _ _ K2 (K1 + K2) (proj1 (u_half prec (proj1 Hpe))) ltac:(lra) (Q2 i (fmt_mono idx xprec xemax _ (K1 + K2) K2 i Hi ltac:(lra)) sort order Hs)).
  destruct FO as (sf & E1 & _ & P). destruct (Es sort (list_sort_sort sort Hs)) as (l & El & Rl).
  pose proof (cheby2_taps order rp rs w fs analog Hn Hp Hr Ha Hv sort l h (list_sort_sort sort Hs) Eh El) as Tl.
  exists sf, l. split; [rewrite <- E1; exact (cheby2_float order rp rs w fs false i analog _ sort rpf (Some OutSos) (not_analog analog Ha) Hp Hr Rp Rs Hv Rf C1 (fun _ => C2))|]. split; [exact El|]. intros x X Hx Fx Bx HM.
  destruct (P x X Fx Bx ltac:(rewrite Lp; lia) HM) as (yf & F1 & L1 & F2 & G). destruct (G l Rl Tl) as (y & F3 & L2 & B).
  exists yf, y. split; [exact F1|]. split; [exact F3|]. split; [exact L1|]. split; [exact L2|]. split; [exact F2|exact B].
Qed.
Print Assumptions C115_cheby2_filtfilt.

(** ** From the rounding bound to tones *)
Lemma zero_float h Kf : 1 <= Kf -> stable_digital h -> length (zk_z h) = length (zk_p h) -> (exists l0, realises l0 h /\ taps l0 = S (length (zk_p h))) ->
  exists K rho, 1 <= K /\ Kf <= K /\ 0 < rho < 1 /\
  forall theta prec emax szero pad lf l, (1 < prec < emax)%Z -> realises l h -> taps l = S (length (zk_p h)) ->
    (forall x X, (pad < length x)%nat -> Forall (finite prec emax) x -> Forall (fun v => Rabs (fval v) <= X) x -> Kf * (X + ftiny prec emax) <= fmax prec emax ->
    exists yf y,
      @sosfiltfilt_dyn _ (SFNum prec emax szero) x lf = Ok yf /\ sosfiltfilt_dyn (map fval x) l = Ok y /\
      length yf = length x /\ length y = length x /\ Forall (finite prec emax) yf /\
      forall n, (n < length x)%nat -> Rabs (fval (nth n yf (S754_zero false)) - nth n y 0) <= Kf * (uround prec * X + ftiny prec emax)) ->
    tone_zero_phase prec emax szero pad K rho (dgain_sqr h theta) theta lf.
Proof.
  intros HKf Sh Lh Ex. destruct (zero_core h _ Sh Lh Ex) as (Kt & rho & HKt & Hr & Q).
  exists (Kf + Kt), rho. split; [lra|]. split; [lra|]. split; [exact Hr|].
  intros theta prec emax szero pad lf l Hpe Rl Tl F A phi d x HL HA Hd Fx Hx HM. pose proof (tiny_pos prec emax) as TP. change (0 < ftiny prec emax) in TP. destruct (u_half prec (proj1 Hpe)) as [U0 U1].
  assert (Hx' : forall n, (n < length (map fval x))%nat -> Rabs (nth n (map fval x) 0 - A * cos (theta * INR n + phi)) <= d).
  { intros n Hn. rewrite map_length in Hn. change 0 with (fval (S754_zero false)). rewrite map_nth. apply Hx, Hn. }
  destruct (F x (A + d) HL Fx) as (yf & y & E1 & E2 & L1 & L2 & F2 & B).
  - apply Forall_forall. intros v Hv. apply (In_nth _ _ (S754_zero false)) in Hv. destruct Hv as [n [Hn <-]]. specialize (Hx n Hn).
    pose proof (COS_bound (theta * INR n + phi)) as CB. set (c := cos (theta * INR n + phi)) in *. set (v := fval (nth n x (S754_zero false))) in *.
    assert (Rabs (A * c) <= A) by (rewrite Rabs_mult, (Rabs_right A) by lra; assert (Rabs c <= 1) by (apply Rabs_le; lra); pose proof (Rabs_pos c); nra).
    replace v with (A * c + (v - A * c)) by ring. eapply Rle_trans; [apply Rabs_triang|]. lra.
  - eapply Rle_trans; [|exact HM]. apply Rmult_le_compat_r; lra.
  - exists yf. split; [exact E1|]. split; [exact L1|]. split; [exact F2|]. intros n Hn. specialize (B n Hn).
    assert (Hn' : (n < length (map fval x))%nat) by (rewrite map_length; exact Hn).
    pose proof (Q theta l A phi d _ y Rl Tl HA Hd Hx' E2 n Hn') as Tn. rewrite map_length in Tn. set (t := rho ^ n + rho ^ (length x - 1 - n)) in *.
    replace (fval (nth n yf (S754_zero false)) - A * dgain_sqr h theta * cos (theta * INR n + phi)) with
      ((fval (nth n yf (S754_zero false)) - nth n y 0) + (nth n y 0 - A * dgain_sqr h theta * cos (theta * INR n + phi))) by ring.
    eapply Rle_trans; [apply Rabs_triang|].
    assert (P : 0 <= A * t) by (apply Rmult_le_pos; [exact HA|]; apply Rplus_le_le_0_compat; apply pow_le; lra).
    assert (UA : 0 <= uround prec * A) by (apply Rmult_le_pos; lra).
    assert (UD : uround prec * d <= d) by nra.
    assert (Kf * (uround prec * (A + d) + ftiny prec emax) <= Kf * (uround prec * A + d + ftiny prec emax)) by (apply Rmult_le_compat_l; lra).
    assert (0 <= Kf * (A * t)) by (apply Rmult_le_pos; lra). assert (0 <= Kt * (uround prec * A + ftiny prec emax)) by (apply Rmult_le_pos; lra). nra.
Qed.

(** * C116 *)
Theorem C116_butter_zero_phase (order : nat) (w : R) (fs : option R) (bt : FilterBandType) (analog : option bool) (E : R) :
  (bt = Lowpass \/ bt = Highpass) -> analog <> Some true -> valid_edge false w fs -> (0 < order)%nat -> 0 <= E ->
  exists K rho, 1 <= K /\ 0 < rho < 1 /\
    forall prec emax szero (T : Trans spec_float) sort wf fsf,
    (1 < prec < emax)%Z -> is_list_sort sort -> accurate_trans prec emax E T -> symmetric_trans prec emax T ->
    reads prec emax wf w -> reads_opt prec emax fsf fs -> K * uround prec <= 1 ->
    exists sections,
      @butter_dyn _ (SFNum prec emax szero) T (machine_eps prec) sort order [wf] (Some bt) analog (Some OutSos) fsf = Ok (DSos sections) /\
      forall theta, exists g,
        (let (a, b) := band_ratio bt (normalised [w] fs) theta in (b <> 0 -> g = 1 / (1 + (a / b) ^ (2 * order))) /\ (b = 0 -> g = 0)) /\
        tone_zero_phase prec emax szero (3 * (order + 1)) K rho g theta sections.
Proof.
  intros Hb Ha Hv Ho HE. destruct (butter_exact w fs bt analog order Hb Ha Hv) as (h & Eh & _ & Sh & Lh & Lp & Ez & Es). pose proof (edge_digital bt w fs Hb Hv) as Hv'.
  pose proof (butter_gain bt analog order [w] fs Ha Hv' Ho h (Ez 0 isort)) as Kh.
  assert (Zh : ~ In C0 (zk_z h)).
  { destruct (band bt (buttap_dyn order) (warped_freq false (norm_freq w fs))) as [g0| | |] eqn:Eg; try discriminate Eh. cbn [bind] in Eh. exact (digital_zeros g0 h Eh (band_zeros bt (buttap_dyn order) _ g0 Hb eq_refl Eg)). }
  assert (TT : forall sort l, is_sort sort -> butter_dyn 0 sort order [w] (Some bt) analog (Some OutSos) fs = Ok (DSos l) -> taps l = S (length (zk_p h))).
  { intros sort l Hs El. exact (butter_taps bt analog order [w] fs Ha Hv' Ho sort h l Hs (Ez 0 sort) Kh Zh El). }
  destruct (C113_butter_filtfilt order w fs bt analog E Hb Ha Hv Ho HE) as (Kf & HKf & P).
  assert (Ex : exists l0, realises l0 h /\ taps l0 = S (length (zk_p h))).
  { destruct (Es isort (list_sort_sort _ isort_list_sort)) as (l & El & R). exists l. split; [exact R|]. exact (TT isort l (list_sort_sort _ isort_list_sort) El). }
  destruct (zero_float h Kf HKf Sh Lh Ex) as (K & rho & HK & HKK & Hr & Q). exists K, rho. split; [exact HK|]. split; [exact Hr|].
  intros prec emax szero T sort wf fsf Hpe Hs HT HS Rw Rf Hu. destruct (u_half prec (proj1 Hpe)) as [U0 _].
  destruct (P prec emax szero T sort wf fsf Hpe Hs HT HS Rw Rf) as (lf & l & E1 & E2 & F). { eapply Rle_trans; [|exact Hu]. apply Rmult_le_compat_r; lra. }
  exists lf. split; [exact E1|]. destruct (Es sort (list_sort_sort sort Hs)) as (l2 & E3 & Rl). assert (l2 = l) by congruence. subst l2.
  intros theta. exists (dgain_sqr h theta). split.
  - destruct (C57_butter_digital 0 isort order [w] bt analog fs Ho Ha Hv') as (f & Ef & G & _). rewrite Ez in Ef. injection Ef as <-. exact (G theta).
  - exact (Q theta prec emax szero _ lf l Hpe Rl (TT sort l (list_sort_sort sort Hs) E2) F).
Qed.
Print Assumptions C116_butter_zero_phase.

Theorem C116_cheby1_zero_phase (order : nat) (rp w : R) (fs : option R) (bt : FilterBandType) (analog : option bool) (E : R) :
  (bt = Lowpass \/ bt = Highpass) -> analog <> Some true -> valid_edge false w fs -> (0 < order)%nat -> 0 < rp -> 0 <= E ->
  exists K rho, 1 <= K /\ 0 < rho < 1 /\
    forall prec emax szero (T : Trans spec_float) sort rpf wf fsf,
    (1 < prec < emax)%Z -> is_list_sort sort -> accurate_trans prec emax E T -> symmetric_trans prec emax T ->
    reads prec emax rpf rp -> reads prec emax wf w -> reads_opt prec emax fsf fs -> K * uround prec <= 1 ->
    exists sections,
      @cheby1_dyn _ (SFNum prec emax szero) T (machine_eps prec) sort order rpf [wf] (Some bt) analog (Some OutSos) fsf = Ok (DSos sections) /\
      forall theta, exists g,
        (let (a, b) := band_ratio bt (normalised [w] fs) theta in (b <> 0 -> g = 1 / (1 + (Rpower 10 (rp / 10) - 1) * chebT order (a / b) ^ 2)) /\ (b = 0 -> g = 0)) /\
        tone_zero_phase prec emax szero (3 * (order + 1)) K rho g theta sections.
Proof.
  intros Hb Ha Hv Ho Hrp HE. destruct (cheby1_exact w fs bt analog order Hb Ha Hv rp Hrp Ho) as (h & Eh & _ & Sh & Lh & Lp & Ez & Es). pose proof (edge_digital bt w fs Hb Hv) as Hv'.
  assert (Zh : ~ In C0 (zk_z h)).
  { destruct (band bt (cheb1ap_dyn order rp) (warped_freq false (norm_freq w fs))) as [g0| | |] eqn:Eg; try discriminate Eh. cbn [bind] in Eh. exact (digital_zeros g0 h Eh (band_zeros bt (cheb1ap_dyn order rp) _ g0 Hb (cheb_zeros rp order) Eg)). }
  assert (TT : forall sort l, is_sort sort -> cheby1_dyn 0 sort order rp [w] (Some bt) analog (Some OutSos) fs = Ok (DSos l) -> taps l = S (length (zk_p h))).
  { intros sort l Hs El. exact (cheby1_taps bt analog order [w] fs Ha Hv' Ho rp Hrp sort h l Hs (Ez 0 sort) Zh El). }
  destruct (C113_cheby1_filtfilt order rp w fs bt analog E Hb Ha Hv Ho Hrp HE) as (Kf & HKf & P).
  assert (Ex : exists l0, realises l0 h /\ taps l0 = S (length (zk_p h))).
  { destruct (Es isort (list_sort_sort _ isort_list_sort)) as (l & El & R). exists l. split; [exact R|]. exact (TT isort l (list_sort_sort _ isort_list_sort) El). }
  destruct (zero_float h Kf HKf Sh Lh Ex) as (K & rho & HK & HKK & Hr & Q). exists K, rho. split; [exact HK|]. split; [exact Hr|].
  intros prec emax szero T sort rpf wf fsf Hpe Hs HT HS Rr Rw Rf Hu. destruct (u_half prec (proj1 Hpe)) as [U0 _].
  destruct (P prec emax szero T sort rpf wf fsf Hpe Hs HT HS Rr Rw Rf) as (lf & l & E1 & E2 & F). { eapply Rle_trans; [|exact Hu]. apply Rmult_le_compat_r; lra. }
  exists lf. split; [exact E1|]. destruct (Es sort (list_sort_sort sort Hs)) as (l2 & E3 & Rl). assert (l2 = l) by congruence. subst l2.
  intros theta. exists (dgain_sqr h theta). split.
  - destruct (C64_cheby1_digital 0 isort order rp [w] bt analog fs Ho Hrp Ha Hv') as (f & Ef & _ & _ & _ & _ & G & _). rewrite Ez in Ef. injection Ef as <-.
    specialize (G theta). destruct (band_ratio bt (normalised [w] fs) theta) as [a b]. destruct G as (G1 & G2 & _). split; [exact G1|exact G2].
  - exact (Q theta prec emax szero _ lf l Hpe Rl (TT sort l (list_sort_sort sort Hs) E2) F).
Qed.
Print Assumptions C116_cheby1_zero_phase.

(** Band-pass and band-stop; for an odd order the edges must not give a double pole. *)
Theorem C116_butter_band_zero_phase (order : nat) (w0 w1 : R) (fs : option R) (bt : FilterBandType) (analog : option bool) (E : R) :
  (bt = Bandpass \/ bt = Bandstop) -> analog <> Some true -> valid_band false w0 w1 fs -> (0 < order)%nat -> 0 <= E ->
  (Nat.odd order = true -> ~ double_pole bt 1 (edge_freq false w0 fs) (edge_freq false w1 fs)) ->
  exists K rho, 1 <= K /\ 0 < rho < 1 /\
    forall prec emax szero (T : Trans spec_float) sort w0f w1f fsf,
    (1 < prec < emax)%Z -> is_list_sort sort -> accurate_trans prec emax E T -> symmetric_trans prec emax T ->
    reads prec emax w0f w0 -> reads prec emax w1f w1 -> reads_opt prec emax fsf fs -> K * uround prec <= 1 ->
    exists sections,
      @butter_dyn _ (SFNum prec emax szero) T (machine_eps prec) sort order [w0f; w1f] (Some bt) analog (Some OutSos) fsf = Ok (DSos sections) /\
      forall theta, exists g,
        (let (a, b) := band_ratio bt (normalised [w0; w1] fs) theta in (b <> 0 -> g = 1 / (1 + (a / b) ^ (2 * order))) /\ (b = 0 -> g = 0)) /\
        tone_zero_phase prec emax szero (3 * (2 * order + 1)) K rho g theta sections.
Proof.
  intros Hb Ha Hv Ho HE ND. destruct (butter_exact2 w0 w1 fs bt analog order Hb Ha Hv) as (h & Eh & _ & Sh & Lh & Lp & Ez & Es). pose proof (band_digital bt w0 w1 fs Hb Hv) as Hv'.
  pose proof (butter_gain bt analog order [w0; w1] fs Ha Hv' Ho h (Ez 0 isort)) as Kh.
  assert (Zh : ~ In C0 (zk_z h)) by exact (staged_zeros _ _ _ _ _ _ _ (butt_staged E w0 w1 0 fs bt order HE Hb Hv ND) h Eh).
  assert (TT : forall sort l, is_sort sort -> butter_dyn 0 sort order [w0; w1] (Some bt) analog (Some OutSos) fs = Ok (DSos l) -> taps l = S (length (zk_p h))).
  { intros sort l Hs El. exact (butter_taps bt analog order [w0; w1] fs Ha Hv' Ho sort h l Hs (Ez 0 sort) Kh Zh El). }
  destruct (C113_butter_band_filtfilt order w0 w1 fs bt analog E Hb Ha Hv Ho HE ND) as (Kf & HKf & P).
  assert (Ex : exists l0, realises l0 h /\ taps l0 = S (length (zk_p h))).
  { destruct (Es isort (list_sort_sort _ isort_list_sort)) as (l & El & R). exists l. split; [exact R|]. exact (TT isort l (list_sort_sort _ isort_list_sort) El). }
  destruct (zero_float h Kf HKf Sh Lh Ex) as (K & rho & HK & HKK & Hr & Q). exists K, rho. split; [exact HK|]. split; [exact Hr|].
  intros prec emax szero T sort w0f w1f fsf Hpe Hs HT HS R0 R1 Rf Hu. destruct (u_half prec (proj1 Hpe)) as [U0 _].
  destruct (P prec emax szero T sort w0f w1f fsf Hpe Hs HT HS R0 R1 Rf) as (lf & l & E1 & E2 & F). { eapply Rle_trans; [|exact Hu]. apply Rmult_le_compat_r; lra. }
  exists lf. split; [exact E1|]. destruct (Es sort (list_sort_sort sort Hs)) as (l2 & E3 & Rl). assert (l2 = l) by congruence. subst l2.
  intros theta. exists (dgain_sqr h theta). split.
  - destruct (C57_butter_digital 0 isort order [w0; w1] bt analog fs Ho Ha Hv') as (f & Ef & G & _). rewrite Ez in Ef. injection Ef as <-. exact (G theta).
  - exact (Q theta prec emax szero _ lf l Hpe Rl (TT sort l (list_sort_sort sort Hs) E2) F).
Qed.
Print Assumptions C116_butter_band_zero_phase.

Theorem C116_cheby1_band_zero_phase (order : nat) (rp w0 w1 : R) (fs : option R) (bt : FilterBandType) (analog : option bool) (E : R) :
  (bt = Bandpass \/ bt = Bandstop) -> analog <> Some true -> valid_band false w0 w1 fs -> (0 < order)%nat -> 0 < rp -> 0 <= E ->
  (Nat.odd order = true -> ~ double_pole bt (cheb_pole order rp) (edge_freq false w0 fs) (edge_freq false w1 fs)) ->
  exists K rho, 1 <= K /\ 0 < rho < 1 /\
    forall prec emax szero (T : Trans spec_float) sort rpf w0f w1f fsf,
    (1 < prec < emax)%Z -> is_list_sort sort -> accurate_trans prec emax E T -> symmetric_trans prec emax T ->
    reads prec emax rpf rp -> reads prec emax w0f w0 -> reads prec emax w1f w1 -> reads_opt prec emax fsf fs -> K * uround prec <= 1 ->
    exists sections,
      @cheby1_dyn _ (SFNum prec emax szero) T (machine_eps prec) sort order rpf [w0f; w1f] (Some bt) analog (Some OutSos) fsf = Ok (DSos sections) /\
      forall theta, exists g,
        (let (a, b) := band_ratio bt (normalised [w0; w1] fs) theta in (b <> 0 -> g = 1 / (1 + (Rpower 10 (rp / 10) - 1) * chebT order (a / b) ^ 2)) /\ (b = 0 -> g = 0)) /\
        tone_zero_phase prec emax szero (3 * (2 * order + 1)) K rho g theta sections.
Proof.
  intros Hb Ha Hv Ho Hrp HE ND. destruct (cheby1_exact2 w0 w1 fs bt analog order Hb Ha Hv rp Hrp Ho) as (h & Eh & _ & Sh & Lh & Lp & Ez & Es). pose proof (band_digital bt w0 w1 fs Hb Hv) as Hv'.
  assert (Zh : ~ In C0 (zk_z h)) by exact (staged_zeros _ _ _ _ _ _ _ (cheb_staged E w0 w1 rp fs bt order HE Hb Hv Hrp ND) h Eh).
  assert (TT : forall sort l, is_sort sort -> cheby1_dyn 0 sort order rp [w0; w1] (Some bt) analog (Some OutSos) fs = Ok (DSos l) -> taps l = S (length (zk_p h))).
  { intros sort l Hs El. exact (cheby1_taps bt analog order [w0; w1] fs Ha Hv' Ho rp Hrp sort h l Hs (Ez 0 sort) Zh El). }
  destruct (C113_cheby1_band_filtfilt order rp w0 w1 fs bt analog E Hb Ha Hv Ho Hrp HE ND) as (Kf & HKf & P).
  assert (Ex : exists l0, realises l0 h /\ taps l0 = S (length (zk_p h))).
  { destruct (Es isort (list_sort_sort _ isort_list_sort)) as (l & El & R). exists l. split; [exact R|]. exact (TT isort l (list_sort_sort _ isort_list_sort) El). }
  destruct (zero_float h Kf HKf Sh Lh Ex) as (K & rho & HK & HKK & Hr & Q). exists K, rho. split; [exact HK|]. split; [exact Hr|].
  intros prec emax szero T sort rpf w0f w1f fsf Hpe Hs HT HS Rr R0 R1 Rf Hu. destruct (u_half prec (proj1 Hpe)) as [U0 _].
  destruct (P prec emax szero T sort rpf w0f w1f fsf Hpe Hs HT HS Rr R0 R1 Rf) as (lf & l & E1 & E2 & F). { eapply Rle_trans; [|exact Hu]. apply Rmult_le_compat_r; lra. }
  exists lf. split; [exact E1|]. destruct (Es sort (list_sort_sort sort Hs)) as (l2 & E3 & Rl). assert (l2 = l) by congruence. subst l2.
  intros theta. exists (dgain_sqr h theta). split.
  - destruct (C64_cheby1_digital 0 isort order rp [w0; w1] bt analog fs Ho Hrp Ha Hv') as (f & Ef & _ & _ & _ & _ & G & _). rewrite Ez in Ef. injection Ef as <-.
    specialize (G theta). destruct (band_ratio bt (normalised [w0; w1] fs) theta) as [a b]. destruct G as (G1 & G2 & _). split; [exact G1|exact G2].
  - exact (Q theta prec emax szero _ lf l Hpe Rl (TT sort l (list_sort_sort sort Hs) E2) F).
Qed.
Print Assumptions C116_cheby1_band_zero_phase.

Theorem C116_cheby2_zero_phase (order : nat) (rp rs w : R) (fs : option R) (analog : option bool) (E : R) :
  analog <> Some true -> valid_edge false w fs -> (0 < order)%nat -> 0 <= rp -> 0 < rs -> 0 <= E ->
  exists K rho, 1 <= K /\ 0 < rho < 1 /\
    forall prec emax szero (T : Trans spec_float) sort rpf rsf wf fsf,
    (1 < prec < emax)%Z -> is_list_sort sort -> accurate_trans prec emax E T -> symmetric_trans prec emax T ->
    reads prec emax rpf rp -> reads prec emax rsf rs -> reads prec emax wf w -> reads_opt prec emax fsf fs -> K * uround prec <= 1 ->
    exists sections,
      @iirfilter_dyn _ (SFNum prec emax szero) T (machine_eps prec) sort order [wf] (Some rpf) (Some rsf) (Some Lowpass) (Some ChebyshevII) analog (Some OutSos) fsf = Ok (DSos sections) /\
      forall theta, exists g,
        (let (a, b) := band_ratio Lowpass (normalised [w] fs) theta in
         (a = 0 -> g = 1) /\ (a <> 0 -> chebT order (b / a) = 0 -> g = 0) /\
         (a <> 0 -> chebT order (b / a) <> 0 -> g = 1 / (1 + (Rpower 10 (rs / 10) - 1) / chebT order (b / a) ^ 2))) /\
        tone_zero_phase prec emax szero (3 * (order + 1)) K rho g theta sections.
Proof.
  intros Ha Hv Hn Hp Hr HE. destruct (cheby2_exact order rp rs w fs analog Hn Hp Hr Ha Hv) as (h & Eh & _ & Sh & Lh & _ & _ & _ & Es & G).
  pose proof (fun sort l Hs El => cheby2_taps order rp rs w fs analog Hn Hp Hr Ha Hv sort l h Hs Eh El) as TT.
  destruct (C115_cheby2_filtfilt order rp rs w fs analog E Ha Hv Hn Hp Hr HE) as (Kf & HKf & P).
  assert (Ex : exists l0, realises l0 h /\ taps l0 = S (length (zk_p h))).
  { destruct (Es isort (list_sort_sort _ isort_list_sort)) as (l & El & R). exists l. split; [exact R|]. exact (TT isort l (list_sort_sort _ isort_list_sort) El). }
  destruct (zero_float h Kf HKf Sh Lh Ex) as (K & rho & HK & HKK & Hr' & Q). exists K, rho. split; [exact HK|]. split; [exact Hr'|].
  intros prec emax szero T sort rpf rsf wf fsf Hpe Hs HT HS Rp Rs Rw Rf Hu. destruct (u_half prec (proj1 Hpe)) as [U0 _].
  destruct (P prec emax szero T sort rpf rsf wf fsf Hpe Hs HT HS Rp Rs Rw Rf) as (lf & l & E1 & E2 & F). { eapply Rle_trans; [|exact Hu]. apply Rmult_le_compat_r; lra. }
  exists lf. split; [exact E1|]. destruct (Es sort (list_sort_sort sort Hs)) as (l2 & E3 & Rl). assert (l2 = l) by congruence. subst l2.
  intros theta. exists (dgain_sqr h theta). split; [exact (G theta)|]. exact (Q theta prec emax szero _ lf l Hpe Rl (TT sort l (list_sort_sort sort Hs) E2) F).
Qed.
Print Assumptions C116_cheby2_zero_phase.

(** The hypotheses on the design are met as in C108, C112 and C115, those on the signal as in
    C114_signal_ex.  The gains are not trivial: a second-order Butterworth low-pass with
    cutoff at half of Nyquist halves a tone there - 6 dB, twice the 3 dB of one pass. *)
Example C116_gain_ex : exists K rho, 1 <= K /\ 0 < rho < 1 /\
  forall prec emax szero (T : Trans spec_float) wf, (1 < prec < emax)%Z -> accurate_trans prec emax 5 T -> symmetric_trans prec emax T ->
    reads prec emax wf (1 / 2) -> K * uround prec <= 1 ->
    exists sections,
      @butter_dyn _ (SFNum prec emax szero) T (machine_eps prec) isort 2 [wf] (Some Lowpass) None (Some OutSos) None = Ok (DSos sections) /\
      tone_zero_phase prec emax szero 9 K rho (1 / 2) (PI / 2) sections.
Proof.
  destruct (C116_butter_zero_phase 2 (1 / 2) None Lowpass None 5) as (K & rho & HK & Hr & Q); [left; reflexivity|discriminate|cbn; lra|lia|lra|].
  exists K, rho. split; [exact HK|]. split; [exact Hr|]. intros prec emax szero T wf Hpe HT HS Rw Hu.
  destruct (Q prec emax szero T isort wf None Hpe isort_list_sort HT HS Rw Logic.I Hu) as (l & El & G). exists l. split; [exact El|].
  destruct (G (PI / 2)) as (g & Gn & Z). replace (1 / 2) with g; [exact Z|].
  cbn [band_ratio normalised map nth] in Gn. replace (PI * (1 / 2) / 2) with (PI / 4) in Gn by field. replace (PI / 2 / 2) with (PI / 4) in Gn by field. rewrite cos_PI4, sin_PI4 in Gn.
  assert (S : sqrt 2 <> 0) by (apply Rgt_not_eq, sqrt_lt_R0; lra). assert (Sq : 1 / sqrt 2 <> 0) by (unfold Rdiv; rewrite Rmult_1_l; apply Rinv_neq_0_compat, S).
  destruct Gn as [Gn _]. rewrite Gn by (apply Rmult_integral_contrapositive_currified; exact Sq). replace (1 / sqrt 2 * (1 / sqrt 2) / (1 / sqrt 2 * (1 / sqrt 2))) with 1 by (field; exact S). rewrite pow1. lra.
Qed.
