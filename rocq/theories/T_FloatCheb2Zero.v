(** C119, zero-phase: Chebyshev II band-pass filters designed in floating point and run with
    sosfiltfilt. *)
From Coq Require Import Reals ZArith SpecFloat List Lia Lra Bool.
From Flocq Require Import Core BinarySingleNaN.
From Verif Require Import Base Num Trans M_Complex M_Filter M_Design Cx S_Design S_Filter S_Stable S_Float S_FloatFft S_FloatZpk S_FloatTrans S_FloatSos S_FloatBand S_ToneZero S_Bessel S_FloatCheb2Band
  P_Sort P_Float P_FloatStats P_FloatMed P_FloatZi P_FloatPoly P_FloatDesign T_FloatDesign P_Iir T_Iir P_Sos T_Sos P_FloatI0 P_FloatSosCore P_FloatSosDesign T_FloatSos T_FloatResponse
  P_FloatBand P_FloatBandStage T_FloatBand P_FloatBandMate P_FloatBandSos T_FloatBandSos P_Cheb P_FloatFiltDesign T_FloatFiltDesign T_FloatTone T_Cheb2 T_FloatCheb2 P_ToneZero T_FloatToneZero T_FloatCheb2Band.
Import ListNotations.
Local Open Scope R_scope.
Notation pr2 := (fun j : idx2 => xprec (fst j)).
Notation em2 := (fun j : idx2 => xemax (fst j)).
Notation sz2 := (fun j : idx2 => xsz (fst j)).
Notation T2 := (fun j : idx2 => xT (fst j)).

Section Facts.
Variables (order : nat) (rp rs w0 w1 : R) (fs : option R) (analog : option bool).
Hypothesis Hn : (0 < order)%nat.
Hypothesis Hp : 0 <= rp.
Hypothesis Hr : 0 < rs.
Hypothesis Ha : analog <> Some true.
Hypothesis Hv : valid_band false w0 w1 fs.
Hypothesis ND : Nat.odd order = true -> ~ double_pole Bandpass (cheb2_pole order rs) (edge_freq false w0 fs) (edge_freq false w1 fs).
Notation design := (let! g := band2 Bandpass (cheb2ap_dyn order rs) (warped_freq false (norm_freq w0 fs)) (warped_freq false (norm_freq w1 fs)) in to_digital false g).
Lemma pass_facts h : design = Ok h -> zk_k h <> 0 /\ ~ In C0 (zk_z h).
Proof.
  intros Eh. split.
  - destruct (C78_cheby2_digital_partial 0 isort order rp rs [w0; w1] Bandpass analog fs (list_sort_sort _ isort_list_sort) (Rle_refl 0) Hn Hp Hr Ha (T_FloatBandSos.band_digital Bandpass w0 w1 fs (or_introl eq_refl) Hv) (or_intror eq_refl))
      as (h' & E0 & _ & _ & _ & _ & _ & G & _). rewrite (pass_tail order rp rs w0 w1 fs analog Hp Hr Ha Hv) in E0. cbn [unwrap_or] in E0. rewrite <- bind_assoc, Eh in E0. cbn [bind emit] in E0. injection E0 as <-.
    assert (Q : exists w, In w (normalised [w0; w1] fs)) by (unfold normalised; destruct fs; eexists; left; reflexivity). destruct Q as [w Q].
    apply (gain_nonzero h (PI * w) (Rpower 10 (- rs / 10))); [exact (G w Q)|]. apply Rgt_not_eq, exp_pos.
  - exact (staged_zeros _ _ _ _ _ _ _ (pass_mates 0 w0 w1 rs fs order (Rle_refl 0) Hn Hr Hv ND) h Eh).
Qed.
Lemma pass_taps sort l h : is_sort sort -> design = Ok h ->
  iirfilter_dyn 0 sort order [w0; w1] (Some rp) (Some rs) (Some Bandpass) (Some ChebyshevII) analog (Some OutSos) fs = Ok (DSos l) -> taps l = S (length (zk_p h)).
Proof.
  intros Hs Eh El. destruct (pass_exact order rp rs w0 w1 fs analog Hn Hp Hr Ha Hv) as (h' & Eh' & Rh & _ & Lh & Lp & _). rewrite Eh in Eh'. injection Eh' as <-.
  destruct (pass_facts h Eh) as [K Z]. rewrite (pass_tail order rp rs w0 w1 fs analog Hp Hr Ha Hv), <- bind_assoc, Eh in El. cbn [bind unwrap_or] in El.
  apply (finish_taps sort order h l Hs Rh Lh ltac:(lia) K Z). exact El.
Qed.
End Facts.

Theorem C119_cheby2_band_filtfilt (order : nat) (rp rs w0 w1 : R) (fs : option R) (analog : option bool) (E : R) :
  analog <> Some true -> valid_band false w0 w1 fs -> (0 < order)%nat -> 0 <= rp -> 0 < rs -> 0 <= E ->
  (Nat.odd order = true -> ~ double_pole Bandpass (cheb2_pole order rs) (edge_freq false w0 fs) (edge_freq false w1 fs)) ->
  exists K, 1 <= K /\ forall prec emax szero (T : Trans spec_float) sort rpf rsf w0f w1f fsf,
  (1 < prec < emax)%Z -> is_list_sort sort -> accurate_trans prec emax E T -> symmetric_trans prec emax T ->
  reads prec emax rpf rp -> reads prec emax rsf rs -> reads prec emax w0f w0 -> reads prec emax w1f w1 -> reads_opt prec emax fsf fs -> K * uround prec <= 1 ->
  exists lf l,
    @iirfilter_dyn _ (SFNum prec emax szero) T (machine_eps prec) sort order [w0f; w1f] (Some rpf) (Some rsf) (Some Bandpass) (Some ChebyshevII) analog (Some OutSos) fsf = Ok (DSos lf) /\
    iirfilter_dyn 0 sort order [w0; w1] (Some rp) (Some rs) (Some Bandpass) (Some ChebyshevII) analog (Some OutSos) fs = Ok (DSos l) /\
    forall x X, (3 * (2 * order + 1) < length x)%nat -> Forall (finite prec emax) x -> Forall (fun v => Rabs (fval v) <= X) x -> K * (X + ftiny prec emax) <= fmax prec emax ->
    exists yf y,
      @sosfiltfilt_dyn _ (SFNum prec emax szero) x lf = Ok yf /\ sosfiltfilt_dyn (map fval x) l = Ok y /\
      length yf = length x /\ length y = length x /\ Forall (finite prec emax) yf /\
      forall n, (n < length x)%nat -> Rabs (fval (nth n yf (S754_zero false)) - nth n y 0) <= K * (uround prec * X + ftiny prec emax).
Proof.
  intros Ha Hv Hn Hp Hr HE ND. destruct (pass_exact order rp rs w0 w1 fs analog Hn Hp Hr Ha Hv) as (h & Eh & Rh & Sh & Lh & Lp & _ & _ & Es & _).
  destruct (pass_facts order rp rs w0 w1 fs analog Hn Hp Hr Ha Hv ND h Eh) as [Kh Zh]. assert (L0 : (0 < length (zk_p h))%nat) by lia.
  destruct (checks2 E w0 w1 rs fs Hv) as (K1 & HK1 & Q1).
  destruct (evk_ff idx2 pr2 em2 sz2 E HE T2 (Vb E w0 w1 rs fs) (Vb_acc E w0 w1 rs fs) (Vb_sym E w0 w1 rs fs) _ _ (pass_mates E w0 w1 rs fs order HE Hn Hr Hv ND) h Eh Rh Sh Lh L0 Kh) as (K2 & HK2 & Q2).
  exists (K1 + K2). split; [lra|]. intros prec emax sz T sort rpf rsf w0f w1f fsf Hpe Hs HT HS Rp Rs R0 R1 Rf Hu. set (i := (mkIdx prec emax sz T w0f rsf fsf, w1f) : idx2).
  assert (Hi : fmt_ok idx2 pr2 em2 (Vb E w0 w1 rs fs) (K1 + K2) i).
  { split; [|split; [exact Hpe|exact Hu]]. split; [|exact HS]. split; [|exact R1]. split; [exact HT|]. split; [exact R0|]. split; [exact Rs|exact Rf]. }
  destruct (Q1 i (fmt_mono idx2 pr2 em2 _ (K1 + K2) K1 i Hi ltac:(lra))) as (A1 & A2 & A3 & A4 & A5).
  assert (FO := filtfilt_ok_mono _ _ _ _ _ K2 (K1 + K2) (proj1 (u_half prec (proj1 Hpe))) ltac:(lra) (Q2 i (fmt_mono idx2 pr2 em2 _ (K1 + K2) K2 i Hi ltac:(lra)) sort order Hs)).
  destruct FO as (sf & E1 & _ & P). destruct (Es sort (list_sort_sort sort Hs)) as (l & El & Rl).
  pose proof (pass_taps order rp rs w0 w1 fs analog Hn Hp Hr Ha Hv ND sort l h (list_sort_sort sort Hs) Eh El) as Tl.
  exists sf, l. split; [rewrite <- E1; exact (pass_float order rp rs false i analog _ sort rpf (Some OutSos) (not_analog analog Ha) Hp Hr Rp Rs A1 A2 A3 (fun _ => A4) (fun _ => A5) ltac:(discriminate))|]. split; [exact El|].
  intros x X Hx Fx Bx HM.
  destruct (P x X Fx Bx ltac:(rewrite Lp; lia) HM) as (yf & F1 & L1 & F2 & G). destruct (G l Rl Tl) as (y & F3 & L2 & B).
  exists yf, y. split; [exact F1|]. split; [exact F3|]. split; [exact L1|]. split; [exact L2|]. split; [exact F2|exact B].
Qed.
Print Assumptions C119_cheby2_band_filtfilt.

Theorem C119_cheby2_band_zero_phase (order : nat) (rp rs w0 w1 : R) (fs : option R) (analog : option bool) (E : R) :
  analog <> Some true -> valid_band false w0 w1 fs -> (0 < order)%nat -> 0 <= rp -> 0 < rs -> 0 <= E ->
  (Nat.odd order = true -> ~ double_pole Bandpass (cheb2_pole order rs) (edge_freq false w0 fs) (edge_freq false w1 fs)) ->
  exists K rho, 1 <= K /\ 0 < rho < 1 /\
    forall prec emax szero (T : Trans spec_float) sort rpf rsf w0f w1f fsf,
    (1 < prec < emax)%Z -> is_list_sort sort -> accurate_trans prec emax E T -> symmetric_trans prec emax T ->
    reads prec emax rpf rp -> reads prec emax rsf rs -> reads prec emax w0f w0 -> reads prec emax w1f w1 -> reads_opt prec emax fsf fs -> K * uround prec <= 1 ->
    exists sections,
      @iirfilter_dyn _ (SFNum prec emax szero) T (machine_eps prec) sort order [w0f; w1f] (Some rpf) (Some rsf) (Some Bandpass) (Some ChebyshevII) analog (Some OutSos) fsf = Ok (DSos sections) /\
      forall theta, exists g,
        (let (a, b) := band_ratio Bandpass (normalised [w0; w1] fs) theta in
         (a = 0 -> g = 1) /\ (a <> 0 -> chebT order (b / a) = 0 -> g = 0) /\
         (a <> 0 -> chebT order (b / a) <> 0 -> g = 1 / (1 + (Rpower 10 (rs / 10) - 1) / chebT order (b / a) ^ 2))) /\
        tone_zero_phase prec emax szero (3 * (2 * order + 1)) K rho g theta sections.
Proof.
  intros Ha Hv Hn Hp Hr HE ND. destruct (pass_exact order rp rs w0 w1 fs analog Hn Hp Hr Ha Hv) as (h & Eh & _ & Sh & Lh & _ & _ & _ & Es & G).
  pose proof (fun sort l Hs El => pass_taps order rp rs w0 w1 fs analog Hn Hp Hr Ha Hv ND sort l h Hs Eh El) as TT.
  destruct (C119_cheby2_band_filtfilt order rp rs w0 w1 fs analog E Ha Hv Hn Hp Hr HE ND) as (Kf & HKf & P).
  assert (Ex : exists l0, realises l0 h /\ taps l0 = S (length (zk_p h))).
  { destruct (Es isort (list_sort_sort _ isort_list_sort)) as (l & El & R). exists l. split; [exact R|]. exact (TT isort l (list_sort_sort _ isort_list_sort) El). }
  destruct (zero_float h Kf HKf Sh Lh Ex) as (K & rho & HK & HKK & Hr' & Q). exists K, rho. split; [exact HK|]. split; [exact Hr'|].
  intros prec emax szero T sort rpf rsf w0f w1f fsf Hpe Hs HT HS Rp Rs R0 R1 Rf Hu. destruct (u_half prec (proj1 Hpe)) as [U0 _].
  destruct (P prec emax szero T sort rpf rsf w0f w1f fsf Hpe Hs HT HS Rp Rs R0 R1 Rf) as (lf & l & E1 & E2 & F). { eapply Rle_trans; [|exact Hu]. apply Rmult_le_compat_r; lra. }
  exists lf. split; [exact E1|]. destruct (Es sort (list_sort_sort sort Hs)) as (l2 & E3 & Rl). assert (l2 = l) by congruence. subst l2.
  intros theta. exists (dgain_sqr h theta). split; [exact (G theta)|]. exact (Q theta prec emax szero _ lf l Hpe Rl (TT sort l (list_sort_sort sort Hs) E2) F).
Qed.
Print Assumptions C119_cheby2_band_zero_phase.

(** An order-two design with edges 2 and 4 at sampling rate 12 leaves a tone at the centre
    of the band as it is, in amplitude and in phase. *)
Example C119_zero_phase_ex : exists K rho, 1 <= K /\ 0 < rho < 1 /\
  forall prec emax szero (T : Trans spec_float) rf w0f w1f fsf, (1 < prec < emax)%Z -> accurate_trans prec emax 5 T -> symmetric_trans prec emax T ->
    reads prec emax rf 2 -> reads prec emax w0f 2 -> reads prec emax w1f 4 -> reads_opt prec emax (Some fsf) (Some 12) -> K * uround prec <= 1 ->
    exists sections,
      @iirfilter_dyn _ (SFNum prec emax szero) T (machine_eps prec) isort 2 [w0f; w1f] (Some rf) (Some rf) (Some Bandpass) (Some ChebyshevII) None (Some OutSos) (Some fsf) = Ok (DSos sections) /\
      tone_zero_phase prec emax szero 15 K rho 1 (PI / 2) sections.
Proof.
  destruct (C119_cheby2_band_zero_phase 2 2 2 2 4 (Some 12) None 5) as (K & rho & HK & Hr & Q); [discriminate|apply C119_hyp_met|lia|lra|lra|lra|discriminate|].
  exists K, rho. split; [exact HK|]. split; [exact Hr|]. intros prec emax szero T rf w0f w1f fsf Hpe HT HS Rr R0 R1 Rf Hu.
  destruct (Q prec emax szero T isort rf rf w0f w1f (Some fsf) Hpe isort_list_sort HT HS Rr Rr R0 R1 Rf Hu) as (l & El & G). exists l. split; [exact El|].
  destruct (G (PI / 2)) as (g & Gn & Z). replace 1 with g; [exact Z|].
  cbn [band_ratio normalised map nth] in Gn. replace (PI * (2 * 2 / 12) / 2) with (PI / 6) in Gn by field. replace (PI * (2 * 4 / 12) / 2) with (PI / 3) in Gn by field. replace (PI / 2 / 2) with (PI / 4) in Gn by field.
  rewrite cos_PI4, sin_PI4, cos_PI6, sin_PI6, cos_PI3, sin_PI3 in Gn. destruct Gn as [G1 _]. apply G1.
  assert (S2 : sqrt 2 <> 0) by (apply Rgt_not_eq, sqrt_lt_R0; lra). field. exact S2.
Qed.
