(** C114: a tone through a filter designed and run in floating point.  For every digital
    Butterworth or Chebyshev I filter and every frequency there are a gain and a phase, the
    gain being the one the textbook formula gives, such that at every fine enough format a
    tone comes out of the sections designed in floats with that gain and phase, up to a
    transient that decays and rounding that does not accumulate.  Gain and phase are those
    of the transfer function of the exact design, and the constants of the bound do not
    depend on the frequency. *)
From Coq Require Import Reals ZArith SpecFloat List Lia Lra.
From Flocq Require Import Core BinarySingleNaN.
From Verif Require Import Base Num Trans M_Complex M_Filter M_Design Cx S_Design S_Filter S_Stable S_Float S_FloatFft S_FloatZpk S_FloatTrans S_FloatSos S_FloatBand S_Tone S_Bessel
  P_Sort P_Float P_FloatStats P_FloatMed P_FloatZi P_FloatPoly P_FloatDesign P_Iir T_Iir P_Sos T_Sos P_FloatI0 P_FloatSosCore P_FloatSosDesign T_FloatSos T_FloatResponse T_FloatBandSos P_Cheb P_Tone.
Import ListNotations.
Local Open Scope R_scope.

Lemma tone_float h Kf : 1 <= Kf -> stable_digital h -> length (zk_z h) = length (zk_p h) -> (exists l0, realises l0 h) ->
  exists K rho, 1 <= K /\ Kf <= K /\ 0 < rho < 1 /\ forall theta, exists g psi, 0 <= g /\ H h (cos theta, sin theta) = (g * cos psi, g * sin psi) /\ g ^ 2 = dgain_sqr h theta /\
  forall prec emax szero lf l, (1 < prec < emax)%Z -> realises l h ->
    (forall x X, Forall (finite prec emax) x -> 0 <= X -> Forall (fun v => Rabs (fval v) <= X) x -> Kf * (X + ftiny prec emax) <= fmax prec emax ->
    exists yf lf' y l',
      @sosfilt_dyn _ (SFNum prec emax szero) x lf = Ok (yf, lf') /\ sosfilt_dyn (map fval x) l = Ok (y, l') /\
      length yf = length x /\ length y = length x /\ Forall (finite prec emax) yf /\
      forall n, (n < length x)%nat -> Rabs (fval (nth n yf (S754_zero false)) - nth n y 0) <= Kf * (uround prec * X + ftiny prec emax)) ->
    tone_passes prec emax szero K rho g psi theta lf.
Proof.
  intros HKf Sh Lh Ex. destruct (tone_core h Sh Lh Ex) as (Kt & rho & HKt & Hr & Q0).
  exists (Kf + Kt), rho. split; [lra|]. split; [lra|]. split; [exact Hr|]. intros theta. destruct (Q0 theta) as (g & psi & Hg & Eh & Eg & Q).
  exists g, psi. split; [exact Hg|]. split; [exact Eh|]. split; [exact Eg|].
  intros prec emax szero lf l Hpe Rl F A phi d x HA Hd Fx Hx HM. pose proof (tiny_pos prec emax) as TP. change (0 < ftiny prec emax) in TP. destruct (u_half prec (proj1 Hpe)) as [U0 U1].
  assert (Hx' : forall n, (n < length (map fval x))%nat -> Rabs (nth n (map fval x) 0 - A * cos (theta * INR n + phi)) <= d).
  { intros n Hn. rewrite map_length in Hn. change 0 with (fval (S754_zero false)). rewrite map_nth. apply Hx, Hn. }
  destruct (F x (A + d) Fx) as (yf & lf' & y & l' & E1 & E2 & L1 & L2 & F2 & B).
  - lra.
  - apply Forall_forall. intros v Hv. apply (In_nth _ _ (S754_zero false)) in Hv. destruct Hv as [n [Hn <-]]. specialize (Hx n Hn).
    pose proof (COS_bound (theta * INR n + phi)) as CB. set (c := cos (theta * INR n + phi)) in *. set (v := fval (nth n x (S754_zero false))) in *.
    assert (Rabs (A * c) <= A) by (rewrite Rabs_mult, (Rabs_right A) by lra; assert (Rabs c <= 1) by (apply Rabs_le; lra); pose proof (Rabs_pos c); nra).
    replace v with (A * c + (v - A * c)) by ring. eapply Rle_trans; [apply Rabs_triang|]. lra.
  - eapply Rle_trans; [|exact HM]. apply Rmult_le_compat_r; lra.
  - exists yf, lf'. split; [exact E1|]. split; [exact L1|]. split; [exact F2|]. intros n Hn. specialize (B n Hn).
    assert (Hn' : (n < length (map fval x))%nat) by (rewrite map_length; exact Hn).
    pose proof (Q l Rl A phi _ d y l' HA Hd Hx' E2 n Hn') as T.
    replace (fval (nth n yf (S754_zero false)) - A * g * cos (theta * INR n + phi + psi)) with
      ((fval (nth n yf (S754_zero false)) - nth n y 0) + (nth n y 0 - A * g * cos (theta * INR n + phi + psi))) by ring.
    eapply Rle_trans; [apply Rabs_triang|].
    assert (P : 0 <= A * rho ^ n) by (apply Rmult_le_pos; [exact HA|apply pow_le; lra]).
    assert (UA : 0 <= uround prec * A) by (apply Rmult_le_pos; lra).
    assert (UD : uround prec * d <= d) by nra.
    assert (Kf * (uround prec * (A + d) + ftiny prec emax) <= Kf * (uround prec * A + d + ftiny prec emax)) by (apply Rmult_le_compat_l; lra).
    assert (0 <= Kf * (A * rho ^ n)) by (apply Rmult_le_pos; lra). assert (0 <= Kt * (uround prec * A + ftiny prec emax)) by (apply Rmult_le_pos; lra). nra.
Qed.

Lemma gain_zero g v : 0 <= g -> g ^ 2 = v -> v = 0 -> g = 0.
Proof. intros. nra. Qed.

(** * C114 *)
Theorem C114_butter_tone (order : nat) (w : R) (fs : option R) (bt : FilterBandType) (analog : option bool) (E : R) :
  (bt = Lowpass \/ bt = Highpass) -> analog <> Some true -> valid_edge false w fs -> (0 < order)%nat -> 0 <= E ->
  exists h K rho, butter_dyn 0 isort order [w] (Some bt) analog (Some OutZpk) fs = Ok (DZpk h) /\ 1 <= K /\ 0 < rho < 1 /\
    forall theta, exists g psi, 0 <= g /\ H h (cos theta, sin theta) = (g * cos psi, g * sin psi) /\
    (let (a, b) := band_ratio bt (normalised [w] fs) theta in (b <> 0 -> g ^ 2 = 1 / (1 + (a / b) ^ (2 * order))) /\ (b = 0 -> g = 0)) /\
    forall prec emax szero (T : Trans spec_float) sort wf fsf,
    (1 < prec < emax)%Z -> is_list_sort sort -> accurate_trans prec emax E T -> symmetric_trans prec emax T ->
    reads prec emax wf w -> reads_opt prec emax fsf fs -> K * uround prec <= 1 ->
    exists sections,
      @butter_dyn _ (SFNum prec emax szero) T (machine_eps prec) sort order [wf] (Some bt) analog (Some OutSos) fsf = Ok (DSos sections) /\
      tone_passes prec emax szero K rho g psi theta sections.
Proof.
  intros Hb Ha Hv Ho HE. destruct (butter_exact w fs bt analog order Hb Ha Hv) as (h & _ & _ & Sh & Lh & _ & Ez & Es).
  destruct (C109_butter_filter order w fs bt analog E Hb Ha Hv HE) as (Kf & HKf & P).
  assert (Ex : exists l0, realises l0 h) by (destruct (Es isort (list_sort_sort _ isort_list_sort)) as (l & _ & R); exists l; exact R).
  destruct (tone_float h Kf HKf Sh Lh Ex) as (K & rho & HK & HKK & Hr & Q0).
  exists h, K, rho. split; [apply Ez|]. split; [exact HK|]. split; [exact Hr|]. intros theta. destruct (Q0 theta) as (g & psi & Hg & Eh & Eg & Q).
  exists g, psi. split; [exact Hg|]. split; [exact Eh|]. split.
  - destruct (C57_butter_digital 0 isort order [w] bt analog fs Ho Ha (edge_digital bt w fs Hb Hv)) as (f & Ef & G & _). rewrite Ez in Ef. injection Ef as <-.
    specialize (G theta). destruct (band_ratio bt (normalised [w] fs) theta) as [a b]. destruct G as [G1 G2]. rewrite Eg. split; [exact G1|]. intros X. exact (gain_zero g _ Hg Eg (G2 X)).
  - intros prec emax szero T sort wf fsf Hpe Hs HT HS Rw Rf Hu. destruct (u_half prec (proj1 Hpe)) as [U0 _].
    destruct (P prec emax szero T sort wf fsf Hpe Hs HT HS Rw Rf) as (lf & l & E1 & E2 & F). { eapply Rle_trans; [|exact Hu]. apply Rmult_le_compat_r; lra. }
    exists lf. split; [exact E1|]. destruct (Es sort (list_sort_sort sort Hs)) as (l2 & E3 & Rl). assert (l2 = l) by congruence. subst l2. exact (Q prec emax szero lf l Hpe Rl F).
Qed.
Print Assumptions C114_butter_tone.

Theorem C114_cheby1_tone (order : nat) (rp w : R) (fs : option R) (bt : FilterBandType) (analog : option bool) (E : R) :
  (bt = Lowpass \/ bt = Highpass) -> analog <> Some true -> valid_edge false w fs -> (0 < order)%nat -> 0 < rp -> 0 <= E ->
  exists h K rho, cheby1_dyn 0 isort order rp [w] (Some bt) analog (Some OutZpk) fs = Ok (DZpk h) /\ 1 <= K /\ 0 < rho < 1 /\
    forall theta, exists g psi, 0 <= g /\ H h (cos theta, sin theta) = (g * cos psi, g * sin psi) /\
    (let (a, b) := band_ratio bt (normalised [w] fs) theta in
     (b <> 0 -> g ^ 2 = 1 / (1 + (Rpower 10 (rp / 10) - 1) * chebT order (a / b) ^ 2)) /\ (b = 0 -> g = 0)) /\
    forall prec emax szero (T : Trans spec_float) sort rpf wf fsf,
    (1 < prec < emax)%Z -> is_list_sort sort -> accurate_trans prec emax E T -> symmetric_trans prec emax T ->
    reads prec emax rpf rp -> reads prec emax wf w -> reads_opt prec emax fsf fs -> K * uround prec <= 1 ->
    exists sections,
      @cheby1_dyn _ (SFNum prec emax szero) T (machine_eps prec) sort order rpf [wf] (Some bt) analog (Some OutSos) fsf = Ok (DSos sections) /\
      tone_passes prec emax szero K rho g psi theta sections.
Proof.
  intros Hb Ha Hv Ho Hrp HE. destruct (cheby1_exact w fs bt analog order Hb Ha Hv rp Hrp Ho) as (h & _ & _ & Sh & Lh & _ & Ez & Es).
  destruct (C109_cheby1_filter order rp w fs bt analog E Hb Ha Hv Ho Hrp HE) as (Kf & HKf & P).
  assert (Ex : exists l0, realises l0 h) by (destruct (Es isort (list_sort_sort _ isort_list_sort)) as (l & _ & R); exists l; exact R).
  destruct (tone_float h Kf HKf Sh Lh Ex) as (K & rho & HK & HKK & Hr & Q0).
  exists h, K, rho. split; [apply Ez|]. split; [exact HK|]. split; [exact Hr|]. intros theta. destruct (Q0 theta) as (g & psi & Hg & Eh & Eg & Q).
  exists g, psi. split; [exact Hg|]. split; [exact Eh|]. split.
  - destruct (C64_cheby1_digital 0 isort order rp [w] bt analog fs Ho Hrp Ha (edge_digital bt w fs Hb Hv)) as (f & Ef & _ & _ & _ & _ & G & _). rewrite Ez in Ef. injection Ef as <-.
    specialize (G theta). destruct (band_ratio bt (normalised [w] fs) theta) as [a b]. destruct G as (G1 & G2 & _). rewrite Eg. split; [exact G1|]. intros X. exact (gain_zero g _ Hg Eg (G2 X)).
  - intros prec emax szero T sort rpf wf fsf Hpe Hs HT HS Rr Rw Rf Hu. destruct (u_half prec (proj1 Hpe)) as [U0 _].
    destruct (P prec emax szero T sort rpf wf fsf Hpe Hs HT HS Rr Rw Rf) as (lf & l & E1 & E2 & F). { eapply Rle_trans; [|exact Hu]. apply Rmult_le_compat_r; lra. }
    exists lf. split; [exact E1|]. destruct (Es sort (list_sort_sort sort Hs)) as (l2 & E3 & Rl). assert (l2 = l) by congruence. subst l2. exact (Q prec emax szero lf l Hpe Rl F).
Qed.
Print Assumptions C114_cheby1_tone.

(** Band-pass and band-stop; for an odd order the edges must not give a double pole. *)
Theorem C114_butter_band_tone (order : nat) (w0 w1 : R) (fs : option R) (bt : FilterBandType) (analog : option bool) (E : R) :
  (bt = Bandpass \/ bt = Bandstop) -> analog <> Some true -> valid_band false w0 w1 fs -> (0 < order)%nat -> 0 <= E ->
  (Nat.odd order = true -> ~ double_pole bt 1 (edge_freq false w0 fs) (edge_freq false w1 fs)) ->
  exists h K rho, butter_dyn 0 isort order [w0; w1] (Some bt) analog (Some OutZpk) fs = Ok (DZpk h) /\ 1 <= K /\ 0 < rho < 1 /\
    forall theta, exists g psi, 0 <= g /\ H h (cos theta, sin theta) = (g * cos psi, g * sin psi) /\
    (let (a, b) := band_ratio bt (normalised [w0; w1] fs) theta in (b <> 0 -> g ^ 2 = 1 / (1 + (a / b) ^ (2 * order))) /\ (b = 0 -> g = 0)) /\
    forall prec emax szero (T : Trans spec_float) sort w0f w1f fsf,
    (1 < prec < emax)%Z -> is_list_sort sort -> accurate_trans prec emax E T -> symmetric_trans prec emax T ->
    reads prec emax w0f w0 -> reads prec emax w1f w1 -> reads_opt prec emax fsf fs -> K * uround prec <= 1 ->
    exists sections,
      @butter_dyn _ (SFNum prec emax szero) T (machine_eps prec) sort order [w0f; w1f] (Some bt) analog (Some OutSos) fsf = Ok (DSos sections) /\
      tone_passes prec emax szero K rho g psi theta sections.
Proof.
  intros Hb Ha Hv Ho HE ND. destruct (butter_exact2 w0 w1 fs bt analog order Hb Ha Hv) as (h & _ & _ & Sh & Lh & _ & Ez & Es).
  destruct (C112_butter_band_filter order w0 w1 fs bt analog E Hb Ha Hv HE ND) as (Kf & HKf & P).
  assert (Ex : exists l0, realises l0 h) by (destruct (Es isort (list_sort_sort _ isort_list_sort)) as (l & _ & R); exists l; exact R).
  destruct (tone_float h Kf HKf Sh Lh Ex) as (K & rho & HK & HKK & Hr & Q0).
  exists h, K, rho. split; [apply Ez|]. split; [exact HK|]. split; [exact Hr|]. intros theta. destruct (Q0 theta) as (g & psi & Hg & Eh & Eg & Q).
  exists g, psi. split; [exact Hg|]. split; [exact Eh|]. split.
  - destruct (C57_butter_digital 0 isort order [w0; w1] bt analog fs Ho Ha (band_digital bt w0 w1 fs Hb Hv)) as (f & Ef & G & _). rewrite Ez in Ef. injection Ef as <-.
    specialize (G theta). destruct (band_ratio bt (normalised [w0; w1] fs) theta) as [a b]. destruct G as [G1 G2]. rewrite Eg. split; [exact G1|]. intros X. exact (gain_zero g _ Hg Eg (G2 X)).
  - intros prec emax szero T sort w0f w1f fsf Hpe Hs HT HS R0 R1 Rf Hu. destruct (u_half prec (proj1 Hpe)) as [U0 _].
    destruct (P prec emax szero T sort w0f w1f fsf Hpe Hs HT HS R0 R1 Rf) as (lf & l & E1 & E2 & F). { eapply Rle_trans; [|exact Hu]. apply Rmult_le_compat_r; lra. }
    exists lf. split; [exact E1|]. destruct (Es sort (list_sort_sort sort Hs)) as (l2 & E3 & Rl). assert (l2 = l) by congruence. subst l2. exact (Q prec emax szero lf l Hpe Rl F).
Qed.
Print Assumptions C114_butter_band_tone.

Theorem C114_cheby1_band_tone (order : nat) (rp w0 w1 : R) (fs : option R) (bt : FilterBandType) (analog : option bool) (E : R) :
  (bt = Bandpass \/ bt = Bandstop) -> analog <> Some true -> valid_band false w0 w1 fs -> (0 < order)%nat -> 0 < rp -> 0 <= E ->
  (Nat.odd order = true -> ~ double_pole bt (cheb_pole order rp) (edge_freq false w0 fs) (edge_freq false w1 fs)) ->
  exists h K rho, cheby1_dyn 0 isort order rp [w0; w1] (Some bt) analog (Some OutZpk) fs = Ok (DZpk h) /\ 1 <= K /\ 0 < rho < 1 /\
    forall theta, exists g psi, 0 <= g /\ H h (cos theta, sin theta) = (g * cos psi, g * sin psi) /\
    (let (a, b) := band_ratio bt (normalised [w0; w1] fs) theta in
     (b <> 0 -> g ^ 2 = 1 / (1 + (Rpower 10 (rp / 10) - 1) * chebT order (a / b) ^ 2)) /\ (b = 0 -> g = 0)) /\
    forall prec emax szero (T : Trans spec_float) sort rpf w0f w1f fsf,
    (1 < prec < emax)%Z -> is_list_sort sort -> accurate_trans prec emax E T -> symmetric_trans prec emax T ->
    reads prec emax rpf rp -> reads prec emax w0f w0 -> reads prec emax w1f w1 -> reads_opt prec emax fsf fs -> K * uround prec <= 1 ->
    exists sections,
      @cheby1_dyn _ (SFNum prec emax szero) T (machine_eps prec) sort order rpf [w0f; w1f] (Some bt) analog (Some OutSos) fsf = Ok (DSos sections) /\
      tone_passes prec emax szero K rho g psi theta sections.
Proof.
  intros Hb Ha Hv Ho Hrp HE ND. destruct (cheby1_exact2 w0 w1 fs bt analog order Hb Ha Hv rp Hrp Ho) as (h & _ & _ & Sh & Lh & _ & Ez & Es).
  destruct (C112_cheby1_band_filter order rp w0 w1 fs bt analog E Hb Ha Hv Ho Hrp HE ND) as (Kf & HKf & P).
  assert (Ex : exists l0, realises l0 h) by (destruct (Es isort (list_sort_sort _ isort_list_sort)) as (l & _ & R); exists l; exact R).
  destruct (tone_float h Kf HKf Sh Lh Ex) as (K & rho & HK & HKK & Hr & Q0).
  exists h, K, rho. split; [apply Ez|]. split; [exact HK|]. split; [exact Hr|]. intros theta. destruct (Q0 theta) as (g & psi & Hg & Eh & Eg & Q).
  exists g, psi. split; [exact Hg|]. split; [exact Eh|]. split.
  - destruct (C64_cheby1_digital 0 isort order rp [w0; w1] bt analog fs Ho Hrp Ha (band_digital bt w0 w1 fs Hb Hv)) as (f & Ef & _ & _ & _ & _ & G & _). rewrite Ez in Ef. injection Ef as <-.
    specialize (G theta). destruct (band_ratio bt (normalised [w0; w1] fs) theta) as [a b]. destruct G as (G1 & G2 & _). rewrite Eg. split; [exact G1|]. intros X. exact (gain_zero g _ Hg Eg (G2 X)).
  - intros prec emax szero T sort rpf w0f w1f fsf Hpe Hs HT HS Rr R0 R1 Rf Hu. destruct (u_half prec (proj1 Hpe)) as [U0 _].
    destruct (P prec emax szero T sort rpf w0f w1f fsf Hpe Hs HT HS Rr R0 R1 Rf) as (lf & l & E1 & E2 & F). { eapply Rle_trans; [|exact Hu]. apply Rmult_le_compat_r; lra. }
    exists lf. split; [exact E1|]. destruct (Es sort (list_sort_sort sort Hs)) as (l2 & E3 & Rl). assert (l2 = l) by congruence. subst l2. exact (Q prec emax szero lf l Hpe Rl F).
Qed.
Print Assumptions C114_cheby1_band_tone.

(** The hypotheses on the design are met as in C108 and C112.  The gains are not trivial: a
    second-order low-pass with cutoff at half of Nyquist has gain^2 1/2 there. *)
Example C114_gain_ex : exists K rho g psi, 1 <= K /\ 0 < rho < 1 /\ 0 <= g /\ g ^ 2 = 1 / 2 /\
  forall prec emax szero (T : Trans spec_float) wf, (1 < prec < emax)%Z -> accurate_trans prec emax 5 T -> symmetric_trans prec emax T ->
    reads prec emax wf (1 / 2) -> K * uround prec <= 1 ->
    exists sections,
      @butter_dyn _ (SFNum prec emax szero) T (machine_eps prec) isort 2 [wf] (Some Lowpass) None (Some OutSos) None = Ok (DSos sections) /\
      tone_passes prec emax szero K rho g psi (PI / 2) sections.
Proof.
  destruct (C114_butter_tone 2 (1 / 2) None Lowpass None 5) as (h & K & rho & _ & HK & Hr & Q0); [left; reflexivity|discriminate|cbn; lra|lia|lra|].
  destruct (Q0 (PI / 2)) as (g & psi & Hg & _ & Gn & Q).
  exists K, rho, g, psi. split; [exact HK|]. split; [exact Hr|]. split; [exact Hg|]. split.
  - cbn [band_ratio normalised map nth] in Gn. replace (PI * (1 / 2) / 2) with (PI / 4) in Gn by field. replace (PI / 2 / 2) with (PI / 4) in Gn by field. rewrite cos_PI4, sin_PI4 in Gn.
    assert (S : sqrt 2 <> 0) by (apply Rgt_not_eq, sqrt_lt_R0; lra). assert (Sq : 1 / sqrt 2 <> 0) by (unfold Rdiv; rewrite Rmult_1_l; apply Rinv_neq_0_compat, S).
    destruct Gn as [Gn _]. rewrite Gn by (apply Rmult_integral_contrapositive_currified; exact Sq). replace (1 / sqrt 2 * (1 / sqrt 2) / (1 / sqrt 2 * (1 / sqrt 2))) with 1 by (field; exact S). rewrite pow1. lra.
  - intros. apply Q; try assumption; [exact isort_list_sort|exact Logic.I].
Qed.
(** At that frequency the samples of the tone are 1, 0, -1, 0, ...: floats in every format,
    so that the input meets the hypothesis with d = 0 at every length. *)
Example C114_signal_ex prec emax N : (1 < prec < emax)%Z -> exists x, length x = N /\ Forall (finite prec emax) x /\
  forall n, (n < length x)%nat -> Rabs (fval (nth n x (S754_zero false)) - 1 * cos (PI / 2 * INR n + 0)) <= 0.
Proof.
  intros Hpe.
  assert (Z1 : forall z, (Z.abs z <= 1)%Z -> reads prec emax (SpecFloat.binary_normalize prec emax z 0 false) (IZR z)).
  { intros z Hz. apply fofZ_ok; [unfold Prec_gt_0; lia|unfold Prec_lt_emax; lia| |].
    - apply Z.le_trans with 1%Z; [exact Hz|]. change 1%Z with (2 ^ 0)%Z. apply Z.pow_le_mono_r; lia.
    - apply Rle_trans with 1; [apply IZR_le; exact Hz|]. destruct (u_half prec (proj1 Hpe)) as [U0 U1]. apply fmax_inv_u; [exact Hpe|lra]. }
  set (q := fun n : nat => nth (n mod 4) [1; 0; -1; 0]%Z 0%Z).
  assert (Q : forall n, (Z.abs (q n) <= 1)%Z). { intros n. unfold q. pose proof (Nat.mod_upper_bound n 4 ltac:(lia)) as M. destruct (n mod 4)%nat as [|[|[|[|]]]]; cbn; lia. }
  assert (QC : forall n, IZR (q n) = cos (PI / 2 * INR n)).
  { intros n. unfold q. rewrite (Nat.div_mod n 4) at 2 by lia. rewrite plus_INR, mult_INR. set (k := (n / 4)%nat).
    replace (PI / 2 * (INR 4 * INR k + INR (n mod 4))) with (PI / 2 * INR (n mod 4) + 2 * INR k * PI) by (cbn [INR]; field). rewrite cos_period.
    pose proof (Nat.mod_upper_bound n 4 ltac:(lia)) as M. destruct (n mod 4)%nat as [|[|[|[|]]]]; [| | | |lia]; cbn [nth INR].
    - rewrite Rmult_0_r, cos_0. reflexivity.
    - rewrite Rmult_1_r, cos_PI2. reflexivity.
    - replace (PI / 2 * (1 + 1)) with PI by field. rewrite cos_PI. reflexivity.
    - replace (PI / 2 * (1 + 1 + 1)) with (3 * (PI / 2)) by field. rewrite cos_3PI2. reflexivity. }
  exists (map (fun n => SpecFloat.binary_normalize prec emax (q n) 0 false) (seq 0 N)). split; [rewrite map_length; apply seq_length|]. split.
  - apply Forall_forall. intros v Hv. apply in_map_iff in Hv. destruct Hv as [n [<- _]]. apply (Z1 (q n) (Q n)).
  - intros n Hn. rewrite map_length, seq_length in Hn. rewrite (nth_indep _ _ ((fun n => SpecFloat.binary_normalize prec emax (q n) 0 false) 0%nat)) by (rewrite map_length, seq_length; exact Hn).
    rewrite (map_nth (fun n => SpecFloat.binary_normalize prec emax (q n) 0 false)), seq_nth by exact Hn. cbn [Nat.add]. rewrite (proj2 (Z1 (q n) (Q n))), QC, Rplus_0_r, Rmult_1_l, Rminus_diag_eq by reflexivity. rewrite Rabs_R0. lra.
Qed.
