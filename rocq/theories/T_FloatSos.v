(** C108, C109: second-order sections designed in floating point, and filtering with them.
    At every IEEE 754 format fine enough, with every library of elementary functions that
    is accurate and respects the reflection in the real axis, a low- or high-pass design
    with section output succeeds; its sections are close to sections of real numbers that
    make up the exact filter, and are stable.  A signal filtered with them in floats comes
    out close to the exact filter's output, at every sample of a signal of any length. *)
From Coq Require Import Reals ZArith SpecFloat List Lia Lra Bool Permutation Sorted.
From Flocq Require Import Core BinarySingleNaN.
From Verif Require Import Base Num Trans M_Complex M_Filter M_Design Cx S_Design S_Filter S_Stable S_Float S_FloatFft S_FloatZpk S_FloatTrans S_FloatSos
  P_Sort P_Float P_FloatStats P_Poly P_Lp P_Proto P_Cheb P_Iir P_Iir2 T_Iir P_Sos P_FloatMed P_FloatI0 P_FloatZi P_FloatPoly T_FloatPoly P_FloatDesign T_FloatDesign T_FloatResponse
  P_FloatSym P_FloatMate P_FloatSos P_FloatPipe T_Sos P_FloatSosCore P_FloatSosDesign.
Import ListNotations.
Local Open Scope R_scope.

Lemma list_sort_sort sort : is_list_sort sort -> is_sort sort.
Proof. intros H A le l. destruct (H A le l) as [P S]. split; [exact P|]. intros T1 T2. apply S; intros; [apply T1|eapply T2; eassumption]. Qed.
Lemma not_analog analog : analog <> Some true -> unwrap_or analog false = false.
Proof. intros Ha. destruct analog as [[|]|]; [contradiction Ha; reflexivity|reflexivity|reflexivity]. Qed.
Lemma exact_sections sort N f : is_sort sort -> real_filter f -> exists l, @P_Iir.finish 0 sort N false (Some OutSos) f = Ok (DSos l) /\ realises l f.
Proof.
  intros Hs Hr. destruct (C45_zpk2sos_digital_partial 0 sort N f None (Some false) (Rle_refl 0) Hs Hr (C67_separated_exact _) (C67_separated_exact _) ltac:(discriminate) (or_introl eq_refl)) as [l [E [_ [R _]]]].
  exists l. unfold P_Iir.finish. cbn [unwrap_or]. rewrite E. split; [reflexivity|exact R].
Qed.

(** ** The two prototypes *)
Section Proto.
Variables (E w rp : R) (fs : option R).
Hypothesis HE : 0 <= E.
Notation V := (Vs E w rp fs).
Lemma butt_znapp order : znapp idx xprec xemax V xsz (buttap_dyn order) (fun i => @buttap_dyn _ (NI i) (xT i) order).
Proof. apply (stage_buttap idx xprec xemax V xsz E HE xT). apply Vs_acc. Qed.
Lemma butt_zmate order : zmate idx xprec xemax V xsz (buttap_dyn order) (fun i => @buttap_dyn _ (NI i) (xT i) order).
Proof. apply (mate_buttap idx xprec xemax V xsz E HE xT); [apply Vs_acc|apply Vs_sym]. Qed.
Lemma butt_left order : Forall (fun p => cre p < 0) (zk_p (@buttap_dyn R RNum RTrans order)).
Proof. rewrite buttap_eq. cbn [zk_p]. apply Forall_forall. intros c Hc. apply in_map_iff in Hc. destruct Hc as [k [<- Hk]]. apply in_seq in Hk. apply bp_stable. lia. Qed.
Hypothesis Hr : 0 < rp.
Lemma cheb_znapp order : znapp idx xprec xemax V xsz (cheb1ap_dyn order rp) (fun i => @cheb1ap_dyn _ (NI i) (xT i) order (xrp i)).
Proof. apply (stage_cheb1ap idx xprec xemax V xsz E HE xT); [apply Vs_acc|exact Hr|apply napp_rps]. Qed.
Lemma cheb_zmate order : zmate idx xprec xemax V xsz (cheb1ap_dyn order rp) (fun i => @cheb1ap_dyn _ (NI i) (xT i) order (xrp i)).
Proof. apply (mate_cheb1ap idx xprec xemax V xsz E HE xT); [apply Vs_acc|apply Vs_sym|exact Hr|apply napp_rps]. Qed.
Lemma cheb_zeros order : zk_z (@cheb1ap_dyn R RNum RTrans order rp) = [].
Proof. destruct order; reflexivity. Qed.
Lemma cheb_left order : Forall (fun p => cre p < 0) (zk_p (@cheb1ap_dyn R RNum RTrans order rp)).
Proof.
  destruct order as [|n]; [constructor|]. rewrite cheb1ap_eq by (assumption || lia). cbn [zk_p]. apply Forall_forall. intros c Hc. apply in_map_iff in Hc. destruct Hc as [k [<- Hk]]. apply in_seq in Hk.
  apply cp_stable; [lia|apply eps1_pos; exact Hr|lia].
Qed.
End Proto.

(** ** Exact designs *)
Section Exact.
Variables (w : R) (fs : option R) (bt : FilterBandType) (analog : option bool) (order : nat).
Hypothesis Hb : bt = Lowpass \/ bt = Highpass.
Hypothesis Ha : analog <> Some true.
Hypothesis Hv : valid_edge false w fs.
Lemma arity1 : (band_arity bt * order)%nat = order.
Proof. destruct Hb as [-> | ->]; cbn [band_arity]; lia. Qed.
Lemma butter_exact : exists h, (let! g := band bt (buttap_dyn order) (warped_freq false (norm_freq w fs)) in to_digital false g) = Ok h /\
  real_filter h /\ stable_digital h /\ length (zk_z h) = length (zk_p h) /\ length (zk_p h) = order /\
  (forall eps sort, butter_dyn eps sort order [w] (Some bt) analog (Some OutZpk) fs = Ok (DZpk h)) /\
  (forall sort, is_sort sort -> exists l, butter_dyn 0 sort order [w] (Some bt) analog (Some OutSos) fs = Ok (DSos l) /\ realises l h).
Proof.
  pose proof (edge_digital bt w fs Hb Hv) as Hd. destruct (edge_checks w fs false Hv) as [R1 R2].
  assert (Q : forall eps sort, exists h, (let! g := band bt (buttap_dyn order) (warped_freq false (norm_freq w fs)) in to_digital false g) = Ok h /\
    butter_dyn eps sort order [w] (Some bt) analog (Some OutZpk) fs = Ok (DZpk h) /\ butter_dyn eps sort order [w] (Some bt) analog (Some OutSos) fs = @P_Iir.finish eps sort order false (Some OutSos) h /\
    real_filter h /\ stable_digital h /\ length (zk_z h) = length (zk_p h) /\ length (zk_p h) = order).
  { intros eps sort. destruct (butter_digital eps sort order [w] bt analog fs Ha Hd) as [f [E1 [_ [E2 [P1 [P2 [L1 [L2 _]]]]]]]]. rewrite arity1 in L1, L2.
    exists f. split; [|split; [exact E1|split; [exact E2|split; [exact P1|split; [exact P2|split; [congruence|exact L2]]]]]].
    unfold butter_dyn in E1. cbn [unwrap_or] in E1. rewrite (not_analog analog Ha) in E1.
    rewrite (@iir_tail _ RNum RTrans eps sort order w None bt Butterworth (Some false) (Some OutZpk) fs (buttap_dyn order)) in E1; [|exact Hb|discriminate|exact R1|exact R2|left; auto].
    cbn [unwrap_or] in E1. rewrite <- bind_assoc in E1. set (m := (let! g := band bt (buttap_dyn order) (warped_freq false (norm_freq w fs)) in to_digital false g)) in *. destruct m as [h| | |]; cbn [bind emit] in E1; try discriminate. injection E1 as ->. reflexivity. }
  destruct (Q 0 isort) as (h & E1 & _ & _ & P1 & P2 & L1 & L2). exists h. split; [exact E1|]. split; [exact P1|]. split; [exact P2|]. split; [exact L1|]. split; [exact L2|]. split.
  - intros eps sort. destruct (Q eps sort) as (h' & E1' & E2 & _). assert (h' = h) by congruence. subst h'. exact E2.
  - intros sort Hs. destruct (Q 0 sort) as (h' & E1' & _ & E3 & _). assert (h' = h) by congruence. subst h'. rewrite E3. apply exact_sections; assumption.
Qed.
Variable rp : R.
Hypothesis Hr : 0 < rp.
Hypothesis Ho : (0 < order)%nat.
Lemma cheby1_exact : exists h, (let! g := band bt (cheb1ap_dyn order rp) (warped_freq false (norm_freq w fs)) in to_digital false g) = Ok h /\
  real_filter h /\ stable_digital h /\ length (zk_z h) = length (zk_p h) /\ length (zk_p h) = order /\
  (forall eps sort, cheby1_dyn eps sort order rp [w] (Some bt) analog (Some OutZpk) fs = Ok (DZpk h)) /\
  (forall sort, is_sort sort -> exists l, cheby1_dyn 0 sort order rp [w] (Some bt) analog (Some OutSos) fs = Ok (DSos l) /\ realises l h).
Proof.
  pose proof (edge_digital bt w fs Hb Hv) as Hd. destruct (edge_checks w fs false Hv) as [R1 R2].
  assert (Q : forall eps sort, exists h, (let! g := band bt (cheb1ap_dyn order rp) (warped_freq false (norm_freq w fs)) in to_digital false g) = Ok h /\
    cheby1_dyn eps sort order rp [w] (Some bt) analog (Some OutZpk) fs = Ok (DZpk h) /\ cheby1_dyn eps sort order rp [w] (Some bt) analog (Some OutSos) fs = @P_Iir.finish eps sort order false (Some OutSos) h /\
    real_filter h /\ stable_digital h /\ length (zk_z h) = length (zk_p h) /\ length (zk_p h) = order).
  { intros eps sort. destruct (cheby1_setup order rp Ho Hr) as [p [k [Hpr [Hs [Hc [Hl _]]]]]].
    destruct (digital_design eps sort ChebyshevI order (Some rp) None p k Hpr Hs Hc (cheby1_ripple_ok rp Hr)
              bt [w] (Some bt) (Some ChebyshevI) analog fs eq_refl eq_refl (not_analog analog Ha) Hd) as [f [E' [P1 [P2 [L1 [L2 _]]]]]]. rewrite Hl, arity1 in *.
    exists f. unfold cheby1_dyn. rewrite !E'. split; [|split; [reflexivity|split; [reflexivity|split; [exact P1|split; [exact P2|split; [congruence|exact L2]]]]]].
    specialize (E' (Some OutZpk)). 
    rewrite (@iir_tail _ RNum RTrans eps sort order w (Some rp) bt ChebyshevI analog (Some OutZpk) fs (cheb1ap_dyn order rp)) in E'; rewrite ?(not_analog analog Ha) in *; [|exact Hb|discriminate|exact R1|exact R2|].
    2:{ right. exists rp. split; [reflexivity|]. split; [reflexivity|]. split; [|reflexivity]. cbn [nltb RNum nzero]. unfold Rltb. destruct (Rlt_dec _ _); [lra|reflexivity]. }
    cbn [unwrap_or] in E'. rewrite <- bind_assoc in E'. set (m := (let! g := band bt (cheb1ap_dyn order rp) (warped_freq false (norm_freq w fs)) in to_digital false g)) in *. destruct m as [h| | |]; cbn [bind emit] in E'; try discriminate. injection E' as ->. reflexivity. }
  destruct (Q 0 isort) as (h & E1 & _ & _ & P1 & P2 & L1 & L2). exists h. split; [exact E1|]. split; [exact P1|]. split; [exact P2|]. split; [exact L1|]. split; [exact L2|]. split.
  - intros eps sort. destruct (Q eps sort) as (h' & E1' & E2 & _). assert (h' = h) by congruence. subst h'. exact E2.
  - intros sort Hs. destruct (Q 0 sort) as (h' & E1' & _ & E3 & _). assert (h' = h) by congruence. subst h'. rewrite E3. apply exact_sections; assumption.
Qed.
End Exact.

(** ** Float designs *)
Section FloatSide.
Variables (E w rp : R) (fs : option R) (bt : FilterBandType) (analog : option bool) (order : nat).
Hypothesis Hb : bt = Lowpass \/ bt = Highpass.
Hypothesis Ha : analog <> Some true.
Hypothesis Hv : valid_edge false w fs.
Lemma checks_ev : exists K, 1 <= K /\ forall i, fmt_ok idx xprec xemax (Vs E w rp fs) K i ->
  @nleb _ (NI i) (@norm_freq _ (NI i) (xw i) (xfs i)) (@nzero _ (NI i)) = false /\ @nleb _ (NI i) (@none _ (NI i)) (@norm_freq _ (NI i) (xw i) (xfs i)) = false.
Proof.
  destruct (final E w rp fs false Hv) as [K [HK Q]]. exists K. split; [exact HK|]. intros i (Vi & Hpe & Hu). destruct (Q i (conj (Vs_x E w rp fs i Vi) (conj Hpe Hu))) as [A [B _]]. split; [exact A|exact (B eq_refl)].
Qed.
Lemma butter_float i sort : @nleb _ (NI i) (@norm_freq _ (NI i) (xw i) (xfs i)) (@nzero _ (NI i)) = false -> @nleb _ (NI i) (@none _ (NI i)) (@norm_freq _ (NI i) (xw i) (xfs i)) = false ->
  @butter_dyn _ (NI i) (xT i) (machine_eps (xprec i)) sort order [xw i] (Some bt) analog (Some OutSos) (xfs i) = float_sections (fun i => @buttap_dyn _ (NI i) (xT i) order) bt i sort order.
Proof.
  intros C1 C2. unfold butter_dyn. cbn [unwrap_or]. rewrite (not_analog analog Ha).
  rewrite (@iir_tail _ (NI i) (xT i) (machine_eps (xprec i)) sort order (xw i) None bt Butterworth (Some false) (Some OutSos) (xfs i) (@buttap_dyn _ (NI i) (xT i) order)); [reflexivity|exact Hb|discriminate|exact C1|intros _; exact C2|left; auto].
Qed.
Lemma cheby1_float i sort : 0 < rp -> reads (xprec i) (xemax i) (xrp i) rp ->
  @nleb _ (NI i) (@norm_freq _ (NI i) (xw i) (xfs i)) (@nzero _ (NI i)) = false -> @nleb _ (NI i) (@none _ (NI i)) (@norm_freq _ (NI i) (xw i) (xfs i)) = false ->
  @cheby1_dyn _ (NI i) (xT i) (machine_eps (xprec i)) sort order (xrp i) [xw i] (Some bt) analog (Some OutSos) (xfs i) = float_sections (fun i => @cheb1ap_dyn _ (NI i) (xT i) order (xrp i)) bt i sort order.
Proof.
  intros Hr Rr C1 C2. unfold cheby1_dyn.
  rewrite (@iir_tail _ (NI i) (xT i) (machine_eps (xprec i)) sort order (xw i) (Some (xrp i)) bt ChebyshevI analog (Some OutSos) (xfs i) (@cheb1ap_dyn _ (NI i) (xT i) order (xrp i))); rewrite ?(not_analog analog Ha); [reflexivity|exact Hb|discriminate|exact C1|intros _; exact C2|].
  right. exists (xrp i). split; [reflexivity|]. split; [reflexivity|]. split; [|reflexivity]. destruct Rr as [Fr Er].
  change (SFltb (xrp i) (S754_zero false) = false). rewrite (ltb_fval (xprec i) (xemax i) (xrp i) (S754_zero false) Fr (conj eq_refl Logic.I)). rewrite Er. unfold Rltb. cbn [fval]. destruct (Rlt_dec _ _); [lra|reflexivity].
Qed.
End FloatSide.

Lemma within_mono prec emax e e' l r : e <= e' -> Forall2 (sos_within prec emax e) l r -> Forall2 (sos_within prec emax e') l r.
Proof.
  intros LE W. induction W as [|s t sf sr (F & N & H0 & H1 & H2) W IH]; constructor; [|exact IH]. split; [exact F|]. split; [|split; [exact H0|split; assumption]].
  clear - N LE. induction N; constructor; [lra|assumption].
Qed.

(** * C108 *)
Theorem C108_butter_sos_rounding (order : nat) (w : R) (fs : option R) (bt : FilterBandType) (analog : option bool) (E : R) :
  (bt = Lowpass \/ bt = Highpass) -> analog <> Some true -> valid_edge false w fs -> 0 <= E ->
  exists K, 1 <= K /\ forall prec emax szero (T : Trans spec_float) sort wf fsf,
  (1 < prec < emax)%Z -> is_list_sort sort -> accurate_trans prec emax E T -> symmetric_trans prec emax T ->
  reads prec emax wf w -> reads_opt prec emax fsf fs -> K * uround prec <= 1 ->
  exists f l r,
    butter_dyn 0 sort order [w] (Some bt) analog (Some OutZpk) fs = Ok (DZpk f) /\
    @butter_dyn _ (SFNum prec emax szero) T (machine_eps prec) sort order [wf] (Some bt) analog (Some OutSos) fsf = Ok (DSos l) /\
    length r = Nat.max 1 ((order + 1) / 2) /\ realises r f /\ stable_sections r /\
    Forall2 (sos_within prec emax (K * uround prec)) l r /\ stable_sections (map sos_val l).
Proof.
  intros Hb Ha Hv HE. destruct (butter_exact w fs bt analog order Hb Ha Hv) as (h & Eh & Rh & Sh & Lh & Lp & Ez & _).
  destruct (checks_ev E w 0 fs Hv) as (K1 & HK1 & Q1).
  destruct (sos_core E w 0 fs HE Hv _ _ bt Hb (butt_znapp E w 0 fs HE order) (butt_zmate E w 0 fs HE order) eq_refl (butt_left order) h Eh Rh Sh Lh) as (K2 & r & C & HK2 & Hr & HC & Q2).
  exists (K1 + K2). split; [lra|]. intros prec emax sz T sort wf fsf Hpe Hs HT HS Rw Rf Hu. set (i := mkIdx prec emax sz T wf (S754_zero false) fsf).
  assert (Hi : fmt_ok idx xprec xemax (Vs E w 0 fs) (K1 + K2) i).
  { split; [|split; [exact Hpe|exact Hu]]. split; [|exact HS]. split; [exact HT|]. split; [exact Rw|]. split; [|exact Rf]. split; [split; [reflexivity|exact Logic.I]|reflexivity]. }
  destruct (Q1 i (fmt_mono idx xprec xemax _ (K1 + K2) K1 i Hi ltac:(lra))) as [C1 C2].
  destruct (Q2 i (fmt_mono idx xprec xemax _ (K1 + K2) K2 i Hi ltac:(lra)) sort order Hs) as (sf & sr & E1 & Ls & RE & ST & W & _ & _ & SF).
  exists h, sf, sr. split; [apply Ez|]. split; [rewrite <- E1; exact (butter_float bt analog order Hb Ha i sort C1 C2)|]. split; [rewrite Ls, Lp; reflexivity|]. split; [exact RE|]. split; [exact ST|]. split; [|exact SF].
  eapply within_mono; [|exact W]. destruct (u_half prec (proj1 Hpe)) as [U0 _]. apply Rmult_le_compat_r; [exact (Rlt_le _ _ U0)|lra].
Qed.
Print Assumptions C108_butter_sos_rounding.

Theorem C108_cheby1_sos_rounding (order : nat) (rp w : R) (fs : option R) (bt : FilterBandType) (analog : option bool) (E : R) :
  (bt = Lowpass \/ bt = Highpass) -> analog <> Some true -> valid_edge false w fs -> (0 < order)%nat -> 0 < rp -> 0 <= E ->
  exists K, 1 <= K /\ forall prec emax szero (T : Trans spec_float) sort rpf wf fsf,
  (1 < prec < emax)%Z -> is_list_sort sort -> accurate_trans prec emax E T -> symmetric_trans prec emax T ->
  reads prec emax rpf rp -> reads prec emax wf w -> reads_opt prec emax fsf fs -> K * uround prec <= 1 ->
  exists f l r,
    cheby1_dyn 0 sort order rp [w] (Some bt) analog (Some OutZpk) fs = Ok (DZpk f) /\
    @cheby1_dyn _ (SFNum prec emax szero) T (machine_eps prec) sort order rpf [wf] (Some bt) analog (Some OutSos) fsf = Ok (DSos l) /\
    length r = Nat.max 1 ((order + 1) / 2) /\ realises r f /\ stable_sections r /\
    Forall2 (sos_within prec emax (K * uround prec)) l r /\ stable_sections (map sos_val l).
Proof.
  intros Hb Ha Hv Ho Hr HE. destruct (cheby1_exact w fs bt analog order Hb Ha Hv rp Hr Ho) as (h & Eh & Rh & Sh & Lh & Lp & Ez & _).
  destruct (checks_ev E w rp fs Hv) as (K1 & HK1 & Q1).
  destruct (sos_core E w rp fs HE Hv _ _ bt Hb (cheb_znapp E w rp fs HE Hr order) (cheb_zmate E w rp fs HE Hr order) (cheb_zeros rp order) (cheb_left rp Hr order) h Eh Rh Sh Lh) as (K2 & r & C & HK2 & Hr' & HC & Q2).
  exists (K1 + K2). split; [lra|]. intros prec emax sz T sort rpf wf fsf Hpe Hs HT HS Rr Rw Rf Hu. set (i := mkIdx prec emax sz T wf rpf fsf).
  assert (Hi : fmt_ok idx xprec xemax (Vs E w rp fs) (K1 + K2) i).
  { split; [|split; [exact Hpe|exact Hu]]. split; [|exact HS]. split; [exact HT|]. split; [exact Rw|]. split; [exact Rr|exact Rf]. }
  destruct (Q1 i (fmt_mono idx xprec xemax _ (K1 + K2) K1 i Hi ltac:(lra))) as [C1 C2].
  destruct (Q2 i (fmt_mono idx xprec xemax _ (K1 + K2) K2 i Hi ltac:(lra)) sort order Hs) as (sf & sr & E1 & Ls & RE & ST & W & _ & _ & SF).
  exists h, sf, sr. split; [apply Ez|]. split; [rewrite <- E1; exact (cheby1_float rp bt analog order Hb Ha i sort Hr Rr C1 C2)|]. split; [rewrite Ls, Lp; reflexivity|]. split; [exact RE|]. split; [exact ST|]. split; [|exact SF].
  eapply within_mono; [|exact W]. destruct (u_half prec (proj1 Hpe)) as [U0 _]. apply Rmult_le_compat_r; [exact (Rlt_le _ _ U0)|lra].
Qed.
Print Assumptions C108_cheby1_sos_rounding.

(** * C109 *)
(** Design and filter in floats; design and filter in real numbers; the outputs differ by
    at most K (u X + tiny) at every sample, where X bounds the input, u is the unit
    roundoff and tiny the smallest positive float.  K depends on the design only. *)
Theorem C109_butter_filter (order : nat) (w : R) (fs : option R) (bt : FilterBandType) (analog : option bool) (E : R) :
  (bt = Lowpass \/ bt = Highpass) -> analog <> Some true -> valid_edge false w fs -> 0 <= E ->
  exists K, 1 <= K /\ forall prec emax szero (T : Trans spec_float) sort wf fsf,
  (1 < prec < emax)%Z -> is_list_sort sort -> accurate_trans prec emax E T -> symmetric_trans prec emax T ->
  reads prec emax wf w -> reads_opt prec emax fsf fs -> K * uround prec <= 1 ->
  exists lf l,
    @butter_dyn _ (SFNum prec emax szero) T (machine_eps prec) sort order [wf] (Some bt) analog (Some OutSos) fsf = Ok (DSos lf) /\
    butter_dyn 0 sort order [w] (Some bt) analog (Some OutSos) fs = Ok (DSos l) /\
    forall x X, Forall (finite prec emax) x -> 0 <= X -> Forall (fun v => Rabs (fval v) <= X) x -> K * (X + ftiny prec emax) <= fmax prec emax ->
    exists yf lf' y l',
      @sosfilt_dyn _ (SFNum prec emax szero) x lf = Ok (yf, lf') /\ sosfilt_dyn (map fval x) l = Ok (y, l') /\
      length yf = length x /\ length y = length x /\ Forall (finite prec emax) yf /\
      forall n, (n < length x)%nat -> Rabs (fval (nth n yf (S754_zero false)) - nth n y 0) <= K * (uround prec * X + ftiny prec emax).
Proof.
  intros Hb Ha Hv HE. destruct (butter_exact w fs bt analog order Hb Ha Hv) as (h & Eh & Rh & Sh & Lh & Lp & _ & Es).
  destruct (checks_ev E w 0 fs Hv) as (K1 & HK1 & Q1).
  destruct (pipe_core E w 0 fs HE Hv _ _ bt Hb (butt_znapp E w 0 fs HE order) (butt_zmate E w 0 fs HE order) eq_refl (butt_left order) h Eh Rh Sh Lh) as (K2 & HK2 & Q2).
  exists (K1 + K2). split; [lra|]. intros prec emax sz T sort wf fsf Hpe Hs HT HS Rw Rf Hu. set (i := mkIdx prec emax sz T wf (S754_zero false) fsf).
  assert (Hi : fmt_ok idx xprec xemax (Vs E w 0 fs) (K1 + K2) i).
  { split; [|split; [exact Hpe|exact Hu]]. split; [|exact HS]. split; [exact HT|]. split; [exact Rw|]. split; [|exact Rf]. split; [split; [reflexivity|exact Logic.I]|reflexivity]. }
  destruct (Q1 i (fmt_mono idx xprec xemax _ (K1 + K2) K1 i Hi ltac:(lra))) as [C1 C2].
  destruct (Q2 i (fmt_mono idx xprec xemax _ (K1 + K2) K2 i Hi ltac:(lra)) sort order Hs) as (sf & E1 & P). destruct (Es sort (list_sort_sort sort Hs)) as (l & El & Rl).
  exists sf, l. split; [rewrite <- E1; exact (butter_float bt analog order Hb Ha i sort C1 C2)|]. split; [exact El|]. intros x X Fx HX Bx HM. pose proof (tiny_pos prec emax) as TP. destruct (u_half prec (proj1 Hpe)) as [U0 _].
  assert (UX : 0 <= uround prec * X) by (apply Rmult_le_pos; [exact (Rlt_le _ _ U0)|exact HX]).
  destruct (P x X Fx HX Bx) as (yf & lf' & F1 & L1 & F2 & G). { eapply Rle_trans; [|exact HM]. apply Rmult_le_compat_r; [change (0 <= X + ftiny prec emax); lra|lra]. }
  destruct (G l Rl) as (y & l' & F3 & L2 & B). exists yf, lf', y, l'. split; [exact F1|]. split; [exact F3|]. split; [exact L1|]. split; [exact L2|]. split; [exact F2|].
  intros n Hn. eapply Rle_trans; [exact (B n Hn)|]. apply Rmult_le_compat_r; [change (0 <= uround prec * X + ftiny prec emax); lra|lra].
Qed.
Print Assumptions C109_butter_filter.

Theorem C109_cheby1_filter (order : nat) (rp w : R) (fs : option R) (bt : FilterBandType) (analog : option bool) (E : R) :
  (bt = Lowpass \/ bt = Highpass) -> analog <> Some true -> valid_edge false w fs -> (0 < order)%nat -> 0 < rp -> 0 <= E ->
  exists K, 1 <= K /\ forall prec emax szero (T : Trans spec_float) sort rpf wf fsf,
  (1 < prec < emax)%Z -> is_list_sort sort -> accurate_trans prec emax E T -> symmetric_trans prec emax T ->
  reads prec emax rpf rp -> reads prec emax wf w -> reads_opt prec emax fsf fs -> K * uround prec <= 1 ->
  exists lf l,
    @cheby1_dyn _ (SFNum prec emax szero) T (machine_eps prec) sort order rpf [wf] (Some bt) analog (Some OutSos) fsf = Ok (DSos lf) /\
    cheby1_dyn 0 sort order rp [w] (Some bt) analog (Some OutSos) fs = Ok (DSos l) /\
    forall x X, Forall (finite prec emax) x -> 0 <= X -> Forall (fun v => Rabs (fval v) <= X) x -> K * (X + ftiny prec emax) <= fmax prec emax ->
    exists yf lf' y l',
      @sosfilt_dyn _ (SFNum prec emax szero) x lf = Ok (yf, lf') /\ sosfilt_dyn (map fval x) l = Ok (y, l') /\
      length yf = length x /\ length y = length x /\ Forall (finite prec emax) yf /\
      forall n, (n < length x)%nat -> Rabs (fval (nth n yf (S754_zero false)) - nth n y 0) <= K * (uround prec * X + ftiny prec emax).
Proof.
  intros Hb Ha Hv Ho Hr HE. destruct (cheby1_exact w fs bt analog order Hb Ha Hv rp Hr Ho) as (h & Eh & Rh & Sh & Lh & Lp & _ & Es).
  destruct (checks_ev E w rp fs Hv) as (K1 & HK1 & Q1).
  destruct (pipe_core E w rp fs HE Hv _ _ bt Hb (cheb_znapp E w rp fs HE Hr order) (cheb_zmate E w rp fs HE Hr order) (cheb_zeros rp order) (cheb_left rp Hr order) h Eh Rh Sh Lh) as (K2 & HK2 & Q2).
  exists (K1 + K2). split; [lra|]. intros prec emax sz T sort rpf wf fsf Hpe Hs HT HS Rr Rw Rf Hu. set (i := mkIdx prec emax sz T wf rpf fsf).
  assert (Hi : fmt_ok idx xprec xemax (Vs E w rp fs) (K1 + K2) i).
  { split; [|split; [exact Hpe|exact Hu]]. split; [|exact HS]. split; [exact HT|]. split; [exact Rw|]. split; [exact Rr|exact Rf]. }
  destruct (Q1 i (fmt_mono idx xprec xemax _ (K1 + K2) K1 i Hi ltac:(lra))) as [C1 C2].
  destruct (Q2 i (fmt_mono idx xprec xemax _ (K1 + K2) K2 i Hi ltac:(lra)) sort order Hs) as (sf & E1 & P). destruct (Es sort (list_sort_sort sort Hs)) as (l & El & Rl).
  exists sf, l. split; [rewrite <- E1; exact (cheby1_float rp bt analog order Hb Ha i sort Hr Rr C1 C2)|]. split; [exact El|]. intros x X Fx HX Bx HM. pose proof (tiny_pos prec emax) as TP. destruct (u_half prec (proj1 Hpe)) as [U0 _].
  assert (UX : 0 <= uround prec * X) by (apply Rmult_le_pos; [exact (Rlt_le _ _ U0)|exact HX]).
  destruct (P x X Fx HX Bx) as (yf & lf' & F1 & L1 & F2 & G). { eapply Rle_trans; [|exact HM]. apply Rmult_le_compat_r; [change (0 <= X + ftiny prec emax); lra|lra]. }
  destruct (G l Rl) as (y & l' & F3 & L2 & B). exists yf, lf', y, l'. split; [exact F1|]. split; [exact F3|]. split; [exact L1|]. split; [exact L2|]. split; [exact F2|].
  intros n Hn. eapply Rle_trans; [exact (B n Hn)|]. apply Rmult_le_compat_r; [change (0 <= uround prec * X + ftiny prec emax); lra|lra].
Qed.
Print Assumptions C109_cheby1_filter.

(** ** Hypotheses met: rounding the exact value gives a symmetric library, and insertion
    sorts *)
Section Symmetric.
Variables prec emax : Z.
Hypothesis Hpe : (1 < prec < emax)%Z.
Lemma rounded_opp v : Rabs v <= fmax prec emax -> fval (rounded prec emax (- v)) = - fval (rounded prec emax v).
Proof.
  intros B. destruct (rounded_ok prec emax Hpe v B) as [_ ->]. destruct (rounded_ok prec emax Hpe (- v)) as [_ ->]; [rewrite Rabs_Ropp; exact B|]. apply round_NE_opp.
Qed.
Lemma small_abs v : Rabs v <= 4 -> Rabs v <= fmax prec emax.
Proof. intros H. pose proof (small_fmax _ _ Hpe). lra. Qed.
Lemma Ratan2_odd x y : x <> 0 -> y <> 0 -> Ratan2 (- y) x = - Ratan2 y x.
Proof.
  intros Hx Hy. unfold Ratan2. replace (- y / x) with (- (y / x)) by (unfold Rdiv; ring). rewrite atan_opp.
  repeat match goal with |- context [Rlt_dec ?a ?b] => destruct (Rlt_dec a b) | |- context [Rle_dec ?a ?b] => destruct (Rle_dec a b) | |- context [Req_EM_T ?a ?b] => destruct (Req_EM_T a b) end; lra.
Qed.
Lemma rounded_nn v : 0 <= v -> finite prec emax (rounded prec emax v) -> 0 <= fval (rounded prec emax v).
Proof.
  intros P. assert (Hp : Prec_gt_0 prec) by (unfold Prec_gt_0; lia). assert (He : Prec_lt_emax prec emax) by (unfold Prec_lt_emax; lia).
  unfold rounded. rewrite (normalize_equiv prec emax Hp He). intros F.
  match goal with |- context [BinarySingleNaN.binary_normalize _ _ _ _ _ ?m ?e ?s] => pose proof (binary_normalize_correct prec emax Hp He mode_NE m e s) as C; set (M := m) in *; set (X := e) in * end.
  cbv zeta in C. destruct (Rlt_bool _ _) in C.
  - destruct C as [C1 [C2 _]]. destruct (B_finite _ _ _ C2) as [_ ->]. rewrite C1.
    rewrite <- (round_0 radix2 (SpecFloat.fexp prec emax) (round_mode mode_NE)). apply round_le; [apply fexp_correct; exact Hp|apply valid_rnd_round_mode|].
    assert (G : generic_format radix2 (FLT_exp (SpecFloat.emin prec emax) prec) (round radix2 (FLT_exp (SpecFloat.emin prec emax) prec) ZnearestE v)) by (apply generic_format_round; [apply FLT_exp_valid; exact Hp|apply valid_rnd_N]).
    unfold M, X. rewrite <- G. rewrite <- (round_0 radix2 (FLT_exp (SpecFloat.emin prec emax) prec) ZnearestE). apply round_le; [apply FLT_exp_valid; exact Hp|apply valid_rnd_N|exact P].
  - exfalso. rewrite C in F. destruct F as [_ F]. unfold binary_overflow in F. cbn in F. exact F.
Qed.
Lemma rounding_library_symmetric : symmetric_trans prec emax (rounding_library prec emax).
Proof.
  constructor.
  - intros x y _ _ H. cbn [tsin rounding_library]. rewrite H, sin_neg. apply rounded_opp, small_abs. pose proof (SIN_bound (fval x)) as B. apply Rabs_le. lra.
  - intros x y _ _ H. cbn [tcos rounding_library]. rewrite H, cos_neg. reflexivity.
  - intros x x' y y' _ _ _ _ H1 H2. cbn [thypot rounding_library]. rewrite H1, H2. do 2 f_equal. f_equal. ring.
  - intros x y _ _. cbn [thypot rounding_library]. apply rounded_nn, sqrt_pos.
  - intros x y _ _ H1 H2. cbn [thypot rounding_library]. rewrite H1, H2, Rmult_0_l, Rplus_0_l, sqrt_0.
    destruct (rounded_ok prec emax Hpe 0) as [A ->]; [rewrite Rabs_R0; pose proof (small_fmax _ _ Hpe); lra|]. split; [exact A|]. apply round_0. apply valid_rnd_N.
  - intros x x' y y' _ _ _ _ H1 H2 N1 N2. cbn [tatan2 rounding_library]. rewrite H1, H2, Ratan2_odd by assumption. apply rounded_opp, small_abs.
    destruct (P_Sqrt.atan2_polar (fval x) (fval y) (or_introl N1)) as (_ & _ & B & _). pose proof PI_4. apply Rabs_le. lra.
Qed.
End Symmetric.
Lemma insert_in {A} (le : A -> A -> bool) x l y : In y (insert le x l) -> y = x \/ In y l.
Proof. intros H. apply (Permutation_in _ (Permutation_sym (insert_perm le x l))) in H. destruct H as [H|H]; [left; congruence|right; exact H]. Qed.
Lemma isort_list_sort : is_list_sort isort.
Proof.
  intros A le l. split; [apply isort_is_sort|]. intros T Tr. induction l as [|x l IH]; [constructor|]. cbn [isort fold_right].
  assert (S : StronglySorted (fun a b => le a b = true) (isort A le l)) by (apply IH; intros; [apply T|eapply Tr; try eassumption]; right; assumption). clear IH.
  assert (P : Permutation l (isort A le l)) by apply isort_is_sort. change (fold_right (insert le) [] l) with (isort A le l).
  assert (T' : forall a b, In a (x :: isort A le l) -> In b (x :: isort A le l) -> le a b = true \/ le b a = true) by (intros a b Ha Hb; apply T; eapply Permutation_in; try eassumption; apply perm_skip, Permutation_sym, P).
  assert (Tr' : forall a b c, In a (x :: isort A le l) -> In b (x :: isort A le l) -> In c (x :: isort A le l) -> le a b = true -> le b c = true -> le a c = true).
  { assert (J : forall a, In a (x :: isort A le l) -> In a (x :: l)) by (intros a Ha; eapply Permutation_in; [|exact Ha]; apply perm_skip, Permutation_sym, P). intros a b c Ha Hb Hc. apply Tr; apply J; assumption. }
  clear P T Tr. induction (isort A le l) as [|y m IH]; [repeat constructor|]. cbn [insert]. inversion S as [|? ? S1 F]; subst. destruct (le x y) eqn:E.
  - constructor; [exact S|]. constructor; [exact E|]. rewrite Forall_forall in F |- *. intros z Hz. apply (Tr' x y z); cbn; auto.
  - constructor.
    + apply IH; [exact S1| |]; intros; [apply T'|eapply Tr'; try eassumption]; cbn in *; intuition.
    + apply Forall_forall. intros z Hz. apply insert_in in Hz. destruct Hz as [->|Hz]; [|rewrite Forall_forall in F; apply F, Hz]. destruct (T' x y) as [Q|Q]; [left; reflexivity|right; left; reflexivity|congruence|exact Q].
Qed.
(** Edge 1 at sampling rate 4, any order: for every constant there are a format fine enough
    and a library that meet the hypotheses. *)
Example C108_hyp_met : valid_edge false 1 (Some 4) /\ is_list_sort isort /\ forall K, exists prec emax T wf fsf, (1 < prec < emax)%Z /\
  accurate_trans prec emax 5 T /\ symmetric_trans prec emax T /\ reads prec emax wf 1 /\ reads_opt prec emax (Some fsf) (Some 4) /\ K * uround prec <= 1.
Proof.
  split; [cbn; repeat split; lra|]. split; [exact isort_list_sort|]. intros K. destruct (fine_format K) as [prec [emax [Hpe Hu]]].
  exists prec, emax, (rounding_library prec emax), (SpecFloat.binary_normalize prec emax 1 0 false), (SpecFloat.binary_normalize prec emax 4 0 false).
  split; [exact Hpe|]. split; [apply rounding_library_accurate; exact Hpe|]. split; [apply rounding_library_symmetric; exact Hpe|]. split; [apply small_int; [exact Hpe|lia]|]. split; [|exact Hu].
  apply (fofZ_ok prec emax ltac:(unfold Prec_gt_0; lia) ltac:(unfold Prec_lt_emax; lia) 4).
  - cbn [Z.abs]. change 4%Z with (2 ^ 2)%Z. apply Z.pow_le_mono_r; lia.
  - cbn [Z.abs]. apply small_fmax. exact Hpe.
Qed.
