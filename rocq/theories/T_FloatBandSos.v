(** C112: second-order sections of band-pass and band-stop filters designed in floating
    point, and filtering with them.  As for low- and high-pass filters (C108, C109): at every
    IEEE 754 format fine enough and with every library of elementary functions that is
    accurate and respects the reflection in the real axis, the design succeeds, its sections
    are close to sections of real numbers that make up the exact filter and are stable, and
    a signal filtered with them comes out close to the exact output, at every sample. *)
From Coq Require Import Reals ZArith SpecFloat List Lia Lra Bool Permutation Sorted.
From Flocq Require Import Core BinarySingleNaN.
From Verif Require Import Base Num Trans M_Complex M_Filter M_Design Cx S_Design S_Filter S_Stable S_Float S_FloatFft S_FloatZpk S_FloatTrans S_FloatBand S_FloatSos
  P_Sort P_Float P_FloatStats P_Poly P_Lp P_Proto P_Cheb P_Iir P_Iir2 T_Iir P_FloatMed P_FloatI0 P_FloatZi P_FloatPoly T_FloatPoly P_FloatDesign T_FloatDesign P_FloatSqrt P_FloatBand P_FloatBandStage T_FloatBand
  P_FloatFilt T_FloatFilt P_FloatSym P_FloatMate P_FloatSos T_Sos P_FloatSosCore T_FloatSos P_FloatBandMate P_FloatBandSos.
Import ListNotations.
Local Open Scope R_scope.
Notation pr2 := (fun j : idx2 => xprec (fst j)).
Notation em2 := (fun j : idx2 => xemax (fst j)).
Notation sz2 := (fun j : idx2 => xsz (fst j)).
Notation T2 := (fun j : idx2 => xT (fst j)).
Notation NJ j := (SFNum (xprec (fst j)) (xemax (fst j)) (xsz (fst j))).

Lemma band_digital bt w0 w1 fs : (bt = Bandpass \/ bt = Bandstop) -> valid_band false w0 w1 fs -> valid_digital bt (normalised [w0; w1] fs).
Proof.
  intros Hb (A & B & L). unfold valid_digital, normalised, valid_edge in *.
  assert (G : forall x y, 0 < x < 1 -> 0 < y < 1 -> x < y -> length [x; y] = band_arity bt /\ Forall (fun w => 0 < w < 1) [x; y] /\ StronglySorted Rlt [x; y]).
  { intros x y Hx Hy Hl. split; [destruct Hb as [-> | ->]; reflexivity|]. split; [repeat constructor; lra|repeat constructor; lra]. }
  destruct fs as [s|]; cbn [map].
  - apply G; [apply A|apply B|]. destruct A as [_ [S _]]. unfold Rdiv. apply Rmult_lt_compat_r; [apply Rinv_0_lt_compat; exact S|lra].
  - destruct A as [A1 A2], B as [B1 B2]. specialize (A2 eq_refl). specialize (B2 eq_refl). apply G; lra.
Qed.

(** ** Exact designs *)
Section Exact.
Variables (w0 w1 : R) (fs : option R) (bt : FilterBandType) (analog : option bool) (order : nat).
Hypothesis Hb : bt = Bandpass \/ bt = Bandstop.
Hypothesis Ha : analog <> Some true.
Hypothesis Hv : valid_band false w0 w1 fs.
Notation W0 := (warped_freq false (norm_freq w0 fs)).
Notation W1 := (warped_freq false (norm_freq w1 fs)).
Lemma arity2 : (band_arity bt * order)%nat = (2 * order)%nat.
Proof. destruct Hb as [-> | ->]; reflexivity. Qed.
Lemma butter_exact2 : exists h, (let! g := band2 bt (buttap_dyn order) W0 W1 in to_digital false g) = Ok h /\
  real_filter h /\ stable_digital h /\ length (zk_z h) = length (zk_p h) /\ length (zk_p h) = (2 * order)%nat /\
  (forall eps sort, butter_dyn eps sort order [w0; w1] (Some bt) analog (Some OutZpk) fs = Ok (DZpk h)) /\
  (forall sort, is_sort sort -> exists l, butter_dyn 0 sort order [w0; w1] (Some bt) analog (Some OutSos) fs = Ok (DSos l) /\ realises l h).
Proof.
  pose proof (band_digital bt w0 w1 fs Hb Hv) as Hd. destruct (real_checks w0 w1 fs false Hv) as (B1 & B2 & B3 & B4 & B5).
  assert (Q : forall eps sort, exists h, (let! g := band2 bt (buttap_dyn order) W0 W1 in to_digital false g) = Ok h /\
    butter_dyn eps sort order [w0; w1] (Some bt) analog (Some OutZpk) fs = Ok (DZpk h) /\ butter_dyn eps sort order [w0; w1] (Some bt) analog (Some OutSos) fs = @P_Iir.finish eps sort order false (Some OutSos) h /\
    real_filter h /\ stable_digital h /\ length (zk_z h) = length (zk_p h) /\ length (zk_p h) = (2 * order)%nat).
  { intros eps sort. destruct (butter_digital eps sort order [w0; w1] bt analog fs Ha Hd) as [f [E1 [_ [E2 [P1 [P2 [L1 [L2 _]]]]]]]]. rewrite arity2 in L1, L2.
    exists f. split; [|split; [exact E1|split; [exact E2|split; [exact P1|split; [exact P2|split; [congruence|exact L2]]]]]].
    unfold butter_dyn in E1. cbn [unwrap_or] in E1. rewrite (not_analog analog Ha) in E1.
    rewrite (@iir_tail2 _ RNum RTrans eps sort order w0 w1 None bt Butterworth (Some false) (Some OutZpk) fs (buttap_dyn order)) in E1; [|exact Hb|discriminate|exact B1|exact B2|exact B3|exact B4|exact B5|left; auto].
    cbn [unwrap_or] in E1. rewrite <- bind_assoc in E1. set (m := (let! g := band2 bt (buttap_dyn order) W0 W1 in to_digital false g)) in *. destruct m as [h| | |]; cbn [bind emit] in E1; try discriminate. injection E1 as ->. reflexivity. }
  destruct (Q 0 isort) as (h & E1 & _ & _ & P1 & P2 & L1 & L2). exists h. split; [exact E1|]. split; [exact P1|]. split; [exact P2|]. split; [exact L1|]. split; [exact L2|]. split.
  - intros eps sort. destruct (Q eps sort) as (h' & E1' & E2 & _). assert (h' = h) by congruence. subst h'. exact E2.
  - intros sort Hs. destruct (Q 0 sort) as (h' & E1' & _ & E3 & _). assert (h' = h) by congruence. subst h'. rewrite E3. apply exact_sections; assumption.
Qed.
Variable rp : R.
Hypothesis Hr : 0 < rp.
Hypothesis Ho : (0 < order)%nat.
Lemma cheby1_exact2 : exists h, (let! g := band2 bt (cheb1ap_dyn order rp) W0 W1 in to_digital false g) = Ok h /\
  real_filter h /\ stable_digital h /\ length (zk_z h) = length (zk_p h) /\ length (zk_p h) = (2 * order)%nat /\
  (forall eps sort, cheby1_dyn eps sort order rp [w0; w1] (Some bt) analog (Some OutZpk) fs = Ok (DZpk h)) /\
  (forall sort, is_sort sort -> exists l, cheby1_dyn 0 sort order rp [w0; w1] (Some bt) analog (Some OutSos) fs = Ok (DSos l) /\ realises l h).
Proof.
  pose proof (band_digital bt w0 w1 fs Hb Hv) as Hd. destruct (real_checks w0 w1 fs false Hv) as (B1 & B2 & B3 & B4 & B5).
  assert (Q : forall eps sort, exists h, (let! g := band2 bt (cheb1ap_dyn order rp) W0 W1 in to_digital false g) = Ok h /\
    cheby1_dyn eps sort order rp [w0; w1] (Some bt) analog (Some OutZpk) fs = Ok (DZpk h) /\ cheby1_dyn eps sort order rp [w0; w1] (Some bt) analog (Some OutSos) fs = @P_Iir.finish eps sort order false (Some OutSos) h /\
    real_filter h /\ stable_digital h /\ length (zk_z h) = length (zk_p h) /\ length (zk_p h) = (2 * order)%nat).
  { intros eps sort. destruct (cheby1_setup order rp Ho Hr) as [p [k [Hpr [Hs [Hc [Hl _]]]]]].
    destruct (digital_design eps sort ChebyshevI order (Some rp) None p k Hpr Hs Hc (cheby1_ripple_ok rp Hr)
              bt [w0; w1] (Some bt) (Some ChebyshevI) analog fs eq_refl eq_refl (not_analog analog Ha) Hd) as [f [E' [P1 [P2 [L1 [L2 _]]]]]]. rewrite Hl, arity2 in *.
    exists f. unfold cheby1_dyn. rewrite !E'. split; [|split; [reflexivity|split; [reflexivity|split; [exact P1|split; [exact P2|split; [congruence|exact L2]]]]]].
    specialize (E' (Some OutZpk)).
    rewrite (@iir_tail2 _ RNum RTrans eps sort order w0 w1 (Some rp) bt ChebyshevI analog (Some OutZpk) fs (cheb1ap_dyn order rp)) in E'; rewrite ?(not_analog analog Ha) in *; [|exact Hb|discriminate|exact B1|exact B2|exact B3|exact B4|exact B5|].
    2:{ right. exists rp. split; [reflexivity|]. split; [reflexivity|]. split; [|reflexivity]. cbn [nltb RNum nzero]. unfold Rltb. destruct (Rlt_dec _ _); [lra|reflexivity]. }
    cbn [unwrap_or] in E'. rewrite <- bind_assoc in E'. set (m := (let! g := band2 bt (cheb1ap_dyn order rp) W0 W1 in to_digital false g)) in *. destruct m as [h| | |]; cbn [bind emit] in E'; try discriminate. injection E' as ->. reflexivity. }
  destruct (Q 0 isort) as (h & E1 & _ & _ & P1 & P2 & L1 & L2). exists h. split; [exact E1|]. split; [exact P1|]. split; [exact P2|]. split; [exact L1|]. split; [exact L2|]. split.
  - intros eps sort. destruct (Q eps sort) as (h' & E1' & E2 & _). assert (h' = h) by congruence. subst h'. exact E2.
  - intros sort Hs. destruct (Q 0 sort) as (h' & E1' & _ & E3 & _). assert (h' = h) by congruence. subst h'. rewrite E3. apply exact_sections; assumption.
Qed.
End Exact.

(** ** Float designs *)
Section FloatSide.
Variables (E w0 w1 rp : R) (fs : option R) (bt : FilterBandType) (analog : option bool) (order : nat).
Hypothesis HE : 0 <= E.
Hypothesis Hb : bt = Bandpass \/ bt = Bandstop.
Hypothesis Ha : analog <> Some true.
Hypothesis Hv : valid_band false w0 w1 fs.
Notation W0 := (warped_freq false (norm_freq w0 fs)).
Notation W1 := (warped_freq false (norm_freq w1 fs)).
Definition Vb (j : idx2) : Prop := V2 E w0 w1 rp fs j /\ symmetric_trans (xprec (fst j)) (xemax (fst j)) (xT (fst j)).
Lemma Vb_V2 j : Vb j -> V2 E w0 w1 rp fs j.
Proof. intros H. apply H. Qed.
Lemma Vb_acc j : Vb j -> (1 < xprec (fst j) < xemax (fst j))%Z -> accurate_trans (xprec (fst j)) (xemax (fst j)) E (xT (fst j)).
Proof. intros [[[H _] _] _] _. exact H. Qed.
Lemma Vb_sym j : Vb j -> (1 < xprec (fst j) < xemax (fst j))%Z -> symmetric_trans (xprec (fst j)) (xemax (fst j)) (xT (fst j)).
Proof. intros [_ H] _. exact H. Qed.
Definition bandf (gf : idx2 -> @ZpkFormatFilter spec_float) (j : idx2) : res (@ZpkFormatFilter spec_float) :=
  @band2 _ (NJ j) (xT (fst j)) bt (gf j) (@warped_freq _ (NJ j) (xT (fst j)) false (xf0 j)) (@warped_freq _ (NJ j) (xT (fst j)) false (xf1 j)).
Lemma band_staged g gf : znapp idx2 pr2 em2 Vb sz2 g gf -> zmate idx2 pr2 em2 Vb sz2 g gf -> zk_z g = [] -> Forall (fun p => cre p < 0) (zk_p g) -> conj_closed (zk_p g) -> no_double bt (zk_p g) W0 W1 ->
  mstaged idx2 pr2 em2 sz2 Vb (band2 bt g W0 W1) (bandf gf) good.
Proof.
  intros N M Z P CC ND. apply (mate_band2 idx2 pr2 em2 sz2 E HE T2 Vb Vb_acc Vb_sym); try assumption.
  - exact (napp_pull (fun j => j) pr2 em2 _ Vb _ _ Vb_V2 (napp_W0 E w0 w1 rp fs false HE Hv)).
  - exact (napp_pull (fun j => j) pr2 em2 _ Vb _ _ Vb_V2 (napp_W1 E w0 w1 rp fs false HE Hv)).
  - exact (warped_pos w0 w1 fs false Hv).
  - exact (warped_lt w0 w1 fs false Hv).
Qed.
Lemma checks2 : exists K, 1 <= K /\ forall j, fmt_ok idx2 pr2 em2 Vb K j ->
  @nleb _ (NJ j) (xf0 j) (@nzero _ (NJ j)) = false /\ @nleb _ (NJ j) (xf1 j) (@nzero _ (NJ j)) = false /\ @nleb _ (NJ j) (xf1 j) (xf0 j) = false /\
  @nleb _ (NJ j) (@none _ (NJ j)) (xf0 j) = false /\ @nleb _ (NJ j) (@none _ (NJ j)) (xf1 j) = false.
Proof.
  destruct (checks E w0 w1 rp fs false Hv) as [K [HK Q]]. exists K. split; [exact HK|]. intros j (Vj & Hpe & Hu). destruct (Q j (conj (Vb_V2 j Vj) (conj Hpe Hu))) as (A & B & D & F & G & _). repeat split; auto.
Qed.
Lemma butter_float2 j sort : @nleb _ (NJ j) (xf0 j) (@nzero _ (NJ j)) = false /\ @nleb _ (NJ j) (xf1 j) (@nzero _ (NJ j)) = false /\ @nleb _ (NJ j) (xf1 j) (xf0 j) = false /\
  @nleb _ (NJ j) (@none _ (NJ j)) (xf0 j) = false /\ @nleb _ (NJ j) (@none _ (NJ j)) (xf1 j) = false ->
  @butter_dyn _ (NJ j) (xT (fst j)) (machine_eps (xprec (fst j))) sort order [xw (fst j); snd j] (Some bt) analog (Some OutSos) (xfs (fst j)) =
  sections_of idx2 pr2 em2 sz2 T2 (bandf (fun j => @buttap_dyn _ (NJ j) (xT (fst j)) order)) j sort order.
Proof.
  intros (C1 & C2 & C3 & C4 & C5). unfold butter_dyn. cbn [unwrap_or]. rewrite (not_analog analog Ha).
  rewrite (@iir_tail2 _ (NJ j) (xT (fst j)) (machine_eps (xprec (fst j))) sort order (xw (fst j)) (snd j) None bt Butterworth (Some false) (Some OutSos) (xfs (fst j)) (@buttap_dyn _ (NJ j) (xT (fst j)) order));
    [reflexivity|exact Hb|discriminate|exact C1|exact C2|exact C3|intros _; exact C4|intros _; exact C5|left; auto].
Qed.
Lemma cheby1_float2 j sort : 0 < rp -> reads (xprec (fst j)) (xemax (fst j)) (xrp (fst j)) rp ->
  @nleb _ (NJ j) (xf0 j) (@nzero _ (NJ j)) = false /\ @nleb _ (NJ j) (xf1 j) (@nzero _ (NJ j)) = false /\ @nleb _ (NJ j) (xf1 j) (xf0 j) = false /\
  @nleb _ (NJ j) (@none _ (NJ j)) (xf0 j) = false /\ @nleb _ (NJ j) (@none _ (NJ j)) (xf1 j) = false ->
  @cheby1_dyn _ (NJ j) (xT (fst j)) (machine_eps (xprec (fst j))) sort order (xrp (fst j)) [xw (fst j); snd j] (Some bt) analog (Some OutSos) (xfs (fst j)) =
  sections_of idx2 pr2 em2 sz2 T2 (bandf (fun j => @cheb1ap_dyn _ (NJ j) (xT (fst j)) order (xrp (fst j)))) j sort order.
Proof.
  intros Hr Rr (C1 & C2 & C3 & C4 & C5). unfold cheby1_dyn.
  rewrite (@iir_tail2 _ (NJ j) (xT (fst j)) (machine_eps (xprec (fst j))) sort order (xw (fst j)) (snd j) (Some (xrp (fst j))) bt ChebyshevI analog (Some OutSos) (xfs (fst j)) (@cheb1ap_dyn _ (NJ j) (xT (fst j)) order (xrp (fst j))));
    rewrite ?(not_analog analog Ha); [reflexivity|exact Hb|discriminate|exact C1|exact C2|exact C3|intros _; exact C4|intros _; exact C5|].
  right. exists (xrp (fst j)). split; [reflexivity|]. split; [reflexivity|]. split; [|reflexivity]. destruct Rr as [Fr Er].
  change (SFltb (xrp (fst j)) (S754_zero false) = false). rewrite (ltb_fval (xprec (fst j)) (xemax (fst j)) (xrp (fst j)) (S754_zero false) Fr (conj eq_refl Logic.I)). rewrite Er. unfold Rltb. cbn [fval]. destruct (Rlt_dec _ _); [lra|reflexivity].
Qed.
Lemma butt_staged : (Nat.odd order = true -> ~ double_pole bt 1 (edge_freq false w0 fs) (edge_freq false w1 fs)) ->
  mstaged idx2 pr2 em2 sz2 Vb (band2 bt (buttap_dyn order) W0 W1) (bandf (fun j => @buttap_dyn _ (NJ j) (xT (fst j)) order)) good.
Proof.
  intros ND. apply band_staged.
  - apply (stage_buttap idx2 pr2 em2 Vb sz2 E HE T2). exact Vb_acc.
  - apply (mate_buttap idx2 pr2 em2 Vb sz2 E HE T2); [exact Vb_acc|exact Vb_sym].
  - reflexivity.
  - apply butt_left.
  - rewrite buttap_eq. apply buttap_closed.
  - rewrite buttap_eq. cbn [zk_p]. apply (ellipse_no_double bt order 1 1); [exact Hb|lra|lra|exact (warped_pos w0 w1 fs false Hv)|exact (warped_lt w0 w1 fs false Hv)| |].
    + intros k Hk. unfold bp, Cx.E. apply C_ext; cbn; ring.
    + rewrite !warped_edge. exact ND.
Qed.
Lemma cheb_staged : 0 < rp -> (Nat.odd order = true -> ~ double_pole bt (cheb_pole order rp) (edge_freq false w0 fs) (edge_freq false w1 fs)) ->
  mstaged idx2 pr2 em2 sz2 Vb (band2 bt (cheb1ap_dyn order rp) W0 W1) (bandf (fun j => @cheb1ap_dyn _ (NJ j) (xT (fst j)) order (xrp (fst j)))) good.
Proof.
  intros Hr ND.
  assert (NR : napp idx2 pr2 em2 Vb rp (fun j => xrp (fst j))) by (apply napp_exact; intros i Vi _; apply Vi).
  assert (EP : zk_p (@cheb1ap_dyn R RNum RTrans order rp) = map (cp order (eps1 rp)) (seq 0 order)) by (destruct order as [|n]; [reflexivity|]; rewrite cheb1ap_eq by (assumption || lia); reflexivity).
  apply band_staged.
  - apply (stage_cheb1ap idx2 pr2 em2 Vb sz2 E HE T2); [exact Vb_acc|exact Hr|exact NR].
  - apply (mate_cheb1ap idx2 pr2 em2 Vb sz2 E HE T2); [exact Vb_acc|exact Vb_sym|exact Hr|exact NR].
  - apply cheb_zeros.
  - apply cheb_left. exact Hr.
  - rewrite EP. apply cp_closed.
  - rewrite EP. destruct order as [|n] eqn:En; [intros p []|]. rewrite <- En in *. assert (Hn : (0 < order)%nat) by lia.
    pose proof (sinh_mu order (eps1 rp) Hn (eps1_pos rp Hr)) as SM.
    apply (ellipse_no_double bt order (cheb_pole order rp) (cosh (arcsinh (1 / eps1 rp) / INR order))); [exact Hb|exact SM|unfold cosh; pose proof (exp_pos (arcsinh (1 / eps1 rp) / INR order)); pose proof (exp_pos (- (arcsinh (1 / eps1 rp) / INR order))); lra|exact (warped_pos w0 w1 fs false Hv)|exact (warped_lt w0 w1 fs false Hv)| |].
    + intros k Hk. reflexivity.
    + rewrite !warped_edge. exact ND.
Qed.
End FloatSide.

(** * C112: the sections *)
Theorem C112_butter_band_sos (order : nat) (w0 w1 : R) (fs : option R) (bt : FilterBandType) (analog : option bool) (E : R) :
  (bt = Bandpass \/ bt = Bandstop) -> analog <> Some true -> valid_band false w0 w1 fs -> 0 <= E ->
  (Nat.odd order = true -> ~ double_pole bt 1 (edge_freq false w0 fs) (edge_freq false w1 fs)) ->
  exists K, 1 <= K /\ forall prec emax szero (T : Trans spec_float) sort w0f w1f fsf,
  (1 < prec < emax)%Z -> is_list_sort sort -> accurate_trans prec emax E T -> symmetric_trans prec emax T ->
  reads prec emax w0f w0 -> reads prec emax w1f w1 -> reads_opt prec emax fsf fs -> K * uround prec <= 1 ->
  exists f l r,
    butter_dyn 0 sort order [w0; w1] (Some bt) analog (Some OutZpk) fs = Ok (DZpk f) /\
    @butter_dyn _ (SFNum prec emax szero) T (machine_eps prec) sort order [w0f; w1f] (Some bt) analog (Some OutSos) fsf = Ok (DSos l) /\
    length r = Nat.max 1 order /\ realises r f /\ stable_sections r /\
    Forall2 (sos_within prec emax (K * uround prec)) l r /\ stable_sections (map sos_val l).
Proof.
  intros Hb Ha Hv HE ND. destruct (butter_exact2 w0 w1 fs bt analog order Hb Ha Hv) as (h & Eh & Rh & Sh & Lh & Lp & Ez & _).
  destruct (checks2 E w0 w1 0 fs Hv) as (K1 & HK1 & Q1).
  destruct (evk_sos idx2 pr2 em2 sz2 E HE T2 (Vb E w0 w1 0 fs) (Vb_acc E w0 w1 0 fs) (Vb_sym E w0 w1 0 fs) _ _ (butt_staged E w0 w1 0 fs bt order HE Hb Hv ND) h Eh Rh Sh Lh) as (K2 & HK2 & Q2).
  exists (K1 + K2). split; [lra|]. intros prec emax sz T sort w0f w1f fsf Hpe Hs HT HS R0 R1 Rf Hu. set (i := (mkIdx prec emax sz T w0f (S754_zero false) fsf, w1f) : idx2).
  assert (Hi : fmt_ok idx2 pr2 em2 (Vb E w0 w1 0 fs) (K1 + K2) i).
  { split; [|split; [exact Hpe|exact Hu]]. split; [|exact HS]. split; [|exact R1]. split; [exact HT|]. split; [exact R0|]. split; [split; [split; [reflexivity|exact Logic.I]|reflexivity]|exact Rf]. }
  pose proof (Q1 i (fmt_mono idx2 pr2 em2 _ (K1 + K2) K1 i Hi ltac:(lra))) as CK.
  destruct (Q2 i (fmt_mono idx2 pr2 em2 _ (K1 + K2) K2 i Hi ltac:(lra)) sort order Hs) as (sf & sr & E1 & Ls & RE & ST & W & SF).
  exists h, sf, sr. split; [apply Ez|]. split; [rewrite <- E1; exact (butter_float2 bt analog order Hb Ha i sort CK)|]. split.
  { rewrite Ls, Lp. f_equal. rewrite (Nat.mul_comm 2 order), Nat.div_add_l by lia. change (1 / 2)%nat with 0%nat. lia. }
  split; [exact RE|]. split; [exact ST|]. split; [|exact SF].
  eapply within_le; [|exact W]. destruct (u_half prec (proj1 Hpe)) as [U0 _]. apply Rmult_le_compat_r; [exact (Rlt_le _ _ U0)|lra].
Qed.
Print Assumptions C112_butter_band_sos.

Theorem C112_cheby1_band_sos (order : nat) (rp w0 w1 : R) (fs : option R) (bt : FilterBandType) (analog : option bool) (E : R) :
  (bt = Bandpass \/ bt = Bandstop) -> analog <> Some true -> valid_band false w0 w1 fs -> (0 < order)%nat -> 0 < rp -> 0 <= E ->
  (Nat.odd order = true -> ~ double_pole bt (cheb_pole order rp) (edge_freq false w0 fs) (edge_freq false w1 fs)) ->
  exists K, 1 <= K /\ forall prec emax szero (T : Trans spec_float) sort rpf w0f w1f fsf,
  (1 < prec < emax)%Z -> is_list_sort sort -> accurate_trans prec emax E T -> symmetric_trans prec emax T ->
  reads prec emax rpf rp -> reads prec emax w0f w0 -> reads prec emax w1f w1 -> reads_opt prec emax fsf fs -> K * uround prec <= 1 ->
  exists f l r,
    cheby1_dyn 0 sort order rp [w0; w1] (Some bt) analog (Some OutZpk) fs = Ok (DZpk f) /\
    @cheby1_dyn _ (SFNum prec emax szero) T (machine_eps prec) sort order rpf [w0f; w1f] (Some bt) analog (Some OutSos) fsf = Ok (DSos l) /\
    length r = Nat.max 1 order /\ realises r f /\ stable_sections r /\
    Forall2 (sos_within prec emax (K * uround prec)) l r /\ stable_sections (map sos_val l).
Proof.
  intros Hb Ha Hv Ho Hr HE ND. destruct (cheby1_exact2 w0 w1 fs bt analog order Hb Ha Hv rp Hr Ho) as (h & Eh & Rh & Sh & Lh & Lp & Ez & _).
  destruct (checks2 E w0 w1 rp fs Hv) as (K1 & HK1 & Q1).
  destruct (evk_sos idx2 pr2 em2 sz2 E HE T2 (Vb E w0 w1 rp fs) (Vb_acc E w0 w1 rp fs) (Vb_sym E w0 w1 rp fs) _ _ (cheb_staged E w0 w1 rp fs bt order HE Hb Hv Hr ND) h Eh Rh Sh Lh) as (K2 & HK2 & Q2).
  exists (K1 + K2). split; [lra|]. intros prec emax sz T sort rpf w0f w1f fsf Hpe Hs HT HS Rr R0 R1 Rf Hu. set (i := (mkIdx prec emax sz T w0f rpf fsf, w1f) : idx2).
  assert (Hi : fmt_ok idx2 pr2 em2 (Vb E w0 w1 rp fs) (K1 + K2) i).
  { split; [|split; [exact Hpe|exact Hu]]. split; [|exact HS]. split; [|exact R1]. split; [exact HT|]. split; [exact R0|]. split; [exact Rr|exact Rf]. }
  pose proof (Q1 i (fmt_mono idx2 pr2 em2 _ (K1 + K2) K1 i Hi ltac:(lra))) as CK.
  destruct (Q2 i (fmt_mono idx2 pr2 em2 _ (K1 + K2) K2 i Hi ltac:(lra)) sort order Hs) as (sf & sr & E1 & Ls & RE & ST & W & SF).
  exists h, sf, sr. split; [apply Ez|]. split; [rewrite <- E1; exact (cheby1_float2 rp bt analog order Hb Ha i sort Hr Rr CK)|]. split.
  { rewrite Ls, Lp. f_equal. rewrite (Nat.mul_comm 2 order), Nat.div_add_l by lia. change (1 / 2)%nat with 0%nat. lia. }
  split; [exact RE|]. split; [exact ST|]. split; [|exact SF].
  eapply within_le; [|exact W]. destruct (u_half prec (proj1 Hpe)) as [U0 _]. apply Rmult_le_compat_r; [exact (Rlt_le _ _ U0)|lra].
Qed.
Print Assumptions C112_cheby1_band_sos.

(** * C112: filtering *)
(** Design and filter in floats; design and filter in real numbers; the outputs differ by
    at most K (u X + tiny) at every sample.  K depends on the design only. *)
Theorem C112_butter_band_filter (order : nat) (w0 w1 : R) (fs : option R) (bt : FilterBandType) (analog : option bool) (E : R) :
  (bt = Bandpass \/ bt = Bandstop) -> analog <> Some true -> valid_band false w0 w1 fs -> 0 <= E ->
  (Nat.odd order = true -> ~ double_pole bt 1 (edge_freq false w0 fs) (edge_freq false w1 fs)) ->
  exists K, 1 <= K /\ forall prec emax szero (T : Trans spec_float) sort w0f w1f fsf,
  (1 < prec < emax)%Z -> is_list_sort sort -> accurate_trans prec emax E T -> symmetric_trans prec emax T ->
  reads prec emax w0f w0 -> reads prec emax w1f w1 -> reads_opt prec emax fsf fs -> K * uround prec <= 1 ->
  exists lf l,
    @butter_dyn _ (SFNum prec emax szero) T (machine_eps prec) sort order [w0f; w1f] (Some bt) analog (Some OutSos) fsf = Ok (DSos lf) /\
    butter_dyn 0 sort order [w0; w1] (Some bt) analog (Some OutSos) fs = Ok (DSos l) /\
    forall x X, Forall (finite prec emax) x -> 0 <= X -> Forall (fun v => Rabs (fval v) <= X) x -> K * (X + ftiny prec emax) <= fmax prec emax ->
    exists yf lf' y l',
      @sosfilt_dyn _ (SFNum prec emax szero) x lf = Ok (yf, lf') /\ sosfilt_dyn (map fval x) l = Ok (y, l') /\
      length yf = length x /\ length y = length x /\ Forall (finite prec emax) yf /\
      forall n, (n < length x)%nat -> Rabs (fval (nth n yf (S754_zero false)) - nth n y 0) <= K * (uround prec * X + ftiny prec emax).
Proof.
  intros Hb Ha Hv HE ND. destruct (butter_exact2 w0 w1 fs bt analog order Hb Ha Hv) as (h & Eh & Rh & Sh & Lh & Lp & _ & Es).
  destruct (checks2 E w0 w1 0 fs Hv) as (K1 & HK1 & Q1).
  destruct (evk_pipe idx2 pr2 em2 sz2 E HE T2 (Vb E w0 w1 0 fs) (Vb_acc E w0 w1 0 fs) (Vb_sym E w0 w1 0 fs) _ _ (butt_staged E w0 w1 0 fs bt order HE Hb Hv ND) h Eh Rh Sh Lh) as (K2 & HK2 & Q2).
  exists (K1 + K2). split; [lra|]. intros prec emax sz T sort w0f w1f fsf Hpe Hs HT HS R0 R1 Rf Hu. set (i := (mkIdx prec emax sz T w0f (S754_zero false) fsf, w1f) : idx2).
  assert (Hi : fmt_ok idx2 pr2 em2 (Vb E w0 w1 0 fs) (K1 + K2) i).
  { split; [|split; [exact Hpe|exact Hu]]. split; [|exact HS]. split; [|exact R1]. split; [exact HT|]. split; [exact R0|]. split; [split; [split; [reflexivity|exact Logic.I]|reflexivity]|exact Rf]. }
  pose proof (Q1 i (fmt_mono idx2 pr2 em2 _ (K1 + K2) K1 i Hi ltac:(lra))) as CK.
  destruct (Q2 i (fmt_mono idx2 pr2 em2 _ (K1 + K2) K2 i Hi ltac:(lra)) sort order Hs) as (sf & E1 & P). destruct (Es sort (list_sort_sort sort Hs)) as (l & El & Rl).
  exists sf, l. split; [rewrite <- E1; exact (butter_float2 bt analog order Hb Ha i sort CK)|]. split; [exact El|]. intros x X Fx HX Bx HM. pose proof (tiny_pos prec emax) as TP. destruct (u_half prec (proj1 Hpe)) as [U0 _].
  assert (UX : 0 <= uround prec * X) by (apply Rmult_le_pos; [exact (Rlt_le _ _ U0)|exact HX]).
  destruct (P x X Fx HX Bx) as (yf & lf' & F1 & L1 & F2 & G). { eapply Rle_trans; [|exact HM]. apply Rmult_le_compat_r; [change (0 <= X + ftiny prec emax); lra|lra]. }
  destruct (G l Rl) as (y & l' & F3 & L2 & B). exists yf, lf', y, l'. split; [exact F1|]. split; [exact F3|]. split; [exact L1|]. split; [exact L2|]. split; [exact F2|].
  intros n Hn. eapply Rle_trans; [exact (B n Hn)|]. apply Rmult_le_compat_r; [change (0 <= uround prec * X + ftiny prec emax); lra|lra].
Qed.
Print Assumptions C112_butter_band_filter.

Theorem C112_cheby1_band_filter (order : nat) (rp w0 w1 : R) (fs : option R) (bt : FilterBandType) (analog : option bool) (E : R) :
  (bt = Bandpass \/ bt = Bandstop) -> analog <> Some true -> valid_band false w0 w1 fs -> (0 < order)%nat -> 0 < rp -> 0 <= E ->
  (Nat.odd order = true -> ~ double_pole bt (cheb_pole order rp) (edge_freq false w0 fs) (edge_freq false w1 fs)) ->
  exists K, 1 <= K /\ forall prec emax szero (T : Trans spec_float) sort rpf w0f w1f fsf,
  (1 < prec < emax)%Z -> is_list_sort sort -> accurate_trans prec emax E T -> symmetric_trans prec emax T ->
  reads prec emax rpf rp -> reads prec emax w0f w0 -> reads prec emax w1f w1 -> reads_opt prec emax fsf fs -> K * uround prec <= 1 ->
  exists lf l,
    @cheby1_dyn _ (SFNum prec emax szero) T (machine_eps prec) sort order rpf [w0f; w1f] (Some bt) analog (Some OutSos) fsf = Ok (DSos lf) /\
    cheby1_dyn 0 sort order rp [w0; w1] (Some bt) analog (Some OutSos) fs = Ok (DSos l) /\
    forall x X, Forall (finite prec emax) x -> 0 <= X -> Forall (fun v => Rabs (fval v) <= X) x -> K * (X + ftiny prec emax) <= fmax prec emax ->
    exists yf lf' y l',
      @sosfilt_dyn _ (SFNum prec emax szero) x lf = Ok (yf, lf') /\ sosfilt_dyn (map fval x) l = Ok (y, l') /\
      length yf = length x /\ length y = length x /\ Forall (finite prec emax) yf /\
      forall n, (n < length x)%nat -> Rabs (fval (nth n yf (S754_zero false)) - nth n y 0) <= K * (uround prec * X + ftiny prec emax).
Proof.
  intros Hb Ha Hv Ho Hr HE ND. destruct (cheby1_exact2 w0 w1 fs bt analog order Hb Ha Hv rp Hr Ho) as (h & Eh & Rh & Sh & Lh & Lp & _ & Es).
  destruct (checks2 E w0 w1 rp fs Hv) as (K1 & HK1 & Q1).
  destruct (evk_pipe idx2 pr2 em2 sz2 E HE T2 (Vb E w0 w1 rp fs) (Vb_acc E w0 w1 rp fs) (Vb_sym E w0 w1 rp fs) _ _ (cheb_staged E w0 w1 rp fs bt order HE Hb Hv Hr ND) h Eh Rh Sh Lh) as (K2 & HK2 & Q2).
  exists (K1 + K2). split; [lra|]. intros prec emax sz T sort rpf w0f w1f fsf Hpe Hs HT HS Rr R0 R1 Rf Hu. set (i := (mkIdx prec emax sz T w0f rpf fsf, w1f) : idx2).
  assert (Hi : fmt_ok idx2 pr2 em2 (Vb E w0 w1 rp fs) (K1 + K2) i).
  { split; [|split; [exact Hpe|exact Hu]]. split; [|exact HS]. split; [|exact R1]. split; [exact HT|]. split; [exact R0|]. split; [exact Rr|exact Rf]. }
  pose proof (Q1 i (fmt_mono idx2 pr2 em2 _ (K1 + K2) K1 i Hi ltac:(lra))) as CK.
  destruct (Q2 i (fmt_mono idx2 pr2 em2 _ (K1 + K2) K2 i Hi ltac:(lra)) sort order Hs) as (sf & E1 & P). destruct (Es sort (list_sort_sort sort Hs)) as (l & El & Rl).
  exists sf, l. split; [rewrite <- E1; exact (cheby1_float2 rp bt analog order Hb Ha i sort Hr Rr CK)|]. split; [exact El|]. intros x X Fx HX Bx HM. pose proof (tiny_pos prec emax) as TP. destruct (u_half prec (proj1 Hpe)) as [U0 _].
  assert (UX : 0 <= uround prec * X) by (apply Rmult_le_pos; [exact (Rlt_le _ _ U0)|exact HX]).
  destruct (P x X Fx HX Bx) as (yf & lf' & F1 & L1 & F2 & G). { eapply Rle_trans; [|exact HM]. apply Rmult_le_compat_r; [change (0 <= X + ftiny prec emax); lra|lra]. }
  destruct (G l Rl) as (y & l' & F3 & L2 & B). exists yf, lf', y, l'. split; [exact F1|]. split; [exact F3|]. split; [exact L1|]. split; [exact L2|]. split; [exact F2|].
  intros n Hn. eapply Rle_trans; [exact (B n Hn)|]. apply Rmult_le_compat_r; [change (0 <= uround prec * X + ftiny prec emax); lra|lra].
Qed.
Print Assumptions C112_cheby1_band_filter.

(** Edges 2 and 4 at sampling rate 12: digital, no double pole for a Butterworth filter of
    any order; and a format fine enough and a library exist for every constant. *)
Example C112_hyp_met : valid_band false 2 4 (Some 12) /\ is_list_sort isort /\
  (forall bt, bt = Bandpass \/ bt = Bandstop -> ~ double_pole bt 1 (edge_freq false 2 (Some 12)) (edge_freq false 4 (Some 12))) /\
  forall K, exists prec emax T w0f w1f fsf, (1 < prec < emax)%Z /\ accurate_trans prec emax 5 T /\ symmetric_trans prec emax T /\
    reads prec emax w0f 2 /\ reads prec emax w1f 4 /\ reads_opt prec emax (Some fsf) (Some 12) /\ K * uround prec <= 1.
Proof.
  split; [cbn; repeat split; lra|]. split; [exact isort_list_sort|]. split.
  - assert (E0 : edge_freq false 2 (Some 12) = 4 * (1 / sqrt 3)) by (unfold edge_freq; replace (PI * (2 * 2 / 12) / 2) with (PI / 6) by field; rewrite tan_PI6; reflexivity).
    assert (E1 : edge_freq false 4 (Some 12) = 4 * sqrt 3) by (unfold edge_freq; replace (PI * (2 * 4 / 12) / 2) with (PI / 3) by field; rewrite tan_PI3; reflexivity).
    assert (S : sqrt 3 * sqrt 3 = 3) by (apply sqrt_sqrt; lra). assert (P : 0 < sqrt 3) by (apply sqrt_lt_R0; lra).
    assert (D : (4 * sqrt 3 - 4 * (1 / sqrt 3)) * (4 * sqrt 3 - 4 * (1 / sqrt 3)) = 64 / 3).
    { replace ((4 * sqrt 3 - 4 * (1 / sqrt 3)) * (4 * sqrt 3 - 4 * (1 / sqrt 3))) with (16 * (sqrt 3 * sqrt 3 - 2 + 1 / (sqrt 3 * sqrt 3))) by (field; lra). rewrite S. field. }
    assert (M : 4 * (1 / sqrt 3) * (4 * sqrt 3) = 16) by (field; lra).
    rewrite E0, E1. intros bt [-> | ->]; cbn [double_pole]; rewrite ?Rmult_1_l, ?Rmult_1_r; rewrite D, M; lra.
  - intros K. destruct (fine_format (Rmax K 16)) as [prec [emax [Hpe Hu]]]. destruct (u_half prec (proj1 Hpe)) as [U0 _].
    assert (BIG : forall n, (0 <= n <= 16)%Z -> reads prec emax (SpecFloat.binary_normalize prec emax n 0 false) (IZR n)).
    { intros n Hn. assert (U16 : 16 * uround prec <= 1) by (pose proof (Rmax_r K 16); nra).
      apply fofZ_ok; [unfold Prec_gt_0; lia|unfold Prec_lt_emax; lia| |].
      - rewrite Z.abs_eq by lia. apply Z.le_trans with 16%Z; [lia|]. apply le_IZR. replace (IZR (2 ^ prec)) with (bpow radix2 prec) by (symmetry; apply (IZR_Zpower radix2); lia).
        unfold uround in U16. rewrite <- bpow_powerRZ in U16. apply (Rmult_le_reg_r (bpow radix2 (- prec))); [apply bpow_gt_0|]. rewrite <- bpow_plus. replace (prec + - prec)%Z with 0%Z by lia. cbn [bpow]. exact U16.
      - rewrite Z.abs_eq by lia. apply Rle_trans with 16; [apply IZR_le; lia|]. apply fmax_inv_u; [exact Hpe|exact U16]. }
    exists prec, emax, (rounding_library prec emax), (SpecFloat.binary_normalize prec emax 2 0 false), (SpecFloat.binary_normalize prec emax 4 0 false), (SpecFloat.binary_normalize prec emax 12 0 false).
    split; [exact Hpe|]. split; [apply rounding_library_accurate; exact Hpe|]. split; [apply rounding_library_symmetric; exact Hpe|].
    split; [apply (BIG 2%Z); lia|]. split; [apply (BIG 4%Z); lia|]. split; [apply (BIG 12%Z); lia|]. pose proof (Rmax_l K 16). nra.
Qed.
