(** C113: design in floating point, then zero-phase filtering (sosfiltfilt) with the result.
    At every IEEE 754 format fine enough, with every library of elementary functions that is
    accurate and respects the reflection in the real axis, Butterworth and Chebyshev type I
    designs with section output are accepted by sosfiltfilt on every signal longer than
    three times their number of taps, and the output is close to that of the exact design in
    exact arithmetic, at every sample of a signal of any length.
    C110: in exact arithmetic zero-phase filtering depends on the transfer function and the
    number of taps only. *)
From Coq Require Import Reals ZArith SpecFloat List Lia Lra Bool Permutation Sorted.
From Flocq Require Import Core BinarySingleNaN.
From Verif Require Import S_Bessel Base Num Trans M_Complex M_Filter M_Design Cx S_Design S_Filter S_Stable S_Float S_FloatFft S_FloatZpk S_FloatTrans S_FloatBand S_FloatSos
  P_Sort P_Float P_FloatStats P_Poly P_Lp P_Proto P_Cheb P_Iir P_Iir2 T_Iir P_Sos P_Stable P_FloatMed P_FloatI0 P_FloatZi P_FloatPoly T_FloatPoly P_FloatDesign T_FloatDesign T_FloatResponse P_FloatSqrt P_FloatBand P_FloatBandStage T_FloatBand
  P_FloatFilt T_FloatFilt P_FloatSym P_FloatMate P_FloatSos P_FloatPipe T_Sos T_Unique P_FiltfiltSame P_FloatSosCore P_FloatSosDesign T_FloatSos P_FloatBandMate P_FloatBandSos T_FloatBandSos P_FloatFiltDesign.
Import ListNotations.
Local Open Scope R_scope.

(** * C110: zero-phase filtering *)
(** Two cascades that realise the same filter, with no pole at 1, and have the same number
    of taps give the same zero-phase output on every signal; the number of taps matters only
    through the length of the extension at the ends. *)
Theorem C110_zero_phase (l1 l2 : list (Sos R)) f : realises l1 f -> realises l2 f -> ~ In C1 (zk_p f) -> taps l1 = taps l2 ->
  forall x, sosfiltfilt_dyn x l1 = sosfiltfilt_dyn x l2.
Proof. apply realises_filtfilt. Qed.
Print Assumptions C110_zero_phase.
(** Two sections in either order, for the filter with a zero at -1 and poles at 1/2 and 1/3. *)
Example C110_zero_phase_ex : let s a b c d e := mkSos a b c 1 d e 0 0 in let f := mkZpk [RtoC (-1)%R] [RtoC (1/2)%R; RtoC (1/3)%R] 1 in
  let l1 := [s 1 1 0 (-1/2) 0; s 1 0 0 (-1/3) 0] in let l2 := [s 1 0 0 (-1/3) 0; s 1 1 0 (-1/2) 0] in
  realises l1 f /\ realises l2 f /\ ~ In C1 (zk_p f) /\ taps l1 = taps l2.
Proof.
  cbv zeta. set (l1 := [mkSos 1 1 0 1 (-1/2) 0 0 0; mkSos 1 0 0 1 (-1/3) 0 0 0]). set (l2 := [mkSos 1 0 0 1 (-1/3) 0 0 0; mkSos 1 1 0 1 (-1/2) 0 0 0]).
  assert (N1 : forall x, sos_num l1 x = (x * x * (x * (x - RtoC (-1)%R)))%C) by (intros x; unfold l1; rewrite !sos_num_cons, !rpoly3; apply C_ext; cbn; ring).
  assert (N2 : forall x, sos_num l2 x = (x * x * (x * (x - RtoC (-1)%R)))%C) by (intros x; unfold l2; rewrite !sos_num_cons, !rpoly3; apply C_ext; cbn; ring).
  assert (D1 : forall x, sos_den l1 x = (x * (x - RtoC (1/2)%R) * (x * (x - RtoC (1/3)%R)))%C) by (intros x; unfold l1; rewrite !sos_den_cons, !rpoly3; apply C_ext; cbn; field).
  assert (D2 : forall x, sos_den l2 x = (x * (x - RtoC (1/2)%R) * (x * (x - RtoC (1/3)%R)))%C) by (intros x; unfold l2; rewrite !sos_den_cons, !rpoly3; apply C_ext; cbn; field).
  assert (G : forall x, x <> C0 -> ~ In x [RtoC (1/2)%R; RtoC (1/3)%R] -> (x * (x - RtoC (1/2)%R) * (x * (x - RtoC (1/3)%R)))%C <> C0 /\
     ((x * x * (x * (x - RtoC (-1)%R))) / (x * (x - RtoC (1/2)%R) * (x * (x - RtoC (1/3)%R))))%C = Hd (mkZpk [RtoC (-1)%R] [RtoC (1/2)%R; RtoC (1/3)%R] 1) x).
  { intros x X0 XP. assert (A : (x - RtoC (1/2)%R)%C <> C0) by (intros Q; apply XP; left; apply C_ext; [pose proof (f_equal fst Q)|pose proof (f_equal snd Q)]; cbn in *; lra).
    assert (B : (x - RtoC (1/3)%R)%C <> C0) by (intros Q; apply XP; right; left; apply C_ext; [pose proof (f_equal fst Q)|pose proof (f_equal snd Q)]; cbn in *; lra).
    split; [repeat apply Cmul_neq0; assumption|]. unfold Hd. cbn [zk_k zk_z zk_p fold_right]. change (RtoC 1) with C1. field. repeat split; assumption. }
  split; [|split; [|split; [intros [Q|[Q|[]]]; pose proof (f_equal fst Q) as Q1; cbn in Q1; lra|unfold taps, l1, l2; cbn [filter b2 a2 length]; destruct (neqb 0 nzero); reflexivity]]].
  - split; [repeat constructor|]. intros x X0 XP. rewrite N1, D1. exact (G x X0 XP).
  - split; [repeat constructor|]. intros x X0 XP. rewrite N2, D2. exact (G x X0 XP).
Qed.

(** ** Zeros and gain of the exact designs *)
Lemma digital_zeros h h' : to_digital false h = Ok h' -> Forall (fun z => cre z = 0) (zk_z h) -> ~ In C0 (zk_z h').
Proof.
  unfold to_digital, bilinear_zpk_dyn. destruct (relative_degree_dyn (zk_z h) (zk_p h)) as [d| | |]; cbn [bind]; try discriminate. intros E F Q. injection E as <-. cbn [zk_z] in Q.
  apply in_app_or in Q. destruct Q as [Q|Q].
  - apply in_map_iff in Q. destruct Q as [z [E Hz]]. rewrite Forall_forall in F. specialize (F z Hz). destruct z as [a b]. cbn [cre fst] in F. subst a.
    assert (D : 0 < (1 + 1) * (1 + 1) * ((1 + 1) * (1 + 1)) + b * b) by nra.
    pose proof (f_equal fst E) as E1. pose proof (f_equal snd E) as E2. cbn in E1, E2.
    match type of E1 with ?n / ?m = 0 => assert (N1 : n = 0) by (apply (Rmult_eq_reg_r (/ m)); [rewrite Rmult_0_l; exact E1|apply Rinv_neq_0_compat; nra]) end.
    match type of E2 with ?n / ?m = 0 => assert (N2 : n = 0) by (apply (Rmult_eq_reg_r (/ m)); [rewrite Rmult_0_l; exact E2|apply Rinv_neq_0_compat; nra]) end.
    assert (B0 : b = 0) by nra. subst b. nra.
  - apply repeat_spec in Q. pose proof (f_equal fst Q) as Q1. cbn in Q1. lra.
Qed.
Lemma band_zeros bt g w h : (bt = Lowpass \/ bt = Highpass) -> zk_z g = [] -> band bt g w = Ok h -> Forall (fun z => cre z = 0) (zk_z h).
Proof.
  intros Hb Gz. destruct Hb as [-> | ->]; cbn [band].
  - unfold lp2lp_zpk_dyn, relative_degree_dyn. rewrite Gz. cbn [length Nat.ltb Nat.leb bind map]. intros E. injection E as <-. constructor.
  - unfold lp2hp_zpk_dyn, relative_degree_dyn. rewrite Gz. cbn [length Nat.ltb Nat.leb bind map app]. intros E. injection E as <-. cbn [zk_z]. apply Forall_forall. intros c Hc. apply repeat_spec in Hc. subst c. reflexivity.
Qed.
Lemma pass_point bt w : valid_digital bt w -> exists t, snd (band_ratio bt w t) <> 0.
Proof.
  intros [Hl [Hf Hs]]. pose proof PI_RGT_0 as HP.
  assert (SP : forall x, 0 < x < 1 -> 0 < sin (PI * x / 2)) by (intros x Hx; apply sin_gt_0; nra).
  assert (CP : forall x, 0 < x < 1 -> 0 < cos (PI * x / 2)) by (intros x Hx; apply cos_gt_0; nra).
  destruct bt; cbn [band_arity] in Hl; unfold band_ratio; cbv zeta; cbn [snd].
  - destruct w as [|a [|b w]]; try discriminate Hl. pose proof (Forall_inv Hf) as Ha. cbn beta in Ha. exists 0. cbn [nth]. replace (0 / 2) with 0 by field. rewrite cos_0. pose proof (SP a Ha). lra.
  - destruct w as [|a [|b w]]; try discriminate Hl. pose proof (Forall_inv Hf) as Ha. cbn beta in Ha. exists PI. cbn [nth]. rewrite sin_PI2. pose proof (CP a Ha). lra.
  - destruct w as [|a [|b [|d w]]]; try discriminate Hl. pose proof (Forall_inv Hf) as Ha. pose proof (Forall_inv (Forall_inv_tail Hf)) as Hb. cbn beta in Ha, Hb. assert (Lt : a < b) by (inversion Hs as [|? ? ? F]; inversion F; assumption).
    exists (PI / 2). cbn [nth]. replace (PI / 2 / 2) with (PI / 4) by field. rewrite sin_PI4, cos_PI4.
    replace (sin (PI * b / 2) * cos (PI * a / 2) - sin (PI * a / 2) * cos (PI * b / 2)) with (sin (PI * (b - a) / 2)) by (replace (PI * (b - a) / 2) with (PI * b / 2 - PI * a / 2) by field; rewrite sin_minus; ring).
    assert (S1 : 0 < sin (PI * (b - a) / 2)) by (apply SP; lra). assert (S2 : 0 < 1 / sqrt 2) by (apply Rdiv_lt_0_compat; [lra|apply sqrt_lt_R0; lra]).
    assert (0 < sin (PI * (b - a) / 2) * (1 / sqrt 2) * (1 / sqrt 2)) by (apply Rmult_lt_0_compat; [apply Rmult_lt_0_compat; assumption|assumption]). lra.
  - destruct w as [|a [|b [|d w]]]; try discriminate Hl. pose proof (Forall_inv Hf) as Ha. pose proof (Forall_inv (Forall_inv_tail Hf)) as Hb. cbn beta in Ha, Hb.
    exists 0. cbn [nth]. replace (0 / 2) with 0 by field. rewrite cos_0, sin_0. pose proof (Rmult_lt_0_compat _ _ (SP a Ha) (SP b Hb)). nra.
Qed.
Lemma gain_nonzero f t v : dgain_sqr f t = v -> v <> 0 -> zk_k f <> 0.
Proof.
  intros E V K. apply V. rewrite <- E. unfold dgain_sqr, H. rewrite K.
  replace (cdiv (cmul (RtoC 0) (root_product (zk_z f) (cos t, sin t))) (root_product (zk_p f) (cos t, sin t))) with C0; [unfold cnorm_sqr; cbn; ring|].
  change C0 with (RtoC 0). apply C_ext; cbn; unfold Rdiv; ring.
Qed.
Lemma hom_pos p a b : Forall (fun r => cre r < 0) p -> b <> 0 -> cnorm_sqr (hom p (0, a) (RtoC b)) <> 0.
Proof.
  intros F B. assert (N : hom p (0, a) (RtoC b) <> C0).
  { induction F as [|r p Hr F IH]; [exact C1_neq0|]. rewrite hom_cons. apply Cmul_neq0; [|exact IH]. intros Q. pose proof (f_equal fst Q) as Q1. cbn in Q1. assert (Q2 : b * cre r = 0) by lra. apply Rmult_integral in Q2. destruct Q2; [contradiction|lra]. }
  pose proof (cnorm_gt0 _ N) as P. rewrite <- cnorm_sq. nra.
Qed.

(** Every design of sections has one tap more than the filter has poles. *)
Lemma finish_taps sort N f l : is_sort sort -> real_filter f -> length (zk_z f) = length (zk_p f) -> (0 < length (zk_p f))%nat -> zk_k f <> 0 -> ~ In C0 (zk_z f) ->
  @P_Iir.finish 0 sort N false (Some OutSos) f = Ok (DSos l) -> taps l = S (length (zk_p f)).
Proof.
  intros Hs Hr Le L0 Hk Hz Ef. destruct (C45_zpk2sos_digital_partial 0 sort N f None (Some false) (Rle_refl 0) Hs Hr (C67_separated_exact _) (C67_separated_exact _) ltac:(discriminate) (or_introl eq_refl)) as [l' [E [Ls [_ Hx]]]].
  unfold P_Iir.finish in Ef. cbn [unwrap_or] in Ef. rewrite E in Ef. cbn [bind] in Ef. injection Ef as ->. rewrite <- Ls in Hx. rewrite Le, Nat.max_id in Ls.
  rewrite <- Le. apply (taps_zpk l (zk_k f) (zk_z f) (zk_p f) Hk Hz Le); [| |exact Hx]; rewrite Ls, Le; pose proof (Nat.div_mod (length (zk_p f) + 1) 2 ltac:(lia)); pose proof (Nat.mod_upper_bound (length (zk_p f) + 1) 2 ltac:(lia)); lia.
Qed.
Section Facts.
Variables (bt : FilterBandType) (analog : option bool) (order : nat) (wn : list R) (fs : option R).
Hypothesis Ha : analog <> Some true.
Hypothesis Hv : valid_digital bt (normalised wn fs).
Hypothesis Ho : (0 < order)%nat.
Lemma butter_gain h : butter_dyn 0 isort order wn (Some bt) analog (Some OutZpk) fs = Ok (DZpk h) -> zk_k h <> 0.
Proof.
  intros E. destruct (butter_digital 0 isort order wn bt analog fs Ha Hv) as [f [E1 [_ [_ [_ [_ [_ [_ G]]]]]]]]. assert (f = h) by congruence. subst f.
  destruct (pass_point bt _ Hv) as [t Ht]. specialize (G Ho t). destruct (band_ratio bt (normalised wn fs) t) as [a b]. cbn [snd] in Ht. apply (gain_nonzero h t _ G).
  assert (B : 0 < (b * b) ^ order) by (apply pow_lt; nra). assert (A : 0 <= (a * a) ^ order) by (apply pow_le; nra). assert (0 < (b * b) ^ order / ((a * a) ^ order + (b * b) ^ order)) by (apply Rdiv_lt_0_compat; lra). lra.
Qed.
Lemma butter_taps sort h l : is_sort sort -> butter_dyn 0 sort order wn (Some bt) analog (Some OutZpk) fs = Ok (DZpk h) -> zk_k h <> 0 -> ~ In C0 (zk_z h) ->
  butter_dyn 0 sort order wn (Some bt) analog (Some OutSos) fs = Ok (DSos l) -> taps l = S (length (zk_p h)).
Proof.
  intros Hs E Hk Hz El. destruct (butter_digital 0 sort order wn bt analog fs Ha Hv) as [f [E1 [_ [E2 [P1 [_ [L1 [L2 _]]]]]]]]. assert (f = h) by congruence. subst f.
  rewrite E2 in El. apply (finish_taps sort order h l Hs P1 ltac:(congruence)); try assumption. rewrite L2. destruct bt; cbn [band_arity]; lia.
Qed.
Variable rp : R.
Hypothesis Hr : 0 < rp.
Lemma cheby1_facts sort : exists f, (forall out, cheby1_dyn 0 sort order rp wn (Some bt) analog out fs = @P_Iir.finish 0 sort order false out f) /\ real_filter f /\ length (zk_z f) = length (zk_p f) /\ (0 < length (zk_p f))%nat /\ zk_k f <> 0.
Proof.
  destruct (cheby1_setup order rp Ho Hr) as [p [k [Hpr [Hs [Hc [Hl G0]]]]]].
  destruct (digital_design 0 sort ChebyshevI order (Some rp) None p k Hpr Hs Hc (cheby1_ripple_ok rp Hr) bt wn (Some bt) (Some ChebyshevI) analog fs eq_refl eq_refl (not_analog analog Ha) Hv) as [f [E' [P1 [P2 [L1 [L2 G]]]]]].
  exists f. split; [intros out; unfold cheby1_dyn; apply E'|]. split; [exact P1|]. split; [congruence|]. split; [rewrite L2, Hl; destruct bt; cbn [band_arity]; lia|].
  assert (K0 : k <> 0).
  { intros ->. specialize (G0 0). assert (Q : cnorm_sqr (H (mkZpk [] p 0) (0, 0)) = 0). { unfold H. cbn [zk_k zk_z zk_p]. replace (cdiv (cmul (RtoC 0) (root_product [] (0, 0))) (root_product p (0, 0))) with C0; [unfold cnorm_sqr; cbn; ring|]. change C0 with (RtoC 0). apply C_ext; cbn; unfold Rdiv; ring. }
    rewrite Q in G0. pose proof (eps1_pos rp Hr) as EP.
    assert (R1 : 1 < Rpower 10 (rp / 10)) by (rewrite <- (Rpower_O 10) by lra; apply Rpower_lt; lra).
    assert (0 < 1 / (1 + (Rpower 10 (rp / 10) - 1) * (chebT order 0 * chebT order 0))) by (apply Rdiv_lt_0_compat; [lra|]; pose proof (Rle_0_sqr (chebT order 0)) as SQ; unfold Rsqr in SQ; nra). lra. }
  destruct (pass_point bt _ Hv) as [t Ht]. specialize (G t). set (b := snd (band_ratio bt (normalised wn fs) t)) in *. set (a := fst (band_ratio bt (normalised wn fs) t)) in *. apply (gain_nonzero f t _ G).
  pose proof (hom_pos p a b Hs Ht) as HN. assert (B : (b * b) ^ length p <> 0) by (apply pow_nonzero; nra). unfold Rdiv. apply Rmult_integral_contrapositive_currified; [|apply Rinv_neq_0_compat; exact HN].
  apply Rmult_integral_contrapositive_currified; [nra|exact B].
Qed.
Lemma cheby1_gain h : cheby1_dyn 0 isort order rp wn (Some bt) analog (Some OutZpk) fs = Ok (DZpk h) -> zk_k h <> 0.
Proof. intros E. destruct (cheby1_facts isort) as (f & E1 & _ & _ & _ & K). rewrite E1 in E. cbn in E. injection E as ->. exact K. Qed.
Lemma cheby1_taps sort h l : is_sort sort -> cheby1_dyn 0 sort order rp wn (Some bt) analog (Some OutZpk) fs = Ok (DZpk h) -> ~ In C0 (zk_z h) ->
  cheby1_dyn 0 sort order rp wn (Some bt) analog (Some OutSos) fs = Ok (DSos l) -> taps l = S (length (zk_p h)).
Proof.
  intros Hs E Hz El. destruct (cheby1_facts sort) as (f & E1 & P & Le & L0 & K). rewrite E1 in E. cbn in E. injection E as ->. rewrite E1 in El. apply (finish_taps sort order h l Hs P Le L0 K Hz El).
Qed.
End Facts.

(** ** Low- and high-pass *)
Definition filtfilt_ok prec emax sz (des : res (@DigitalFilter spec_float)) (h : @ZpkFormatFilter R) (K : R) : Prop :=
  exists sf, des = Ok (DSos sf) /\ @taps _ (SFNum prec emax sz) sf = S (length (zk_p h)) /\
  forall x X, Forall (finite prec emax) x -> Forall (fun v => Rabs (fval v) <= X) x -> (3 * S (length (zk_p h)) < length x)%nat -> K * (X + ftiny prec emax) <= fmax prec emax ->
  exists yf, @sosfiltfilt_dyn _ (SFNum prec emax sz) x sf = Ok yf /\ length yf = length x /\ Forall (finite prec emax) yf /\
  forall l, realises l h -> taps l = S (length (zk_p h)) -> exists y, sosfiltfilt_dyn (map fval x) l = Ok y /\ length y = length x /\
    forall k, (k < length x)%nat -> Rabs (fval (nth k yf (S754_zero false)) - nth k y 0) <= K * (uround prec * X + ftiny prec emax).
Lemma filtfilt_ok_mono prec emax sz des h K K' : 0 < uround prec -> K <= K' -> filtfilt_ok prec emax sz des h K -> filtfilt_ok prec emax sz des h K'.
Proof.
  intros U0 LE (sf & A & T & P). exists sf. split; [exact A|]. split; [exact T|]. intros x X Fx Bx Hl HM. pose proof (tiny_pos prec emax) as TP.
  assert (HX : 0 <= X). { destruct x as [|v x]; [cbn in Hl; lia|]. inversion Bx; subst. eapply Rle_trans; [apply Rabs_pos|eassumption]. }
  assert (UX : 0 <= uround prec * X) by (apply Rmult_le_pos; lra).
  destruct (P x X Fx Bx Hl) as (yf & F1 & L1 & F2 & G); [eapply Rle_trans; [|exact HM]; apply Rmult_le_compat_r; lra|].
  exists yf. split; [exact F1|]. split; [exact L1|]. split; [exact F2|]. intros l Rl Tl. destruct (G l Rl Tl) as (y & F3 & L2 & B). exists y. split; [exact F3|]. split; [exact L2|].
  intros n Hn. eapply Rle_trans; [exact (B n Hn)|]. apply Rmult_le_compat_r; lra.
Qed.
Lemma filtfilt_core (E w rp : R) (fs : option R) : 0 <= E -> valid_edge false w fs -> forall g gf bt, (bt = Lowpass \/ bt = Highpass) ->
  znapp idx xprec xemax (Vs E w rp fs) xsz g gf -> zmate idx xprec xemax (Vs E w rp fs) xsz g gf -> zk_z g = [] -> Forall (fun p => cre p < 0) (zk_p g) ->
  forall h, (let! g := band bt g (warped_freq false (norm_freq w fs)) in to_digital false g) = Ok h -> real_filter h -> stable_digital h -> length (zk_z h) = length (zk_p h) -> (0 < length (zk_p h))%nat -> zk_k h <> 0 -> ~ In C0 (zk_z h) ->
  exists K, 1 <= K /\ forall i, fmt_ok idx xprec xemax (Vs E w rp fs) K i -> forall sort order, is_list_sort sort -> filtfilt_ok (xprec i) (xemax i) (xsz i) (float_sections gf bt i sort order) h K.
Proof.
  intros HE Hv g gf bt Hb N M Gz Gp h Eh Rh Sh Lh L0 Kh Zh. destruct (sos_digital E w rp fs HE Hv g gf bt Hb N M Gz Gp) as (h' & hf & A & B & D & F). assert (h' = h) by congruence. subst h'.
  destruct (core_filtfilt idx xprec xemax xsz E HE xT (Vs E w rp fs) (Vs_acc E w rp fs) (Vs_sym E w rp fs) h hf A B Rh Sh Lh L0 Kh Zh) as (K & HK & Q). exists K. split; [exact HK|].
  intros i Hi sort order Hs. rewrite (sections_emitted E w rp fs gf bt hf F i sort order (proj1 Hi)). exact (Q i Hi sort order Hs).
Qed.

(** ** Band-pass and band-stop *)
Section BandFilt.
Variable I : Type.
Variables pr em : I -> Z.
Variable sz : I -> bool.
Variable E : R.
Hypothesis HE : 0 <= E.
Variable T : I -> Trans spec_float.
Variable V : I -> Prop.
Hypothesis HT : forall i, V i -> (1 < pr i < em i)%Z -> accurate_trans (pr i) (em i) E (T i).
Hypothesis HS : forall i, V i -> (1 < pr i < em i)%Z -> symmetric_trans (pr i) (em i) (T i).
Variables (real : res (@ZpkFormatFilter R)) (float : I -> res (@ZpkFormatFilter spec_float)).
Hypothesis Hm : mstaged I pr em sz V real float P_FloatBandStage.good.
Variable k0 : @ZpkFormatFilter R.
Hypothesis Ek : (let! g := real in to_digital false g) = Ok k0.
Hypothesis Rk : real_filter k0.
Hypothesis Sk : stable_digital k0.
Hypothesis Lk : length (zk_z k0) = length (zk_p k0).
Hypothesis L0 : (0 < length (zk_p k0))%nat.
Hypothesis Kk : zk_k k0 <> 0.
Lemma staged_zeros : ~ In C0 (zk_z k0).
Proof.
  destruct Hm as (pat & n & h0 & hf & _ & ER & _ & (Z & _) & _). rewrite ER in Ek. cbn [bind] in Ek. exact (digital_zeros h0 k0 Ek Z).
Qed.
Definition ff_ok (K : R) (i : I) : Prop := forall sort order, is_list_sort sort -> filtfilt_ok (pr i) (em i) (sz i) (sections_of I pr em sz T float i sort order) k0 K.
Lemma ff_mono : kmono pr ff_ok.
Proof. intros K K' i U HK LE H sort order Hs. exact (filtfilt_ok_mono _ _ _ _ _ K K' U LE (H sort order Hs)). Qed.
Lemma evk_ff : evk pr em V ff_ok.
Proof.
  pose proof staged_zeros as Zk.
  destruct (digital_mates I pr em sz V real float Hm k0 Ek) as (pat & n & kf & Lp & EF & H). apply (evk_patterns I pr em ff_ok ff_mono n V pat Lp). intros sg.
  destruct (H sg) as (k & SU & N & M). set (W := fun i => V i /\ pat i = sg) in *.
  assert (LK : length (zk_p k) = length (zk_p k0)) by (destruct SU as [_ [P _]]; exact (Permutation_length P)).
  assert (LZ : length (zk_z k) = length (zk_p k)) by (rewrite LK; rewrite (Permutation_length (proj1 SU)); exact Lk).
  assert (LP : (0 < length (zk_p k))%nat) by (rewrite LK; exact L0).
  assert (KK : zk_k k <> 0) by (destruct SU as [_ [_ ->]]; exact Kk).
  assert (ZZ : ~ In C0 (zk_z k)) by (intros Q; exact (Zk (Permutation_in _ (proj1 SU) Q))).
  destruct (core_filtfilt I pr em sz E HE T W (fun i Wi => HT i (proj1 Wi)) (fun i Wi => HS i (proj1 Wi)) k kf N M (real_upto k k0 SU Rk) (stable_upto k k0 SU Sk) LZ LP KK ZZ) as (K & HK & Q).
  exists K. split; [exact HK|]. intros i Hi sort order Hs. destruct (Q i Hi sort order Hs) as (sf & E1 & T1 & P). rewrite LK in T1, P.
  exists sf. split; [unfold sections_of; rewrite <- bind_assoc, (EF i (proj1 (proj1 Hi))); exact E1|]. split; [exact T1|]. intros x X Fx Bx Hl HM. destruct (P x X Fx Bx Hl HM) as (yf & F1 & L1 & F2 & G).
  exists yf. split; [exact F1|]. split; [exact L1|]. split; [exact F2|]. intros l Rl Tl. exact (G l (realises_upto l k0 k (same_sym k k0 SU) Rl) Tl).
Qed.
End BandFilt.

(** * C113: design and zero-phase filtering *)
(** Design and filter forwards and backwards in floats; design and filter in real numbers;
    the outputs differ by at most K (u X + tiny) at every sample, where X bounds the signal.
    K depends on the design only.  The signal must be longer than three times the number of
    taps (order + 1, or twice the order + 1 for a band), as sosfiltfilt requires. *)
Theorem C113_butter_filtfilt (order : nat) (w : R) (fs : option R) (bt : FilterBandType) (analog : option bool) (E : R) :
  (bt = Lowpass \/ bt = Highpass) -> analog <> Some true -> valid_edge false w fs -> (0 < order)%nat -> 0 <= E ->
  exists K, 1 <= K /\ forall prec emax szero (T : Trans spec_float) sort wf fsf,
  (1 < prec < emax)%Z -> is_list_sort sort -> accurate_trans prec emax E T -> symmetric_trans prec emax T ->
  reads prec emax wf w -> reads_opt prec emax fsf fs -> K * uround prec <= 1 ->
  exists lf l,
    @butter_dyn _ (SFNum prec emax szero) T (machine_eps prec) sort order [wf] (Some bt) analog (Some OutSos) fsf = Ok (DSos lf) /\
    butter_dyn 0 sort order [w] (Some bt) analog (Some OutSos) fs = Ok (DSos l) /\
    forall x X, (3 * (order + 1) < length x)%nat -> Forall (finite prec emax) x -> Forall (fun v => Rabs (fval v) <= X) x -> K * (X + ftiny prec emax) <= fmax prec emax ->
    exists yf y,
      @sosfiltfilt_dyn _ (SFNum prec emax szero) x lf = Ok yf /\ sosfiltfilt_dyn (map fval x) l = Ok y /\
      length yf = length x /\ length y = length x /\ Forall (finite prec emax) yf /\
      forall n, (n < length x)%nat -> Rabs (fval (nth n yf (S754_zero false)) - nth n y 0) <= K * (uround prec * X + ftiny prec emax).
Proof.
  intros Hb Ha Hv Ho HE . destruct (butter_exact w fs bt analog order Hb Ha Hv) as (h & Eh & Rh & Sh & Lh & Lp & Ez & Es).
  assert (Hv' : valid_digital bt (normalised [w] fs)) by (apply (edge_digital bt w fs Hb Hv)).
  pose proof (butter_gain bt analog order [w] fs Ha Hv' Ho h (Ez 0 isort)) as Kh.
  assert (L0 : (0 < length (zk_p h))%nat) by (rewrite Lp; lia).
  assert (Zh : ~ In C0 (zk_z h)).
  { destruct (band bt (buttap_dyn order) (warped_freq false (norm_freq w fs))) as [g0| | |] eqn:Eg; try discriminate Eh. cbn [bind] in Eh. exact (digital_zeros g0 h Eh (band_zeros bt (buttap_dyn order) _ g0 Hb eq_refl Eg)). }
  destruct (checks_ev E w 0 fs Hv) as (K1 & HK1 & Q1).
  destruct (filtfilt_core E w 0 fs HE Hv _ _ bt Hb (butt_znapp E w 0 fs HE order) (butt_zmate E w 0 fs HE order) (eq_refl) (butt_left order) h Eh Rh Sh Lh L0 Kh Zh) as (K2 & HK2 & Q2).
  exists (K1 + K2). split; [lra|]. intros prec emax sz T sort wf fsf Hpe Hs HT HS Rw Rf Hu. set (i := mkIdx prec emax sz T wf (S754_zero false) fsf).
  assert (Hi : fmt_ok idx xprec xemax (Vs E w 0 fs) (K1 + K2) i).
  { split; [|split; [exact Hpe|exact Hu]]. split; [|exact HS]. split; [exact HT|]. split; [exact Rw|]. split; [split; [split; [reflexivity|exact Logic.I]|reflexivity]|exact Rf]. }
  destruct (Q1 i (fmt_mono idx xprec xemax _ (K1 + K2) K1 i Hi ltac:(lra))) as [C1 C2].
  assert (FO := filtfilt_ok_mono _ _ _ _ _ K2 (K1 + K2) (proj1 (u_half prec (proj1 Hpe))) ltac:(lra) (Q2 i (fmt_mono idx xprec xemax _ (K1 + K2) K2 i Hi ltac:(lra)) sort order Hs)).
  destruct FO as (sf & E1 & _ & P). destruct (Es sort (list_sort_sort sort Hs)) as (l & El & Rl).
  pose proof (butter_taps bt analog order [w] fs Ha Hv' Ho sort h l (list_sort_sort sort Hs) (Ez 0 sort) Kh Zh El) as Tl.
  exists sf, l. split; [rewrite <- E1; exact (butter_float bt analog order Hb Ha i sort C1 C2)|]. split; [exact El|]. intros x X Hx Fx Bx HM.
  destruct (P x X Fx Bx ltac:(rewrite Lp; lia) HM) as (yf & F1 & L1 & F2 & G). destruct (G l Rl Tl) as (y & F3 & L2 & B).
  exists yf, y. split; [exact F1|]. split; [exact F3|]. split; [exact L1|]. split; [exact L2|]. split; [exact F2|exact B].
Qed.
Print Assumptions C113_butter_filtfilt.

Theorem C113_cheby1_filtfilt (order : nat) (rp w : R) (fs : option R) (bt : FilterBandType) (analog : option bool) (E : R) :
  (bt = Lowpass \/ bt = Highpass) -> analog <> Some true -> valid_edge false w fs -> (0 < order)%nat -> 0 < rp -> 0 <= E ->
  exists K, 1 <= K /\ forall prec emax szero (T : Trans spec_float) sort rpf wf fsf,
  (1 < prec < emax)%Z -> is_list_sort sort -> accurate_trans prec emax E T -> symmetric_trans prec emax T ->
  reads prec emax rpf rp -> reads prec emax wf w -> reads_opt prec emax fsf fs -> K * uround prec <= 1 ->
  exists lf l,
    @cheby1_dyn _ (SFNum prec emax szero) T (machine_eps prec) sort order rpf [wf] (Some bt) analog (Some OutSos) fsf = Ok (DSos lf) /\
    cheby1_dyn 0 sort order rp [w] (Some bt) analog (Some OutSos) fs = Ok (DSos l) /\
    forall x X, (3 * (order + 1) < length x)%nat -> Forall (finite prec emax) x -> Forall (fun v => Rabs (fval v) <= X) x -> K * (X + ftiny prec emax) <= fmax prec emax ->
    exists yf y,
      @sosfiltfilt_dyn _ (SFNum prec emax szero) x lf = Ok yf /\ sosfiltfilt_dyn (map fval x) l = Ok y /\
      length yf = length x /\ length y = length x /\ Forall (finite prec emax) yf /\
      forall n, (n < length x)%nat -> Rabs (fval (nth n yf (S754_zero false)) - nth n y 0) <= K * (uround prec * X + ftiny prec emax).
Proof.
  intros Hb Ha Hv Ho Hr HE . destruct (cheby1_exact w fs bt analog order Hb Ha Hv rp Hr Ho) as (h & Eh & Rh & Sh & Lh & Lp & Ez & Es).
  assert (Hv' : valid_digital bt (normalised [w] fs)) by (apply (edge_digital bt w fs Hb Hv)).
  pose proof (cheby1_gain bt analog order [w] fs Ha Hv' Ho rp Hr h (Ez 0 isort)) as Kh.
  assert (L0 : (0 < length (zk_p h))%nat) by (rewrite Lp; lia).
  assert (Zh : ~ In C0 (zk_z h)).
  { destruct (band bt (cheb1ap_dyn order rp) (warped_freq false (norm_freq w fs))) as [g0| | |] eqn:Eg; try discriminate Eh. cbn [bind] in Eh. exact (digital_zeros g0 h Eh (band_zeros bt _ _ g0 Hb (cheb_zeros rp order) Eg)). }
  destruct (checks_ev E w rp fs Hv) as (K1 & HK1 & Q1).
  destruct (filtfilt_core E w rp fs HE Hv _ _ bt Hb (cheb_znapp E w rp fs HE Hr order) (cheb_zmate E w rp fs HE Hr order) (cheb_zeros rp order) (cheb_left rp Hr order) h Eh Rh Sh Lh L0 Kh Zh) as (K2 & HK2 & Q2).
  exists (K1 + K2). split; [lra|]. intros prec emax sz T sort rpf wf fsf Hpe Hs HT HS Rr Rw Rf Hu. set (i := mkIdx prec emax sz T wf rpf fsf).
  assert (Hi : fmt_ok idx xprec xemax (Vs E w rp fs) (K1 + K2) i).
  { split; [|split; [exact Hpe|exact Hu]]. split; [|exact HS]. split; [exact HT|]. split; [exact Rw|]. split; [exact Rr|exact Rf]. }
  destruct (Q1 i (fmt_mono idx xprec xemax _ (K1 + K2) K1 i Hi ltac:(lra))) as [C1 C2].
  assert (FO := filtfilt_ok_mono _ _ _ _ _ K2 (K1 + K2) (proj1 (u_half prec (proj1 Hpe))) ltac:(lra) (Q2 i (fmt_mono idx xprec xemax _ (K1 + K2) K2 i Hi ltac:(lra)) sort order Hs)).
  destruct FO as (sf & E1 & _ & P). destruct (Es sort (list_sort_sort sort Hs)) as (l & El & Rl).
  pose proof (cheby1_taps bt analog order [w] fs Ha Hv' Ho rp Hr sort h l (list_sort_sort sort Hs) (Ez 0 sort) Zh El) as Tl.
  exists sf, l. split; [rewrite <- E1; exact (cheby1_float rp bt analog order Hb Ha i sort Hr Rr C1 C2)|]. split; [exact El|]. intros x X Hx Fx Bx HM.
  destruct (P x X Fx Bx ltac:(rewrite Lp; lia) HM) as (yf & F1 & L1 & F2 & G). destruct (G l Rl Tl) as (y & F3 & L2 & B).
  exists yf, y. split; [exact F1|]. split; [exact F3|]. split; [exact L1|]. split; [exact L2|]. split; [exact F2|exact B].
Qed.
Print Assumptions C113_cheby1_filtfilt.

Theorem C113_butter_band_filtfilt (order : nat) (w0 w1 : R) (fs : option R) (bt : FilterBandType) (analog : option bool) (E : R) :
  (bt = Bandpass \/ bt = Bandstop) -> analog <> Some true -> valid_band false w0 w1 fs -> (0 < order)%nat -> 0 <= E ->
  (Nat.odd order = true -> ~ double_pole bt 1 (edge_freq false w0 fs) (edge_freq false w1 fs)) ->
  exists K, 1 <= K /\ forall prec emax szero (T : Trans spec_float) sort w0f w1f fsf,
  (1 < prec < emax)%Z -> is_list_sort sort -> accurate_trans prec emax E T -> symmetric_trans prec emax T ->
  reads prec emax w0f w0 -> reads prec emax w1f w1 -> reads_opt prec emax fsf fs -> K * uround prec <= 1 ->
  exists lf l,
    @butter_dyn _ (SFNum prec emax szero) T (machine_eps prec) sort order [w0f; w1f] (Some bt) analog (Some OutSos) fsf = Ok (DSos lf) /\
    butter_dyn 0 sort order [w0; w1] (Some bt) analog (Some OutSos) fs = Ok (DSos l) /\
    forall x X, (3 * (2 * order + 1) < length x)%nat -> Forall (finite prec emax) x -> Forall (fun v => Rabs (fval v) <= X) x -> K * (X + ftiny prec emax) <= fmax prec emax ->
    exists yf y,
      @sosfiltfilt_dyn _ (SFNum prec emax szero) x lf = Ok yf /\ sosfiltfilt_dyn (map fval x) l = Ok y /\
      length yf = length x /\ length y = length x /\ Forall (finite prec emax) yf /\
      forall n, (n < length x)%nat -> Rabs (fval (nth n yf (S754_zero false)) - nth n y 0) <= K * (uround prec * X + ftiny prec emax).
Proof.
  intros Hb Ha Hv Ho HE ND. destruct (butter_exact2 w0 w1 fs bt analog order Hb Ha Hv) as (h & Eh & Rh & Sh & Lh & Lp & Ez & Es).
  assert (Hv' : valid_digital bt (normalised [w0; w1] fs)) by (apply (band_digital bt w0 w1 fs Hb Hv)).
  pose proof (butter_gain bt analog order [w0; w1] fs Ha Hv' Ho h (Ez 0 isort)) as Kh.
  assert (L0 : (0 < length (zk_p h))%nat) by (rewrite Lp; lia).
  pose proof (butt_staged E w0 w1 0 fs bt order HE Hb Hv ND) as ST. pose proof (staged_zeros _ _ _ _ _ _ _ ST h Eh) as Zh.
  destruct (checks2 E w0 w1 0 fs Hv) as (K1 & HK1 & Q1).
  destruct (evk_ff idx2 pr2 em2 sz2 E HE T2 (Vb E w0 w1 0 fs) (Vb_acc E w0 w1 0 fs) (Vb_sym E w0 w1 0 fs) _ _ ST h Eh Rh Sh Lh L0 Kh) as (K2 & HK2 & Q2).
  exists (K1 + K2). split; [lra|]. intros prec emax sz T sort w0f w1f fsf Hpe Hs HT HS R0 R1 Rf Hu. set (i := (mkIdx prec emax sz T w0f (S754_zero false) fsf, w1f) : idx2).
  assert (Hi : fmt_ok idx2 pr2 em2 (Vb E w0 w1 0 fs) (K1 + K2) i).
  { split; [|split; [exact Hpe|exact Hu]]. split; [|exact HS]. split; [|exact R1]. split; [exact HT|]. split; [exact R0|]. split; [split; [split; [reflexivity|exact Logic.I]|reflexivity]|exact Rf]. }
  pose proof (Q1 i (fmt_mono idx2 pr2 em2 _ (K1 + K2) K1 i Hi ltac:(lra))) as CK.
  assert (FO := filtfilt_ok_mono _ _ _ _ _ K2 (K1 + K2) (proj1 (u_half prec (proj1 Hpe))) ltac:(lra) (Q2 i (fmt_mono idx2 pr2 em2 _ (K1 + K2) K2 i Hi ltac:(lra)) sort order Hs)).
  destruct FO as (sf & E1 & _ & P). destruct (Es sort (list_sort_sort sort Hs)) as (l & El & Rl).
  pose proof (butter_taps bt analog order [w0; w1] fs Ha Hv' Ho sort h l (list_sort_sort sort Hs) (Ez 0 sort) Kh Zh El) as Tl.
  exists sf, l. split; [rewrite <- E1; exact (butter_float2 bt analog order Hb Ha i sort CK)|]. split; [exact El|]. intros x X Hx Fx Bx HM.
  destruct (P x X Fx Bx ltac:(rewrite Lp; lia) HM) as (yf & F1 & L1 & F2 & G). destruct (G l Rl Tl) as (y & F3 & L2 & B).
  exists yf, y. split; [exact F1|]. split; [exact F3|]. split; [exact L1|]. split; [exact L2|]. split; [exact F2|exact B].
Qed.
Print Assumptions C113_butter_band_filtfilt.

Theorem C113_cheby1_band_filtfilt (order : nat) (rp w0 w1 : R) (fs : option R) (bt : FilterBandType) (analog : option bool) (E : R) :
  (bt = Bandpass \/ bt = Bandstop) -> analog <> Some true -> valid_band false w0 w1 fs -> (0 < order)%nat -> 0 < rp -> 0 <= E ->
  (Nat.odd order = true -> ~ double_pole bt (cheb_pole order rp) (edge_freq false w0 fs) (edge_freq false w1 fs)) ->
  exists K, 1 <= K /\ forall prec emax szero (T : Trans spec_float) sort rpf w0f w1f fsf,
  (1 < prec < emax)%Z -> is_list_sort sort -> accurate_trans prec emax E T -> symmetric_trans prec emax T ->
  reads prec emax rpf rp -> reads prec emax w0f w0 -> reads prec emax w1f w1 -> reads_opt prec emax fsf fs -> K * uround prec <= 1 ->
  exists lf l,
    @cheby1_dyn _ (SFNum prec emax szero) T (machine_eps prec) sort order rpf [w0f; w1f] (Some bt) analog (Some OutSos) fsf = Ok (DSos lf) /\
    cheby1_dyn 0 sort order rp [w0; w1] (Some bt) analog (Some OutSos) fs = Ok (DSos l) /\
    forall x X, (3 * (2 * order + 1) < length x)%nat -> Forall (finite prec emax) x -> Forall (fun v => Rabs (fval v) <= X) x -> K * (X + ftiny prec emax) <= fmax prec emax ->
    exists yf y,
      @sosfiltfilt_dyn _ (SFNum prec emax szero) x lf = Ok yf /\ sosfiltfilt_dyn (map fval x) l = Ok y /\
      length yf = length x /\ length y = length x /\ Forall (finite prec emax) yf /\
      forall n, (n < length x)%nat -> Rabs (fval (nth n yf (S754_zero false)) - nth n y 0) <= K * (uround prec * X + ftiny prec emax).
Proof.
  intros Hb Ha Hv Ho Hr HE ND. destruct (cheby1_exact2 w0 w1 fs bt analog order Hb Ha Hv rp Hr Ho) as (h & Eh & Rh & Sh & Lh & Lp & Ez & Es).
  assert (Hv' : valid_digital bt (normalised [w0; w1] fs)) by (apply (band_digital bt w0 w1 fs Hb Hv)).
  pose proof (cheby1_gain bt analog order [w0; w1] fs Ha Hv' Ho rp Hr h (Ez 0 isort)) as Kh.
  assert (L0 : (0 < length (zk_p h))%nat) by (rewrite Lp; lia).
  pose proof (cheb_staged E w0 w1 rp fs bt order HE Hb Hv Hr ND) as ST. pose proof (staged_zeros _ _ _ _ _ _ _ ST h Eh) as Zh.
  destruct (checks2 E w0 w1 rp fs Hv) as (K1 & HK1 & Q1).
  destruct (evk_ff idx2 pr2 em2 sz2 E HE T2 (Vb E w0 w1 rp fs) (Vb_acc E w0 w1 rp fs) (Vb_sym E w0 w1 rp fs) _ _ ST h Eh Rh Sh Lh L0 Kh) as (K2 & HK2 & Q2).
  exists (K1 + K2). split; [lra|]. intros prec emax sz T sort rpf w0f w1f fsf Hpe Hs HT HS Rr R0 R1 Rf Hu. set (i := (mkIdx prec emax sz T w0f rpf fsf, w1f) : idx2).
  assert (Hi : fmt_ok idx2 pr2 em2 (Vb E w0 w1 rp fs) (K1 + K2) i).
  { split; [|split; [exact Hpe|exact Hu]]. split; [|exact HS]. split; [|exact R1]. split; [exact HT|]. split; [exact R0|]. split; [exact Rr|exact Rf]. }
  pose proof (Q1 i (fmt_mono idx2 pr2 em2 _ (K1 + K2) K1 i Hi ltac:(lra))) as CK.
  assert (FO := filtfilt_ok_mono _ _ _ _ _ K2 (K1 + K2) (proj1 (u_half prec (proj1 Hpe))) ltac:(lra) (Q2 i (fmt_mono idx2 pr2 em2 _ (K1 + K2) K2 i Hi ltac:(lra)) sort order Hs)).
  destruct FO as (sf & E1 & _ & P). destruct (Es sort (list_sort_sort sort Hs)) as (l & El & Rl).
  pose proof (cheby1_taps bt analog order [w0; w1] fs Ha Hv' Ho rp Hr sort h l (list_sort_sort sort Hs) (Ez 0 sort) Zh El) as Tl.
  exists sf, l. split; [rewrite <- E1; exact (cheby1_float2 rp bt analog order Hb Ha i sort Hr Rr CK)|]. split; [exact El|]. intros x X Hx Fx Bx HM.
  destruct (P x X Fx Bx ltac:(rewrite Lp; lia) HM) as (yf & F1 & L1 & F2 & G). destruct (G l Rl Tl) as (y & F3 & L2 & B).
  exists yf, y. split; [exact F1|]. split; [exact F3|]. split; [exact L1|]. split; [exact L2|]. split; [exact F2|exact B].
Qed.
Print Assumptions C113_cheby1_band_filtfilt.

(** The hypotheses on the design are those of C108 and C112, shown satisfiable there.  The
    hypotheses on the signal: for every constant and order there is a format fine enough in
    which a constant signal of value 1, of any length, is one. *)
Example C113_hyp_met : forall K (n : nat), exists prec emax x, (1 < prec < emax)%Z /\ K * uround prec <= 1 /\ length x = n /\ Forall (finite prec emax) x /\
  Forall (fun v => Rabs (fval v) <= 1) x /\ K * (1 + ftiny prec emax) <= fmax prec emax.
Proof.
  intros K n. destruct (fine_format (2 * Rmax 1 K)) as [prec [emax [Hpe Hu]]]. exists prec, emax, (repeat (SpecFloat.binary_normalize prec emax 1 0 false) n).
  destruct (u_half prec (proj1 Hpe)) as [U0 _]. pose proof (Rmax_l 1 K). pose proof (Rmax_r 1 K). destruct (small_int prec emax 1 Hpe ltac:(lia)) as [Ff Vf].
  split; [exact Hpe|]. split; [nra|]. split; [apply repeat_length|]. split; [apply Forall_forall; intros v Hv; apply repeat_spec in Hv; subst v; exact Ff|].
  split; [apply Forall_forall; intros v Hv; apply repeat_spec in Hv; subst v; rewrite Vf, Rabs_R1; lra|].
  assert (T1 : ftiny prec emax <= 1) by (pose proof (tiny_le_u prec emax Hpe); nra). pose proof (tiny_pos prec emax) as TP. pose proof (fmax_inv_u prec emax _ Hpe Hu). nra.
Qed.
