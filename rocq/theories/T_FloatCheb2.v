(** C115: Chebyshev II low-pass filters designed and run in floating point.  Unlike the
    Butterworth and Chebyshev I prototypes this one has zeros.  At every IEEE 754 format fine
    enough and with every accurate library of elementary functions the design is that of
    real arithmetic up to a multiple of the unit roundoff, its gain is the Chebyshev II gain
    up to such a multiple at every frequency, its sections are close to sections that make up
    the exact filter, and what filtering with them gives is close to the exact output. *)
From Coq Require Import Reals Ratan ZArith SpecFloat List Lia Lra Bool Permutation Sorted.
From Flocq Require Import Core BinarySingleNaN.
From Verif Require Import Base Num Trans M_Complex M_Filter M_Design Cx S_Design S_Filter S_Stable S_Bessel S_Float S_FloatFft S_FloatZpk S_FloatTrans S_FloatBand S_FloatSos S_FloatResponse S_Tone
  P_Sort P_Float P_FloatStats P_Poly P_Lp P_Proto P_Cheb P_Cheb2 P_Iir P_Iir2 T_Iir P_FloatMed P_FloatI0 P_FloatZi P_FloatPoly T_FloatPoly P_FloatDesign T_FloatDesign P_FloatResponse T_FloatResponse
  P_FloatSqrt P_FloatBand P_FloatBandStage T_FloatBand P_FloatFilt T_FloatFilt P_FloatSym P_FloatMate P_FloatSos T_Sos P_FloatSosCore P_FloatSosDesign T_FloatSos P_FloatBandMate P_FloatBandSos P_FloatCheb2 T_Cheb2 P_Tone T_FloatTone.
Import ListNotations.
Local Open Scope R_scope.
Notation NI i := (SFNum (xprec i) (xemax i) (xsz i)).

(** ** The design after its checks, over any numbers *)
Section Tail.
Context {F : Type} {NF : Num F} {TF : Trans F}.
Lemma iir_tail_cheb2 epsilon sort order w rp rs analog out fs :
  let an := unwrap_or analog false in let x := norm_freq w fs in
  (an = true -> fs = None) -> nleb x nzero = false -> (an = false -> nleb none x = false) -> nltb rp nzero = false -> nltb rs nzero = false ->
  iirfilter_dyn epsilon sort order [w] (Some rp) (Some rs) (Some Lowpass) (Some ChebyshevII) analog out fs =
  let! g := band Lowpass (cheb2ap_dyn order rs) (warped_freq an x) in let! g := to_digital an g in emit epsilon sort order an (unwrap_or out OutBa) g.
Proof.
  intros an x Ha H0 H1 Hr Hs. unfold iirfilter_dyn. fold an. cbn [length Nat.ltb Nat.leb].
  assert (E : (match fs with Some fs => if an then Panic else Ok (map (fun wni => ndiv (nmul two wni) fs) [w]) | None => Ok [w] end) = Ok [x]).
  { unfold x, norm_freq. destruct fs; [|reflexivity]. destruct an; [specialize (Ha eq_refl); discriminate|reflexivity]. }
  rewrite E. cbn [bind existsb orb]. rewrite H0. cbn [orb bind]. rewrite Hr. cbn [bind]. rewrite Hs. cbn [bind unwrap_or is_none unwrap]. clear E.
  unfold warped_freq, to_digital, band, emit. set (o := unwrap_or out OutBa). clearbody o an x. destruct an.
  - cbn [negb bind]. cbn [unwrap_or length Nat.eqb negb index bind nth_error]. reflexivity.
  - cbn [negb]. rewrite H1 by reflexivity. cbn [orb bind map unwrap_or length Nat.eqb negb index nth_error]. reflexivity.
Qed.
End Tail.

Lemma real_nneg r : 0 <= r -> @nltb R RNum r nzero = false.
Proof. intros H. cbn [nltb RNum nzero]. unfold Rltb. destruct (Rlt_dec _ _); [lra|reflexivity]. Qed.
Lemma float_nneg prec emax sz rf r : 0 <= r -> reads prec emax rf r -> @nltb _ (SFNum prec emax sz) rf (@nzero _ (SFNum prec emax sz)) = false.
Proof.
  intros H [Fr Er]. change (SFltb rf (S754_zero false) = false). rewrite (ltb_fval prec emax rf (S754_zero false) Fr (conj eq_refl Logic.I)). rewrite Er. unfold Rltb. cbn [fval]. destruct (Rlt_dec _ _); [lra|reflexivity].
Qed.

(** ** The prototype, and the low-pass filter made of it *)
Lemma low_good g wo h : good g -> 0 < wo -> lp2lp_zpk_dyn g (Some wo) = Ok h -> good h.
Proof.
  intros (Z & P & L) W. unfold lp2lp_zpk_dyn, relative_degree_dyn. destruct (Nat.ltb_spec (length (zk_p g)) (length (zk_z g))); [lia|]. intros Eh. injection Eh as <-.
  rewrite Forall_forall in Z, P. split; [|split]; cbn [zk_z zk_p].
  - apply Forall_forall. intros c Hc. apply in_map_iff in Hc. destruct Hc as [p [<- Hp]]. apply Z in Hp. change (cre p * wo - cim p * 0 = 0). rewrite Hp. ring.
  - apply Forall_forall. intros c Hc. apply in_map_iff in Hc. destruct Hc as [p [<- Hp]]. apply P in Hp. change (cre p * wo - cim p * 0 < 0). nra.
  - rewrite !map_length. exact L.
Qed.
Section Low.
Variables (order : nat) (rs : R).
Hypothesis Hn : (0 < order)%nat.
Hypothesis Hr : 0 < rs.
Lemma cheb2_good : good (@cheb2ap_dyn R RNum RTrans order rs).
Proof.
  rewrite cheb2ap_eq by assumption. split; [|split]; cbn [zk_z zk_p].
  - apply Forall_forall. intros r Q. apply in_map_iff in Q. destruct Q as [x [<- _]]. reflexivity.
  - apply P2_stable; assumption.
  - rewrite !map_length, seq_length. apply (xs_cheb order Hn 0).
Qed.
End Low.

Section Stages.
Variables (E w rs : R) (fs : option R) (order : nat).
Hypothesis HE : 0 <= E.
Hypothesis Hn : (0 < order)%nat.
Hypothesis Hr : 0 < rs.
Section Any.
Variable an : bool.
Hypothesis Hv : valid_edge an w fs.
Notation V := (Vx E w rs fs).
Notation x := (norm_freq w fs).
Notation wa := (warped_freq an x).
Definition lowf (i : idx) : res (@ZpkFormatFilter spec_float) :=
  @band _ (NI i) Lowpass (@cheb2ap_dyn _ (NI i) (xT i) order (xrp i)) (@warped_freq _ (NI i) (xT i) an (@norm_freq _ (NI i) (xw i) (xfs i))).
Lemma low_stage : exists h hf, znapp idx xprec xemax V xsz h hf /\ band Lowpass (@cheb2ap_dyn R RNum RTrans order rs) wa = Ok h /\ (forall i, V i -> lowf i = Ok (hf i)) /\ good h.
Proof.
  assert (NG : znapp idx xprec xemax V xsz (@cheb2ap_dyn R RNum RTrans order rs) (fun i => @cheb2ap_dyn _ (NI i) (xT i) order (xrp i))).
  { apply (stage_cheb2ap idx xprec xemax V xsz E HE xT); [intros i Vi _; apply Vi|exact Hr|apply napp_rp]. }
  pose proof (cheb2_good order rs Hn Hr) as G.
  destruct (stage_lp2lp idx xprec xemax V xsz _ _ NG (proj2 (proj2 G)) wa _ (napp_wa E w rs fs HE (edge_fs w fs an Hv) (edge_x w fs an Hv) an (edge_x1 w fs an Hv))) as (h & hf & A & B & D).
  exists h, hf. split; [exact A|]. split; [exact B|]. split; [exact D|]. apply (low_good _ wa h G); [|exact B]. exact (wa_pos w fs (edge_x w fs an Hv) an (edge_x1 w fs an Hv)).
Qed.
Lemma low_out out : out <> OutSos -> exists K, 1 <= K /\ forall i, fmt_ok idx xprec xemax V K i -> forall epsr epsf sort, is_sort sort ->
  exists f h,
  (let! g := lowf i in let! g := @to_digital _ (NI i) an g in @emit _ (NI i) (xT i) epsf sort order an out g) = Ok f /\
  (let! g := band Lowpass (@cheb2ap_dyn R RNum RTrans order rs) wa in let! g := to_digital an g in emit epsr sort order an out g) = Ok h /\
  filter_within (xprec i) (xemax i) (K * uround (xprec i)) f h /\ (out = OutZpk -> float_stable an f).
Proof.
  intros Ho. destruct low_stage as (g & gf & NG & EG & FG & GG). destruct (stage_dig idx xprec xemax xsz V an g gf NG GG) as (k & kf & NK & EK & FK & SK).
  destruct out; [| |congruence].
  - destruct (stage_tf idx xprec xemax V xsz k kf NK (2 * order)%nat) as [K [HK Q]]. exists K. split; [exact HK|]. intros i Hi epsr epsf sort Hs.
    destruct (Q i Hi sort Hs) as [bf [af [b [a [E1 [E2 [F1 [F2 [W1 W2]]]]]]]]]. exists (DBa (mkBa bf af)), (DBa (mkBa b a)).
    rewrite (FG i (proj1 Hi)), EG. cbn [bind]. rewrite (FK i (proj1 Hi)), EK. cbn [bind emit]. rewrite E1, E2.
    split; [reflexivity|]. split; [reflexivity|]. split; [|discriminate]. cbn [filter_within ba_b ba_a]. auto.
  - pose proof NK as [NZ [NP NQ]]. destruct (zpk_uniform idx xprec xemax V xsz _ _ _ _ _ _ NZ NP NQ) as [K [HK Q]].
    destruct (ev_stable idx xprec xemax xsz V an k kf NK SK) as [L [HL ST]]. exists (K + L). split; [lra|]. intros i Hi epsr epsf sort Hs.
    destruct (Q i (fmt_mono idx xprec xemax V (K + L) K i Hi ltac:(lra))) as [FF [W1 [W2 W3]]]. specialize (ST i (fmt_mono idx xprec xemax V (K + L) L i Hi ltac:(lra))).
    exists (DZpk (kf i)), (DZpk k). rewrite (FG i (proj1 Hi)), EG. cbn [bind]. rewrite (FK i (proj1 Hi)), EK. cbn [bind emit].
    split; [reflexivity|]. split; [reflexivity|]. split; [|intros _; exact ST].
    apply (filter_within_mono _ _ (K * uround (xprec i))).
    + destruct Hi as (_ & Hpe & _). destruct (u_half (xprec i) ltac:(lia)) as [U0 _]. apply Rmult_le_compat_r; lra.
    + destruct (kf i) as [zz pp kk], k as [hz hp hk]. split; [exact FF|]. split; [exact W1|]. split; [exact W2|exact W3].
Qed.
End Any.

(** With the zeros and poles paired *)
Hypothesis Hv : valid_edge false w fs.
Notation U := (Vs E w rs fs).
Lemma low_mates : mstaged idx xprec xemax xsz U (band Lowpass (@cheb2ap_dyn R RNum RTrans order rs) (warped_freq false (norm_freq w fs))) (lowf false) good.
Proof.
  set (wa := warped_freq false (norm_freq w fs)).
  assert (W0 : 0 < wa) by exact (wa_pos w fs (edge_x w fs false Hv) false (edge_x1 w fs false Hv)).
  assert (NW : napp idx xprec xemax U wa (fun i => @warped_freq _ (NI i) (xT i) false (@norm_freq _ (NI i) (xw i) (xfs i)))).
  { exact (napp_pull (fun i => i) xprec xemax _ U _ _ (Vs_x E w rs fs) (napp_wa E w rs fs HE (edge_fs w fs false Hv) (edge_x w fs false Hv) false (edge_x1 w fs false Hv))). }
  assert (NR : napp idx xprec xemax U rs xrp) by (apply napp_exact; intros i Vi _; apply Vi).
  pose proof (stage_cheb2ap idx xprec xemax U xsz E HE xT (Vs_acc E w rs fs) order rs xrp Hr NR) as NG.
  pose proof (mate_cheb2ap idx xprec xemax U xsz E HE xT (Vs_acc E w rs fs) (Vs_sym E w rs fs) order rs xrp Hr NR) as MG.
  pose proof (cheb2_good order rs Hn Hr) as G.
  destruct (stage_lp2lp idx xprec xemax U xsz _ _ NG (proj2 (proj2 G)) wa _ NW) as (h & hf & A & B & D).
  exists (fun _ => []), 0%nat, h, hf. split; [reflexivity|]. split; [exact B|]. split; [exact D|]. split; [exact (low_good _ wa h G W0 B)|].
  intros sg. exists h. split; [split; [apply Permutation_refl|split; [apply Permutation_refl|reflexivity]]|].
  assert (S : forall i, U i /\ [] = sg -> U i) by (intros i Q; apply Q).
  assert (M : zmate idx xprec xemax U xsz h hf) by (apply (mate_lp2lp idx xprec xemax U xsz _ h _ hf MG (proj2 (proj2 G)) wa _ (Rgt_not_eq _ _ W0) NW B D)).
  split.
  - destruct A as ([A1 A2] & [B1 B2] & D1). split; [|split].
    + split; [intros i Q; apply A1, S, Q|]. intros k Hk. destruct (A2 k Hk) as [X Y]. split; [exact (napp_shrink xprec xemax _ _ _ _ S X)|exact (napp_shrink xprec xemax _ _ _ _ S Y)].
    + split; [intros i Q; apply B1, S, Q|]. intros k Hk. destruct (B2 k Hk) as [X Y]. split; [exact (napp_shrink xprec xemax _ _ _ _ S X)|exact (napp_shrink xprec xemax _ _ _ _ S Y)].
    + exact (napp_shrink xprec xemax _ _ _ _ S D1).
  - destruct M as [[m1 M1] [m2 M2]]. split; [exists m1; exact (lmate_shrink idx xprec xemax xsz _ _ S _ _ _ M1)|exists m2; exact (lmate_shrink idx xprec xemax xsz _ _ S _ _ _ M2)].
Qed.
End Stages.

(** ** The exact design *)
Section Exact.
Variables (order : nat) (rp rs w : R) (fs : option R) (analog : option bool).
Hypothesis Hn : (0 < order)%nat.
Hypothesis Hp : 0 <= rp.
Hypothesis Hr : 0 < rs.
Hypothesis Ha : analog <> Some true.
Hypothesis Hv : valid_edge false w fs.
Lemma cheby2_tail eps sort out : iirfilter_dyn eps sort order [w] (Some rp) (Some rs) (Some Lowpass) (Some ChebyshevII) analog out fs =
  let! g := band Lowpass (cheb2ap_dyn order rs) (warped_freq false (norm_freq w fs)) in let! g := to_digital false g in emit eps sort order false (unwrap_or out OutBa) g.
Proof.
  destruct (edge_checks w fs false Hv) as [R1 R2]. rewrite iir_tail_cheb2; rewrite ?(not_analog analog Ha); [reflexivity|discriminate|exact R1|exact R2|apply real_nneg; exact Hp|apply real_nneg; lra].
Qed.
Lemma cheby2_exact : exists h, (let! g := band Lowpass (cheb2ap_dyn order rs) (warped_freq false (norm_freq w fs)) in to_digital false g) = Ok h /\
  real_filter h /\ stable_digital h /\ length (zk_z h) = length (zk_p h) /\ length (zk_p h) = order /\
  (forall eps sort, iirfilter_dyn eps sort order [w] (Some rp) (Some rs) (Some Lowpass) (Some ChebyshevII) analog (Some OutZpk) fs = Ok (DZpk h)) /\
  (forall eps sort, is_sort sort -> iirfilter_dyn eps sort order [w] (Some rp) (Some rs) (Some Lowpass) (Some ChebyshevII) analog (Some OutBa) fs =
     Ok (DBa (mkBa (padded_coef (2 * order) (zk_k h) (zk_z h)) (padded_coef (2 * order) 1 (zk_p h))))) /\
  (forall sort, is_sort sort -> exists l, iirfilter_dyn 0 sort order [w] (Some rp) (Some rs) (Some Lowpass) (Some ChebyshevII) analog (Some OutSos) fs = Ok (DSos l) /\ realises l h) /\
  (forall theta, let (a, b) := band_ratio Lowpass (normalised [w] fs) theta in
     (a = 0 -> dgain_sqr h theta = 1) /\ (a <> 0 -> chebT order (b / a) = 0 -> dgain_sqr h theta = 0) /\
     (a <> 0 -> chebT order (b / a) <> 0 -> dgain_sqr h theta = 1 / (1 + (Rpower 10 (rs / 10) - 1) / chebT order (b / a) ^ 2))).
Proof.
  destruct (C78_cheby2_digital_partial 0 isort order rp rs [w] Lowpass analog fs (list_sort_sort _ isort_list_sort) (Rle_refl 0) Hn Hp Hr Ha (edge_digital Lowpass w fs (or_introl eq_refl) Hv) (or_introl eq_refl))
    as (h & E0 & Sh & Rh & Lz & Lp & G & _). cbn [band_arity] in Lp.
  assert (Eh : (let! g := band Lowpass (cheb2ap_dyn order rs) (warped_freq false (norm_freq w fs)) in to_digital false g) = Ok h).
  { rewrite cheby2_tail in E0. cbn [unwrap_or] in E0. rewrite <- bind_assoc in E0. set (m := (let! g := band Lowpass (cheb2ap_dyn order rs) (warped_freq false (norm_freq w fs)) in to_digital false g)) in *.
    destruct m as [h'| | |]; cbn [bind emit] in E0; try discriminate. injection E0 as ->. reflexivity. }
  exists h. split; [exact Eh|]. split; [exact Rh|]. split; [exact Sh|]. split; [exact Lz|]. split; [lia|]. split; [|split; [|split]].
  - intros eps sort. rewrite cheby2_tail, <- bind_assoc, Eh. reflexivity.
  - intros eps sort Hs. rewrite cheby2_tail, <- bind_assoc, Eh. cbn [bind emit unwrap_or]. rewrite zpk2tf_ok by exact Hs. reflexivity.
  - intros sort Hs. rewrite cheby2_tail, <- bind_assoc, Eh. destruct (exact_sections sort order h Hs Rh) as (l & El & Rl). exists l. split; [exact El|exact Rl].
  - intros theta. specialize (G theta). destruct (band_ratio Lowpass (normalised [w] fs) theta) as [a b]. destruct G as (G1 & G2 & G3 & _). auto.
Qed.
End Exact.

Lemma cheby2_float order rp rs w fs an i analog eps sort rpf out : unwrap_or analog false = an -> 0 <= rp -> 0 < rs -> reads (xprec i) (xemax i) rpf rp -> reads (xprec i) (xemax i) (xrp i) rs ->
  valid_edge an w fs -> reads_opt (xprec i) (xemax i) (xfs i) fs ->
  @nleb _ (NI i) (@norm_freq _ (NI i) (xw i) (xfs i)) (@nzero _ (NI i)) = false -> (an = false -> @nleb _ (NI i) (@none _ (NI i)) (@norm_freq _ (NI i) (xw i) (xfs i)) = false) ->
  @iirfilter_dyn _ (NI i) (xT i) eps sort order [xw i] (Some rpf) (Some (xrp i)) (Some Lowpass) (Some ChebyshevII) analog out (xfs i) =
  let! g := lowf order an i in let! g := @to_digital _ (NI i) an g in @emit _ (NI i) (xT i) eps sort order an (unwrap_or out OutBa) g.
Proof.
  intros Ea Hp Hr Rp Rs Hv Rf C1 C2. rewrite (@iir_tail_cheb2 _ (NI i) (xT i)); rewrite ?Ea.
  - reflexivity.
  - intros An. pose proof (edge_an w fs an Hv An) as Fn. rewrite Fn in Rf. destruct (xfs i); [destruct Rf|reflexivity].
  - exact C1.
  - exact C2.
  - exact (float_nneg _ _ _ _ _ Hp Rp).
  - exact (float_nneg _ _ _ _ _ (Rlt_le _ _ Hr) Rs).
Qed.

(** * C115 *)
Theorem C115_cheby2_rounding (order : nat) (rp rs w : R) (fs : option R) (analog : option bool) (out : option FilterOutputType) (E : R) :
  out <> Some OutSos -> valid_edge (unwrap_or analog false) w fs -> (0 < order)%nat -> 0 <= rp -> 0 < rs -> 0 <= E ->
  exists K, 1 <= K /\ forall prec emax szero (T : Trans spec_float) epsr epsf sort rpf rsf wf fsf,
  (1 < prec < emax)%Z -> is_sort sort -> accurate_trans prec emax E T ->
  reads prec emax rpf rp -> reads prec emax rsf rs -> reads prec emax wf w -> reads_opt prec emax fsf fs -> K * uround prec <= 1 ->
  exists f h,
    @iirfilter_dyn _ (SFNum prec emax szero) T epsf sort order [wf] (Some rpf) (Some rsf) (Some Lowpass) (Some ChebyshevII) analog out fsf = Ok f /\
    iirfilter_dyn epsr sort order [w] (Some rp) (Some rs) (Some Lowpass) (Some ChebyshevII) analog out fs = Ok h /\
    filter_within prec emax (K * uround prec) f h /\
    (out = Some OutZpk -> float_stable (unwrap_or analog false) f).
Proof.
  intros Ho Hv Hn Hp Hr HE. set (an := unwrap_or analog false) in *. set (o := unwrap_or out OutBa).
  assert (Ho' : o <> OutSos) by (unfold o; destruct out as [[]|]; cbn; congruence).
  destruct (final E w rs fs an Hv) as [K1 [HK1 Q1]]. destruct (low_out E w rs fs order HE Hn Hr an Hv o Ho') as [K2 [HK2 Q2]].
  exists (K1 + K2). split; [lra|]. intros prec emax sz T epsr epsf sort rpf rsf wf fsf Hpe Hs HT Rp Rs Rw Rf Hu. set (i := mkIdx prec emax sz T wf rsf fsf).
  assert (Hi : fmt_ok idx xprec xemax (Vx E w rs fs) (K1 + K2) i).
  { split; [|split; [exact Hpe|exact Hu]]. split; [exact HT|]. split; [exact Rw|]. split; [exact Rs|exact Rf]. }
  destruct (Q1 i (fmt_mono idx xprec xemax _ (K1 + K2) K1 i Hi ltac:(lra))) as [C1 [C2 _]].
  destruct (Q2 i (fmt_mono idx xprec xemax _ (K1 + K2) K2 i Hi ltac:(lra)) epsr epsf sort Hs) as (f & h & E1 & E2 & W & S).
  destruct (edge_checks w fs an Hv) as [R1 R2]. exists f, h. split; [|split; [|split]].
  - rewrite <- E1. exact (cheby2_float order rp rs w fs an i analog epsf sort rpf out eq_refl Hp Hr Rp Rs Hv Rf C1 C2).
  - rewrite (@iir_tail_cheb2 _ RNum RTrans); [exact E2|exact (edge_an w fs an Hv)|exact R1|exact R2|apply real_nneg; exact Hp|apply real_nneg; lra].
  - eapply filter_within_mono; [|exact W]. destruct (u_half prec ltac:(lia)). unfold i; cbn [xprec]. apply Rmult_le_compat_r; lra.
  - intros ->. apply S. reflexivity.
Qed.
Print Assumptions C115_cheby2_rounding.

Theorem C115_cheby2_response (order : nat) (rp rs w : R) (fs : option R) (analog : option bool) (E : R) :
  (0 < order)%nat -> 0 <= rp -> 0 < rs -> analog <> Some true -> valid_edge false w fs -> 0 <= E ->
  exists K, 1 <= K /\ forall prec emax szero (T : Trans spec_float) epsilon sort rpf rsf wf fsf,
  (1 < prec < emax)%Z -> is_sort sort -> accurate_trans prec emax E T ->
  reads prec emax rpf rp -> reads prec emax rsf rs -> reads prec emax wf w -> reads_opt prec emax fsf fs -> K * uround prec <= 1 ->
  exists f g,
    @iirfilter_dyn _ (SFNum prec emax szero) T epsilon sort order [wf] (Some rpf) (Some rsf) (Some Lowpass) (Some ChebyshevII) analog (Some OutZpk) fsf = Ok (DZpk f) /\
    @iirfilter_dyn _ (SFNum prec emax szero) T epsilon sort order [wf] (Some rpf) (Some rsf) (Some Lowpass) (Some ChebyshevII) analog (Some OutBa) fsf = Ok (DBa g) /\
    stable_digital (zpk_val f) /\ ba_stable (map fval (ba_a g)) /\
    forall theta gain, gain = dgain_sqr (zpk_val f) theta \/ gain = ba_gain_sqr (map fval (ba_b g)) (map fval (ba_a g)) theta ->
      let (a, b) := band_ratio Lowpass (normalised [w] fs) theta in
      (a = 0 -> Rabs (gain - 1) <= K * uround prec) /\
      (a <> 0 -> chebT order (b / a) = 0 -> Rabs gain <= K * uround prec) /\
      (a <> 0 -> chebT order (b / a) <> 0 -> Rabs (gain - 1 / (1 + (Rpower 10 (rs / 10) - 1) / chebT order (b / a) ^ 2)) <= K * uround prec).
Proof.
  intros Hn Hp Hr Ha Hv HE. pose proof (not_analog analog Ha) as Ea.
  destruct (cheby2_exact order rp rs w fs analog Hn Hp Hr Ha Hv) as (h0 & _ & Rh & Sh & Lz & Lp & EZ & EB & _ & G).
  destruct (C115_cheby2_rounding order rp rs w fs analog (Some OutZpk) E ltac:(discriminate) ltac:(rewrite Ea; exact Hv) Hn Hp Hr HE) as [K1 [HK1 Q1]].
  destruct (C115_cheby2_rounding order rp rs w fs analog (Some OutBa) E ltac:(discriminate) ltac:(rewrite Ea; exact Hv) Hn Hp Hr HE) as [K2 [HK2 Q2]].
  destruct (both h0 order Sh Rh Lz ltac:(lia) K1 K2 HK1 HK2) as [K [HK [L1 [L2 Q]]]].
  exists K. split; [exact HK|]. intros prec emax sz T eps sort rpf rsf wf fsf Hpe Hso HT Rp Rs Rw Rf Hu. destruct (u_half prec ltac:(lia)) as [U0 _].
  destruct (Q1 prec emax sz T 0 eps sort rpf rsf wf fsf Hpe Hso HT Rp Rs Rw Rf ltac:(nra)) as [f [h [F1 [F2 [W1 S1]]]]].
  destruct (Q2 prec emax sz T 0 eps sort rpf rsf wf fsf Hpe Hso HT Rp Rs Rw Rf ltac:(nra)) as [f' [h' [F1' [F2' [W2 _]]]]].
  rewrite EZ in F2. rewrite (EB 0 sort Hso) in F2'. injection F2 as <-. injection F2' as <-.
  destruct (Q prec emax f f' ltac:(lia) Hu W1 W2) as [zf [bf [-> [-> [SB R]]]]].
  exists zf, bf. split; [exact F1|]. split; [exact F1'|]. specialize (S1 eq_refl). rewrite Ea in S1. split; [exact S1|]. split; [exact SB|].
  intros theta gain Hg. specialize (R theta gain Hg). specialize (G theta). destruct (band_ratio Lowpass (normalised [w] fs) theta) as [a b]. destruct G as (G1 & G2 & G3). split; [|split].
  - intros Z. rewrite <- (G1 Z). exact R.
  - intros Z Y. rewrite (G2 Z Y), Rminus_0_r in R. exact R.
  - intros Z Y. rewrite <- (G3 Z Y). exact R.
Qed.
Print Assumptions C115_cheby2_response.

Theorem C115_cheby2_sections (order : nat) (rp rs w : R) (fs : option R) (analog : option bool) (E : R) :
  analog <> Some true -> valid_edge false w fs -> (0 < order)%nat -> 0 <= rp -> 0 < rs -> 0 <= E ->
  exists K, 1 <= K /\ forall prec emax szero (T : Trans spec_float) sort rpf rsf wf fsf,
  (1 < prec < emax)%Z -> is_list_sort sort -> accurate_trans prec emax E T -> symmetric_trans prec emax T ->
  reads prec emax rpf rp -> reads prec emax rsf rs -> reads prec emax wf w -> reads_opt prec emax fsf fs -> K * uround prec <= 1 ->
  exists f l r,
    iirfilter_dyn 0 sort order [w] (Some rp) (Some rs) (Some Lowpass) (Some ChebyshevII) analog (Some OutZpk) fs = Ok (DZpk f) /\
    @iirfilter_dyn _ (SFNum prec emax szero) T (machine_eps prec) sort order [wf] (Some rpf) (Some rsf) (Some Lowpass) (Some ChebyshevII) analog (Some OutSos) fsf = Ok (DSos l) /\
    length r = Nat.max 1 ((order + 1) / 2) /\ realises r f /\ stable_sections r /\
    Forall2 (sos_within prec emax (K * uround prec)) l r /\ stable_sections (map sos_val l).
Proof.
  intros Ha Hv Hn Hp Hr HE. destruct (cheby2_exact order rp rs w fs analog Hn Hp Hr Ha Hv) as (h & Eh & Rh & Sh & Lh & Lp & Ez & _).
  destruct (checks_ev E w rs fs Hv) as (K1 & HK1 & Q1).
  destruct (evk_sos idx xprec xemax xsz E HE xT (Vs E w rs fs) (Vs_acc E w rs fs) (Vs_sym E w rs fs) _ _ (low_mates E w rs fs order HE Hn Hr Hv) h Eh Rh Sh Lh) as (K2 & HK2 & Q2).
  exists (K1 + K2). split; [lra|]. intros prec emax sz T sort rpf rsf wf fsf Hpe Hs HT HS Rp Rs Rw Rf Hu. set (i := mkIdx prec emax sz T wf rsf fsf).
  assert (Hi : fmt_ok idx xprec xemax (Vs E w rs fs) (K1 + K2) i).
  { split; [|split; [exact Hpe|exact Hu]]. split; [|exact HS]. split; [exact HT|]. split; [exact Rw|]. split; [exact Rs|exact Rf]. }
  destruct (Q1 i (fmt_mono idx xprec xemax _ (K1 + K2) K1 i Hi ltac:(lra))) as [C1 C2].
  destruct (Q2 i (fmt_mono idx xprec xemax _ (K1 + K2) K2 i Hi ltac:(lra)) sort order Hs) as (sf & sr & E1 & Ls & RE & ST & W & SF).
  exists h, sf, sr. split; [apply Ez|]. split; [rewrite <- E1; exact (cheby2_float order rp rs w fs false i analog _ sort rpf (Some OutSos) (not_analog analog Ha) Hp Hr Rp Rs Hv Rf C1 (fun _ => C2))|].
  split; [rewrite Ls, Lp; reflexivity|]. split; [exact RE|]. split; [exact ST|]. split; [|exact SF].
  eapply within_le; [|exact W]. destruct (u_half prec (proj1 Hpe)) as [U0 _]. apply Rmult_le_compat_r; [exact (Rlt_le _ _ U0)|lra].
Qed.
Print Assumptions C115_cheby2_sections.

Theorem C115_cheby2_filter (order : nat) (rp rs w : R) (fs : option R) (analog : option bool) (E : R) :
  analog <> Some true -> valid_edge false w fs -> (0 < order)%nat -> 0 <= rp -> 0 < rs -> 0 <= E ->
  exists K, 1 <= K /\ forall prec emax szero (T : Trans spec_float) sort rpf rsf wf fsf,
  (1 < prec < emax)%Z -> is_list_sort sort -> accurate_trans prec emax E T -> symmetric_trans prec emax T ->
  reads prec emax rpf rp -> reads prec emax rsf rs -> reads prec emax wf w -> reads_opt prec emax fsf fs -> K * uround prec <= 1 ->
  exists lf l,
    @iirfilter_dyn _ (SFNum prec emax szero) T (machine_eps prec) sort order [wf] (Some rpf) (Some rsf) (Some Lowpass) (Some ChebyshevII) analog (Some OutSos) fsf = Ok (DSos lf) /\
    iirfilter_dyn 0 sort order [w] (Some rp) (Some rs) (Some Lowpass) (Some ChebyshevII) analog (Some OutSos) fs = Ok (DSos l) /\
    forall x X, Forall (finite prec emax) x -> 0 <= X -> Forall (fun v => Rabs (fval v) <= X) x -> K * (X + ftiny prec emax) <= fmax prec emax ->
    exists yf lf' y l',
      @sosfilt_dyn _ (SFNum prec emax szero) x lf = Ok (yf, lf') /\ sosfilt_dyn (map fval x) l = Ok (y, l') /\
      length yf = length x /\ length y = length x /\ Forall (finite prec emax) yf /\
      forall n, (n < length x)%nat -> Rabs (fval (nth n yf (S754_zero false)) - nth n y 0) <= K * (uround prec * X + ftiny prec emax).
Proof.
  intros Ha Hv Hn Hp Hr HE. destruct (cheby2_exact order rp rs w fs analog Hn Hp Hr Ha Hv) as (h & Eh & Rh & Sh & Lh & Lp & _ & _ & Es & _).
  destruct (checks_ev E w rs fs Hv) as (K1 & HK1 & Q1).
  destruct (evk_pipe idx xprec xemax xsz E HE xT (Vs E w rs fs) (Vs_acc E w rs fs) (Vs_sym E w rs fs) _ _ (low_mates E w rs fs order HE Hn Hr Hv) h Eh Rh Sh Lh) as (K2 & HK2 & Q2).
  exists (K1 + K2). split; [lra|]. intros prec emax sz T sort rpf rsf wf fsf Hpe Hs HT HS Rp Rs Rw Rf Hu. set (i := mkIdx prec emax sz T wf rsf fsf).
  assert (Hi : fmt_ok idx xprec xemax (Vs E w rs fs) (K1 + K2) i).
  { split; [|split; [exact Hpe|exact Hu]]. split; [|exact HS]. split; [exact HT|]. split; [exact Rw|]. split; [exact Rs|exact Rf]. }
  destruct (Q1 i (fmt_mono idx xprec xemax _ (K1 + K2) K1 i Hi ltac:(lra))) as [C1 C2].
  destruct (Q2 i (fmt_mono idx xprec xemax _ (K1 + K2) K2 i Hi ltac:(lra)) sort order Hs) as (sf & E1 & P). destruct (Es sort (list_sort_sort sort Hs)) as (l & El & Rl).
  exists sf, l. split; [rewrite <- E1; exact (cheby2_float order rp rs w fs false i analog _ sort rpf (Some OutSos) (not_analog analog Ha) Hp Hr Rp Rs Hv Rf C1 (fun _ => C2))|]. split; [exact El|].
  intros x X Fx HX Bx HM. pose proof (tiny_pos prec emax) as TP. destruct (u_half prec (proj1 Hpe)) as [U0 _].
  assert (UX : 0 <= uround prec * X) by (apply Rmult_le_pos; [exact (Rlt_le _ _ U0)|exact HX]).
  destruct (P x X Fx HX Bx) as (yf & lf' & F1 & L1 & F2 & G). { eapply Rle_trans; [|exact HM]. apply Rmult_le_compat_r; [change (0 <= X + ftiny prec emax); lra|lra]. }
  destruct (G l Rl) as (y & l' & F3 & L2 & B). exists yf, lf', y, l'. split; [exact F1|]. split; [exact F3|]. split; [exact L1|]. split; [exact L2|]. split; [exact F2|].
  intros n Hn'. eapply Rle_trans; [exact (B n Hn')|]. apply Rmult_le_compat_r; [change (0 <= uround prec * X + ftiny prec emax); lra|lra].
Qed.
Print Assumptions C115_cheby2_filter.

(** A tone through it *)
Theorem C115_cheby2_tone (order : nat) (rp rs w : R) (fs : option R) (analog : option bool) (E : R) :
  analog <> Some true -> valid_edge false w fs -> (0 < order)%nat -> 0 <= rp -> 0 < rs -> 0 <= E ->
  exists h K rho, iirfilter_dyn 0 isort order [w] (Some rp) (Some rs) (Some Lowpass) (Some ChebyshevII) analog (Some OutZpk) fs = Ok (DZpk h) /\ 1 <= K /\ 0 < rho < 1 /\
    forall theta, exists g psi, 0 <= g /\ H h (cos theta, sin theta) = (g * cos psi, g * sin psi) /\
    (let (a, b) := band_ratio Lowpass (normalised [w] fs) theta in
     (a = 0 -> g = 1) /\ (a <> 0 -> chebT order (b / a) = 0 -> g = 0) /\
     (a <> 0 -> chebT order (b / a) <> 0 -> g ^ 2 = 1 / (1 + (Rpower 10 (rs / 10) - 1) / chebT order (b / a) ^ 2))) /\
    forall prec emax szero (T : Trans spec_float) sort rpf rsf wf fsf,
    (1 < prec < emax)%Z -> is_list_sort sort -> accurate_trans prec emax E T -> symmetric_trans prec emax T ->
    reads prec emax rpf rp -> reads prec emax rsf rs -> reads prec emax wf w -> reads_opt prec emax fsf fs -> K * uround prec <= 1 ->
    exists sections,
      @iirfilter_dyn _ (SFNum prec emax szero) T (machine_eps prec) sort order [wf] (Some rpf) (Some rsf) (Some Lowpass) (Some ChebyshevII) analog (Some OutSos) fsf = Ok (DSos sections) /\
      tone_passes prec emax szero K rho g psi theta sections.
Proof.
  intros Ha Hv Hn Hp Hr HE. destruct (cheby2_exact order rp rs w fs analog Hn Hp Hr Ha Hv) as (h & _ & _ & Sh & Lh & _ & Ez & _ & Es & G).
  destruct (C115_cheby2_filter order rp rs w fs analog E Ha Hv Hn Hp Hr HE) as (Kf & HKf & P).
  assert (Ex : exists l0, realises l0 h) by (destruct (Es isort (list_sort_sort _ isort_list_sort)) as (l & _ & R); exists l; exact R).
  destruct (tone_float h Kf HKf Sh Lh Ex) as (K & rho & HK & HKK & Hr' & Q0).
  exists h, K, rho. split; [apply Ez|]. split; [exact HK|]. split; [exact Hr'|]. intros theta. destruct (Q0 theta) as (g & psi & Hg & Eh & Eg & Q).
  exists g, psi. split; [exact Hg|]. split; [exact Eh|]. split.
  - specialize (G theta). destruct (band_ratio Lowpass (normalised [w] fs) theta) as [a b]. destruct G as (G1 & G2 & G3). rewrite <- Eg in G1, G2, G3. split; [|split; [|exact G3]].
    + intros Z. specialize (G1 Z). nra.
    + intros Z Y. exact (gain_zero g _ Hg eq_refl (G2 Z Y)).
  - intros prec emax szero T sort rpf rsf wf fsf Hpe Hs HT HS Rp Rs Rw Rf Hu. destruct (u_half prec (proj1 Hpe)) as [U0 _].
    destruct (P prec emax szero T sort rpf rsf wf fsf Hpe Hs HT HS Rp Rs Rw Rf) as (lf & l & E1 & E2 & F). { eapply Rle_trans; [|exact Hu]. apply Rmult_le_compat_r; lra. }
    exists lf. split; [exact E1|]. destruct (Es sort (list_sort_sort sort Hs)) as (l2 & E3 & Rl). assert (l2 = l) by congruence. subst l2. exact (Q prec emax szero lf l Hpe Rl F).
Qed.
Print Assumptions C115_cheby2_tone.

(** Order two, edge 1 at sampling rate 4, at least 4 dB down in the stop band: a format fine
    enough for any constant exists, and at half the sampling rate a tone comes out 4 dB
    down. *)
Example C115_hyp_met : valid_edge false 1 (Some 4) /\ is_list_sort isort /\ forall K, exists prec emax T rpf rsf wf fsf, (1 < prec < emax)%Z /\
  accurate_trans prec emax 5 T /\ symmetric_trans prec emax T /\ reads prec emax rpf 1 /\ reads prec emax rsf 4 /\ reads prec emax wf 1 /\ reads_opt prec emax (Some fsf) (Some 4) /\ K * uround prec <= 1.
Proof.
  destruct C108_hyp_met as (A & B & D). split; [exact A|]. split; [exact B|]. intros K. destruct (D K) as (prec & emax & T & wf & fsf & P1 & P2 & P3 & P4 & P5 & P6).
  exists prec, emax, T, wf, fsf, wf, fsf. repeat (split; [first [exact P1|exact P2|exact P3|exact P4|exact P5]|]). exact P6.
Qed.
Example C115_gain_ex : exists K rho g psi, 1 <= K /\ 0 < rho < 1 /\ 0 <= g /\ g ^ 2 = 1 / Rpower 10 (4 / 10) /\
  forall prec emax szero (T : Trans spec_float) rpf rsf wf fsf, (1 < prec < emax)%Z -> accurate_trans prec emax 5 T -> symmetric_trans prec emax T ->
    reads prec emax rpf 1 -> reads prec emax rsf 4 -> reads prec emax wf 1 -> reads_opt prec emax (Some fsf) (Some 4) -> K * uround prec <= 1 ->
    exists sections,
      @iirfilter_dyn _ (SFNum prec emax szero) T (machine_eps prec) isort 2 [wf] (Some rpf) (Some rsf) (Some Lowpass) (Some ChebyshevII) None (Some OutSos) (Some fsf) = Ok (DSos sections) /\
      tone_passes prec emax szero K rho g psi PI sections.
Proof.
  destruct (C115_cheby2_tone 2 1 4 1 (Some 4) None 5) as (h & K & rho & _ & HK & Hr & Q0); [discriminate|apply C115_hyp_met|lia|lra|lra|lra|].
  destruct (Q0 PI) as (g & psi & Hg & _ & Gn & Q).
  exists K, rho, g, psi. split; [exact HK|]. split; [exact Hr|]. split; [exact Hg|]. split.
  - cbn [band_ratio normalised map nth] in Gn. rewrite cos_PI2, sin_PI2 in Gn. replace (PI * (2 * 1 / 4) / 2) with (PI / 4) in Gn by field. rewrite cos_PI4, sin_PI4 in Gn.
    assert (S : 0 < sqrt 2) by (apply sqrt_lt_R0; lra). assert (Sq : 1 * (1 / sqrt 2) <> 0) by (apply Rgt_not_eq; apply Rlt_gt; rewrite Rmult_1_l; apply Rdiv_lt_0_compat; lra).
    destruct Gn as (_ & _ & G3). replace (0 * (1 / sqrt 2) / (1 * (1 / sqrt 2))) with 0 in G3 by (field; lra).
    assert (C2 : chebT 2 0 = -1) by (cbn; ring). rewrite C2 in G3. rewrite (G3 Sq ltac:(lra)). f_equal. replace ((-1) ^ 2) with 1 by ring. field.
  - intros. apply Q; try assumption. exact isort_list_sort.
Qed.
