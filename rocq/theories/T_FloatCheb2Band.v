(** C119: Chebyshev II band-pass filters designed and run in floating point.  The transform
    takes a complex square root at every zero and at every pole.  The zeros lie on the
    imaginary axis, where the square root has its branch cut, so rounding decides on which
    side their argument falls, and both zeros and poles may come in another order.
    Otherwise the design, its gain, its sections and what filtering with them gives are
    those of real arithmetic up to a multiple of the unit roundoff. *)
From Coq Require Import Reals Ratan ZArith SpecFloat List Lia Lra Bool Permutation Sorted.
From Flocq Require Import Core BinarySingleNaN.
From Verif Require Import Base Num Trans M_Complex M_Filter M_Design Cx S_Design S_Filter S_Stable S_Bessel S_Float S_FloatFft S_FloatZpk S_FloatTrans S_FloatBand S_FloatSos S_FloatResponse S_Tone S_FloatCheb2Band
  P_Sort P_Float P_FloatStats P_Poly P_Lp P_Proto P_Cheb P_Cheb2 P_Iir P_Iir2 T_Iir P_FloatMed P_FloatI0 P_FloatZi P_FloatPoly T_FloatPoly P_FloatDesign T_FloatDesign P_FloatResponse T_FloatResponse
  P_FloatSqrt P_FloatBand P_FloatBandStage T_FloatBand T_FloatBandResponse P_FloatFilt T_FloatFilt P_FloatSym P_FloatMate P_FloatSos T_Sos P_FloatSosCore P_FloatSosDesign T_FloatSos P_FloatBandMate P_FloatBandSos T_FloatBandSos
  P_FloatCheb2 T_Cheb2 P_Tone T_FloatTone T_FloatCheb2 P_FloatAxis P_FloatCheb2Band.
Import ListNotations.
Local Open Scope R_scope.
Notation pr2 := (fun j : idx2 => xprec (fst j)).
Notation em2 := (fun j : idx2 => xemax (fst j)).
Notation sz2 := (fun j : idx2 => xsz (fst j)).
Notation T2 := (fun j : idx2 => xT (fst j)).
Notation NJ j := (SFNum (xprec (fst j)) (xemax (fst j)) (xsz (fst j))).

(** ** The design after its checks, over any numbers *)
Section Tail.
Context {F : Type} {NF : Num F} {TF : Trans F}.
Lemma iir_tail_cheb2_2 epsilon sort order w0 w1 rp rs analog out fs :
  let an := unwrap_or analog false in let x0 := norm_freq w0 fs in let x1 := norm_freq w1 fs in
  (an = true -> fs = None) ->
  nleb x0 nzero = false -> nleb x1 nzero = false -> nleb x1 x0 = false ->
  (an = false -> nleb none x0 = false) -> (an = false -> nleb none x1 = false) -> nltb rp nzero = false -> nltb rs nzero = false ->
  iirfilter_dyn epsilon sort order [w0; w1] (Some rp) (Some rs) (Some Bandpass) (Some ChebyshevII) analog out fs =
  let! g := band2 Bandpass (cheb2ap_dyn order rs) (warped_freq an x0) (warped_freq an x1) in let! g := to_digital an g in emit epsilon sort order an (unwrap_or out OutBa) g.
Proof.
  intros an x0 x1 Ha H0 H1 H2 H3 H4 Hr Hs. unfold iirfilter_dyn. fold an. cbn [length Nat.ltb Nat.leb].
  assert (E : (match fs with Some fs => if an then Panic else Ok (map (fun wni => ndiv (nmul two wni) fs) [w0; w1]) | None => Ok [w0; w1] end) = Ok [x0; x1]).
  { unfold x0, x1, norm_freq. destruct fs; [|reflexivity]. destruct an; [specialize (Ha eq_refl); discriminate|reflexivity]. }
  rewrite E. cbn [bind existsb orb]. rewrite H0, H1. cbn [orb bind]. rewrite H2. cbn [bind]. rewrite Hr. cbn [bind]. rewrite Hs. cbn [bind unwrap_or is_none unwrap]. clear E.
  unfold warped_freq, to_digital, band2, emit. set (o := unwrap_or out OutBa). clearbody o an x0 x1. destruct an.
  - cbn [negb bind]. cbn [unwrap_or length Nat.eqb negb index bind nth_error]. reflexivity.
  - cbn [negb]. rewrite H3, H4 by reflexivity. cbn [orb bind map unwrap_or length Nat.eqb negb index nth_error]. reflexivity.
Qed.
End Tail.

(** ** From the band filter to the output *)
Section Out.
Variable I : Type.
Variables pr em : I -> Z.
Variable sz : I -> bool.
Variable T : I -> Trans spec_float.
Notation NF i := (SFNum (pr i) (em i) (sz i)).
Lemma same_perm_sym h h0 : same_perm h h0 -> same_perm h0 h.
Proof. intros (A & B & D). split; [apply Permutation_sym; exact A|split; [apply Permutation_sym; exact B|symmetry; exact D]]. Qed.
Lemma tf_perm sort order h h0 : is_sort sort -> same_perm h h0 ->
  zpk2tf_dyn sort order (zk_z h) (zk_p h) (zk_k h) = zpk2tf_dyn sort order (zk_z h0) (zk_p h0) (zk_k h0).
Proof.
  intros Hs [Z [P K]]. rewrite !zpk2tf_ok by exact Hs. rewrite K. do 2 f_equal; unfold padded_coef, pcoef; [rewrite (fold_pstep_perm _ _ Z)|rewrite (fold_pstep_perm _ _ P)]; reflexivity.
Qed.
Definition out_ok2 (V : I -> Prop) an order out (real : res (@ZpkFormatFilter R)) (float : I -> res (@ZpkFormatFilter spec_float)) (K : R) (i : I) : Prop :=
  forall epsr epsf sort, is_sort sort -> exists f h h',
  (let! g := float i in let! g := @to_digital _ (NF i) an g in @emit _ (NF i) (T i) epsf sort order an out g) = Ok f /\
  (let! g := real in let! g := to_digital an g in emit epsr sort order an out g) = Ok h /\
  upto_orders h h' /\ filter_within (pr i) (em i) (K * uround (pr i)) f h' /\ (out = OutZpk -> float_stable an f).
Lemma out_mono2 V an order out real float : kmono pr (out_ok2 V an order out real float).
Proof.
  intros K K' i U HK LE H epsr epsf sort Hs. destruct (H epsr epsf sort Hs) as [f [h [h' [A [B [C0 [W S]]]]]]]. exists f, h, h'.
  split; [exact A|]. split; [exact B|]. split; [exact C0|]. split; [|exact S]. eapply filter_within_mono; [|exact W]. apply Rmult_le_compat_r; lra.
Qed.
Lemma stage_out2 (V : I -> Prop) an order out real float : out <> OutSos ->
  (exists (pat : I -> list bool) (n : nat) h0 hf, (forall i, length (pat i) = n) /\ real = Ok h0 /\ (forall i, V i -> float i = Ok (hf i)) /\ good h0 /\
    forall sg, exists h, same_perm h h0 /\ znapp I pr em (fun i => V i /\ pat i = sg) sz h hf) ->
  evk pr em V (out_ok2 V an order out real float).
Proof.
  intros Ho (pat & n & h0 & hf & Lp & ER & EF & G & H).
  apply (evk_patterns I pr em (out_ok2 V an order out real float) (out_mono2 V an order out real float) n V pat Lp). intros sg.
  destruct (H sg) as [h [SU N]]. pose proof (good_perm2 h h0 SU G) as Gh.
  destruct (stage_dig I pr em sz _ an h hf N Gh) as [k [kf [NK [EK [FK SK]]]]].
  destruct (digital_perm an h0 h k (same_perm_sym _ _ SU) EK) as [k0 [E0 SK0']]. pose proof (same_perm_sym _ _ SK0') as SK0.
  set (W := fun i => V i /\ pat i = sg) in *. destruct out; [| |congruence].
  - destruct (stage_tf I pr em W sz k kf NK (2 * order)%nat) as [K [HK Q]]. exists K. split; [exact HK|]. intros i Hi epsr epsf sort Hs.
    destruct (Q i Hi sort Hs) as [bf [af [b [a [E1 [E2 [F1 [F2 [W1 W2]]]]]]]]]. exists (DBa (mkBa bf af)), (DBa (mkBa b a)), (DBa (mkBa b a)).
    rewrite (EF i (proj1 (proj1 Hi))), ER. cbn [bind]. rewrite (FK i (proj1 Hi)), E0. cbn [bind emit]. rewrite E1, <- (tf_perm sort (2 * order) k k0 Hs SK0), E2.
    split; [reflexivity|]. split; [reflexivity|]. split; [reflexivity|]. split; [|discriminate]. cbn [filter_within ba_b ba_a]. auto.
  - pose proof NK as [NZ [NP NQ]]. destruct (zpk_uniform I pr em W sz _ _ _ _ _ _ NZ NP NQ) as [K [HK Q]].
    destruct (ev_stable I pr em sz W an k kf NK SK) as [L [HL ST]]. exists (K + L). split; [lra|]. intros i Hi epsr epsf sort Hs.
    destruct (Q i (fmt_mono I pr em W (K + L) K i Hi ltac:(lra))) as [FF [W1 [W2 W3]]]. specialize (ST i (fmt_mono I pr em W (K + L) L i Hi ltac:(lra))).
    exists (DZpk (kf i)), (DZpk k0), (DZpk k). rewrite (EF i (proj1 (proj1 Hi))), ER. cbn [bind]. rewrite (FK i (proj1 Hi)), E0. cbn [bind emit].
    split; [reflexivity|]. split; [reflexivity|]. split; [|split; [|intros _; exact ST]].
    + exact SK0'.
    + apply (filter_within_mono _ _ (K * uround (pr i))).
      * destruct Hi as (_ & Hpe & _). destruct (u_half (pr i) ltac:(lia)) as [U0 _]. apply Rmult_le_compat_r; lra.
      * destruct (kf i) as [zz pp kk], k as [hz hp hk]. split; [exact FF|]. split; [exact W1|]. split; [exact W2|exact W3].
Qed.
End Out.

(** Zeros and poles in another order: reorder those of the float filter. *)
Lemma reorder_list e l l' lf : Permutation l l' -> Forall2 (fun f c => cwithin e f c) (map cval lf) l' ->
  exists lf', Permutation lf lf' /\ Forall2 (fun f c => cwithin e f c) (map cval lf') l.
Proof.
  intros PP WP.
  assert (FL : Forall2 (fun c f => cwithin e (cval f) c) l' lf) by (clear -WP; revert l' WP; induction lf as [|f q IH]; intros m F; inversion F; subst; constructor; [assumption|apply IH; assumption]).
  destruct (Permutation_Forall2 (Permutation_sym PP) FL) as [q [Pl Fl]]. exists q. split; [exact Pl|].
  clear -Fl. revert l Fl. induction q as [|f q IH]; intros m F; inversion F; subst; constructor; [assumption|apply IH; assumption].
Qed.
Lemma reorder2 prec emax e zf h0 h' : upto_orders (DZpk h0) h' -> filter_within prec emax e (DZpk zf) h' ->
  exists zf', filter_within prec emax e (DZpk zf') (DZpk h0) /\ forall t, dgain_sqr (zpk_val zf') t = dgain_sqr (zpk_val zf) t.
Proof.
  destruct h' as [|h'|]; intros U W; try (destruct U; fail). destruct U as [EZ [PP EK]]. destruct W as [[FZ [FP FK]] [WZ [WP WK]]].
  destruct (reorder_list e _ _ _ EZ WZ) as (lz & Pz & Qz). destruct (reorder_list e _ _ _ PP WP) as (lp & Pp & Qp).
  exists (mkZpk lz lp (zk_k zf)). split.
  - split; [split; [exact (Permutation_Forall Pz FZ)|split; [exact (Permutation_Forall Pp FP)|exact FK]]|]. split; [exact Qz|]. split; [exact Qp|rewrite EK; exact WK].
  - intros t. unfold dgain_sqr. rewrite !H_hom. cbn [zpk_val zk_z zk_p zk_k].
    rewrite (hom_perm (map cval lp) (map cval (zk_p zf))) by (apply Permutation_map, Permutation_sym, Pp).
    rewrite (hom_perm (map cval lz) (map cval (zk_z zf))) by (apply Permutation_map, Permutation_sym, Pz).
    reflexivity.
Qed.
Lemma within_zpk2 prec emax e f h0 h' : upto_orders (DZpk h0) h' -> filter_within prec emax e f h' -> exists zf, f = DZpk zf.
Proof. destruct h' as [|h'|]; intros U W; try (destruct U; fail). destruct f as [|zf|]; try (destruct W; fail). exists zf. reflexivity. Qed.

(** ** The prototype has no pole that becomes double *)
Lemma cheb2_no_double n rs W0 W1 : (0 < n)%nat -> 0 < rs -> 0 < W0 -> W0 < W1 ->
  (Nat.odd n = true -> ~ double_pole Bandpass (cheb2_pole n rs) W0 W1) -> no_double Bandpass (zk_p (@cheb2ap_dyn R RNum RTrans n rs)) W0 W1.
Proof.
  intros Hn Hr H0 H1 ND. rewrite cheb2ap_eq by assumption. cbn [zk_p].
  pose proof (sinh_mu n (eps2 rs) Hn (eps2_pos rs Hr)) as SM. pose proof (cosh_mu n (eps2 rs)) as CM.
  assert (ES : sinh (mu n (eps2 rs)) = 1 / cheb2_pole n rs).
  { unfold cheb2_pole. unfold mu, s0, eps2 in *. replace (1 / 10 * rs) with (rs / 10) in * by field. pose proof (sqrt_lt_R0 _ (gt2 rs Hr)) as Q.
    replace (1 / (1 / sqrt (Rpower 10 (rs / 10) - 1))) with (sqrt (Rpower 10 (rs / 10) - 1)) in * by (field; lra). field. lra. }
  assert (PA : 0 < cheb2_pole n rs). { assert (Q : cheb2_pole n rs = 1 / sinh (mu n (eps2 rs))) by (rewrite ES; field; intros Z; rewrite Z in ES; unfold Rdiv in ES; rewrite Rinv_0 in ES; lra). rewrite Q. apply Rdiv_lt_0_compat; lra. }
  assert (NS : no_double Bandstop (map (cp n (eps2 rs)) (seq 0 n)) W0 W1).
  { apply (ellipse_no_double Bandstop n (sinh (mu n (eps2 rs))) (cosh (mu n (eps2 rs)))); [right; reflexivity|exact SM|exact CM|exact H0|exact H1|reflexivity|].
    intros O Q. apply (ND O). unfold double_pole in *. rewrite ES in Q. set (A := cheb2_pole n rs) in *.
    replace (A * (W1 - W0) * (A * (W1 - W0))) with (A * A * ((W1 - W0) * (W1 - W0))) by ring. rewrite Q. field. lra. }
  intros p Hp. apply in_map_iff in Hp. destruct Hp as [e [<- He]]. specialize (NS e He). cbv beta iota in NS |- *. intros Q. apply NS. rewrite <- Q.
  assert (NE : e <> C0). { apply in_map_iff in He. destruct He as [k [<- Hk]]. apply in_seq in Hk. pose proof (cp_stable n (eps2 rs) Hn (eps2_pos rs Hr) k ltac:(lia)) as S. intros Z. rewrite Z in S. cbn in S. lra. }
  field. exact NE.
Qed.

(** ** Float designs *)
Section FloatSide.
Variables (E w0 w1 rs : R) (fs : option R) (order : nat).
Hypothesis HE : 0 <= E.
Hypothesis Hn : (0 < order)%nat.
Hypothesis Hr : 0 < rs.
Section Any.
Variable an : bool.
Hypothesis Hv : valid_band an w0 w1 fs.
Hypothesis ND : Nat.odd order = true -> ~ double_pole Bandpass (cheb2_pole order rs) (edge_freq an w0 fs) (edge_freq an w1 fs).
Notation W0 := (warped_freq an (norm_freq w0 fs)).
Notation W1 := (warped_freq an (norm_freq w1 fs)).
Definition passf (j : idx2) : res (@ZpkFormatFilter spec_float) :=
  @band2 _ (NJ j) (xT (fst j)) Bandpass (@cheb2ap_dyn _ (NJ j) (xT (fst j)) order (xrp (fst j))) (@warped_freq _ (NJ j) (xT (fst j)) an (xf0 j)) (@warped_freq _ (NJ j) (xT (fst j)) an (xf1 j)).
Lemma pass_double : no_double Bandpass (zk_p (@cheb2ap_dyn R RNum RTrans order rs)) W0 W1.
Proof. apply cheb2_no_double; [exact Hn|exact Hr|exact (warped_pos w0 w1 fs an Hv)|exact (warped_lt w0 w1 fs an Hv)|rewrite !warped_edge; exact ND]. Qed.
Notation V := (V2 E w0 w1 rs fs).
Lemma V2_acc j : V j -> (1 < xprec (fst j) < xemax (fst j))%Z -> accurate_trans (xprec (fst j)) (xemax (fst j)) E (xT (fst j)).
Proof. intros [[H _] _] _. exact H. Qed.
Lemma pass_out out : out <> OutSos -> evk pr2 em2 V (out_ok2 idx2 pr2 em2 sz2 T2 V an order out (band2 Bandpass (cheb2ap_dyn order rs) W0 W1) passf).
Proof.
  intros Ho. apply stage_out2; [exact Ho|].
  assert (NR : napp idx2 pr2 em2 V rs (fun j => xrp (fst j))) by (apply napp_exact; intros i Vi _; apply Vi).
  pose proof (stage_cheb2ap idx2 pr2 em2 V sz2 E HE T2 V2_acc order rs (fun j => xrp (fst j)) Hr NR) as NG.
  destruct (cheb2_good order rs Hn Hr) as (_ & GP & GL).
  destruct (stage_axis idx2 pr2 em2 sz2 E HE T2 V V2_acc _ _ NG (cheb2_axis order rs) GP GL W0 W1 _ _
    (napp_W0 E w0 w1 rs fs an HE Hv) (napp_W1 E w0 w1 rs fs an HE Hv) (warped_pos w0 w1 fs an Hv) (warped_lt w0 w1 fs an Hv) pass_double) as (pat & n & h0 & hf & A & B & D & G & H).
  exists pat, n, h0, hf. split; [exact A|]. split; [exact B|]. split; [exact D|]. split; [exact G|]. intros sg. destruct (H sg) as (h & S & N & _). exists h. split; [exact S|exact N].
Qed.
End Any.
Hypothesis Hv : valid_band false w0 w1 fs.
Hypothesis ND : Nat.odd order = true -> ~ double_pole Bandpass (cheb2_pole order rs) (edge_freq false w0 fs) (edge_freq false w1 fs).
Notation V := (Vb E w0 w1 rs fs).
Lemma pass_mates : mstaged idx2 pr2 em2 sz2 V (band2 Bandpass (@cheb2ap_dyn R RNum RTrans order rs) (warped_freq false (norm_freq w0 fs)) (warped_freq false (norm_freq w1 fs))) (passf false) good.
Proof.
  assert (NR : napp idx2 pr2 em2 V rs (fun j => xrp (fst j))) by (apply napp_exact; intros i Vi _; apply Vi).
  pose proof (stage_cheb2ap idx2 pr2 em2 V sz2 E HE T2 (Vb_acc E w0 w1 rs fs) order rs (fun j => xrp (fst j)) Hr NR) as NG.
  pose proof (mate_cheb2ap idx2 pr2 em2 V sz2 E HE T2 (Vb_acc E w0 w1 rs fs) (Vb_sym E w0 w1 rs fs) order rs (fun j => xrp (fst j)) Hr NR) as MG.
  destruct (cheb2_good order rs Hn Hr) as (_ & GP & GL).
  apply (mate_axis idx2 pr2 em2 sz2 E HE T2 V (Vb_acc E w0 w1 rs fs) _ _ NG (cheb2_axis order rs)).
  - intros k Hk. exact (axis_cheb2ap idx2 pr2 em2 sz2 E HE T2 V (Vb_acc E w0 w1 rs fs) order rs (fun j => xrp (fst j)) k Hr NR Hk).
  - exact GP.
  - exact GL.
  - exact (napp_pull (fun j => j) pr2 em2 _ V _ _ (Vb_V2 E w0 w1 rs fs) (napp_W0 E w0 w1 rs fs false HE Hv)).
  - exact (napp_pull (fun j => j) pr2 em2 _ V _ _ (Vb_V2 E w0 w1 rs fs) (napp_W1 E w0 w1 rs fs false HE Hv)).
  - exact (warped_pos w0 w1 fs false Hv).
  - exact (warped_lt w0 w1 fs false Hv).
  - exact (pass_double false Hv ND).
  - exact (Vb_sym E w0 w1 rs fs).
  - exact MG.
Qed.
End FloatSide.
Lemma pass_float order rp rs an j analog eps sort rpf out : unwrap_or analog false = an -> 0 <= rp -> 0 < rs -> reads (xprec (fst j)) (xemax (fst j)) rpf rp -> reads (xprec (fst j)) (xemax (fst j)) (xrp (fst j)) rs ->
  @nleb _ (NJ j) (xf0 j) (@nzero _ (NJ j)) = false -> @nleb _ (NJ j) (xf1 j) (@nzero _ (NJ j)) = false -> @nleb _ (NJ j) (xf1 j) (xf0 j) = false ->
  (an = false -> @nleb _ (NJ j) (@none _ (NJ j)) (xf0 j) = false) -> (an = false -> @nleb _ (NJ j) (@none _ (NJ j)) (xf1 j) = false) -> (an = true -> xfs (fst j) = None) ->
  @iirfilter_dyn _ (NJ j) (xT (fst j)) eps sort order [xw (fst j); snd j] (Some rpf) (Some (xrp (fst j))) (Some Bandpass) (Some ChebyshevII) analog out (xfs (fst j)) =
  let! g := passf order an j in let! g := @to_digital _ (NJ j) an g in @emit _ (NJ j) (xT (fst j)) eps sort order an (unwrap_or out OutBa) g.
Proof.
  intros Ea Hp Hr Rp Rs C1 C2 C3 C4 C5 C6. rewrite (@iir_tail_cheb2_2 _ (NJ j) (xT (fst j))); rewrite ?Ea; [reflexivity|exact C6|exact C1|exact C2|exact C3|exact C4|exact C5|exact (float_nneg _ _ _ _ _ Hp Rp)|exact (float_nneg _ _ _ _ _ (Rlt_le _ _ Hr) Rs)].
Qed.

(** ** The exact design *)
Section Exact.
Variables (order : nat) (rp rs w0 w1 : R) (fs : option R) (analog : option bool).
Hypothesis Hn : (0 < order)%nat.
Hypothesis Hp : 0 <= rp.
Hypothesis Hr : 0 < rs.
Hypothesis Ha : analog <> Some true.
Hypothesis Hv : valid_band false w0 w1 fs.
Notation W0 := (warped_freq false (norm_freq w0 fs)).
Notation W1 := (warped_freq false (norm_freq w1 fs)).
Lemma pass_tail eps sort out : iirfilter_dyn eps sort order [w0; w1] (Some rp) (Some rs) (Some Bandpass) (Some ChebyshevII) analog out fs =
  let! g := band2 Bandpass (cheb2ap_dyn order rs) W0 W1 in let! g := to_digital false g in emit eps sort order false (unwrap_or out OutBa) g.
Proof.
  destruct (real_checks w0 w1 fs false Hv) as (B1 & B2 & B3 & B4 & B5). rewrite iir_tail_cheb2_2; rewrite ?(not_analog analog Ha); [reflexivity|discriminate|exact B1|exact B2|exact B3|exact B4|exact B5|apply real_nneg; exact Hp|apply real_nneg; lra].
Qed.
Lemma pass_exact : exists h, (let! g := band2 Bandpass (cheb2ap_dyn order rs) W0 W1 in to_digital false g) = Ok h /\
  real_filter h /\ stable_digital h /\ length (zk_z h) = length (zk_p h) /\ length (zk_p h) = (2 * order)%nat /\
  (forall eps sort, iirfilter_dyn eps sort order [w0; w1] (Some rp) (Some rs) (Some Bandpass) (Some ChebyshevII) analog (Some OutZpk) fs = Ok (DZpk h)) /\
  (forall eps sort, is_sort sort -> iirfilter_dyn eps sort order [w0; w1] (Some rp) (Some rs) (Some Bandpass) (Some ChebyshevII) analog (Some OutBa) fs =
     Ok (DBa (mkBa (padded_coef (2 * order) (zk_k h) (zk_z h)) (padded_coef (2 * order) 1 (zk_p h))))) /\
  (forall sort, is_sort sort -> exists l, iirfilter_dyn 0 sort order [w0; w1] (Some rp) (Some rs) (Some Bandpass) (Some ChebyshevII) analog (Some OutSos) fs = Ok (DSos l) /\ realises l h) /\
  (forall theta, let (a, b) := band_ratio Bandpass (normalised [w0; w1] fs) theta in
     (a = 0 -> dgain_sqr h theta = 1) /\ (a <> 0 -> chebT order (b / a) = 0 -> dgain_sqr h theta = 0) /\
     (a <> 0 -> chebT order (b / a) <> 0 -> dgain_sqr h theta = 1 / (1 + (Rpower 10 (rs / 10) - 1) / chebT order (b / a) ^ 2))).
Proof.
  destruct (C78_cheby2_digital_partial 0 isort order rp rs [w0; w1] Bandpass analog fs (list_sort_sort _ isort_list_sort) (Rle_refl 0) Hn Hp Hr Ha (T_FloatBandSos.band_digital Bandpass w0 w1 fs (or_introl eq_refl) Hv) (or_intror eq_refl))
    as (h & E0 & Sh & Rh & Lz & Lp & G & _). cbn [band_arity] in Lp.
  assert (Eh : (let! g := band2 Bandpass (cheb2ap_dyn order rs) W0 W1 in to_digital false g) = Ok h).
  { rewrite pass_tail in E0. cbn [unwrap_or] in E0. rewrite <- bind_assoc in E0. set (m := (let! g := band2 Bandpass (cheb2ap_dyn order rs) W0 W1 in to_digital false g)) in *.
    destruct m as [h'| | |]; cbn [bind emit] in E0; try discriminate. injection E0 as ->. reflexivity. }
  exists h. split; [exact Eh|]. split; [exact Rh|]. split; [exact Sh|]. split; [exact Lz|]. split; [exact Lp|]. split; [|split; [|split]].
  - intros eps sort. rewrite pass_tail, <- bind_assoc, Eh. reflexivity.
  - intros eps sort Hs. rewrite pass_tail, <- bind_assoc, Eh. cbn [bind emit unwrap_or]. rewrite zpk2tf_ok by exact Hs. reflexivity.
  - intros sort Hs. rewrite pass_tail, <- bind_assoc, Eh. destruct (exact_sections sort order h Hs Rh) as (l & El & Rl). exists l. split; [exact El|exact Rl].
  - intros theta. specialize (G theta). destruct (band_ratio Bandpass (normalised [w0; w1] fs) theta) as [a b]. destruct G as (G1 & G2 & G3 & _). auto.
Qed.
End Exact.

(** * C119 *)
Theorem C119_cheby2_band_rounding (order : nat) (rp rs w0 w1 : R) (fs : option R) (analog : option bool) (out : option FilterOutputType) (E : R) :
  let an := unwrap_or analog false in
  out <> Some OutSos -> valid_band an w0 w1 fs -> (0 < order)%nat -> 0 <= rp -> 0 < rs -> 0 <= E ->
  (Nat.odd order = true -> ~ double_pole Bandpass (cheb2_pole order rs) (edge_freq an w0 fs) (edge_freq an w1 fs)) ->
  exists K, 1 <= K /\ forall prec emax szero (T : Trans spec_float) epsr epsf sort rpf rsf w0f w1f fsf,
  (1 < prec < emax)%Z -> is_sort sort -> accurate_trans prec emax E T ->
  reads prec emax rpf rp -> reads prec emax rsf rs -> reads prec emax w0f w0 -> reads prec emax w1f w1 -> reads_opt prec emax fsf fs -> K * uround prec <= 1 ->
  exists f h h',
    @iirfilter_dyn _ (SFNum prec emax szero) T epsf sort order [w0f; w1f] (Some rpf) (Some rsf) (Some Bandpass) (Some ChebyshevII) analog out fsf = Ok f /\
    iirfilter_dyn epsr sort order [w0; w1] (Some rp) (Some rs) (Some Bandpass) (Some ChebyshevII) analog out fs = Ok h /\
    upto_orders h h' /\ filter_within prec emax (K * uround prec) f h' /\
    (out = Some OutZpk -> float_stable an f).
Proof.
  intros an Ho Hv Hn Hp Hr HE ND. set (o := unwrap_or out OutBa).
  assert (Ho' : o <> OutSos) by (unfold o; destruct out as [[]|]; cbn; congruence).
  set (V := V2 E w0 w1 rs fs).
  destruct (checks E w0 w1 rs fs an Hv) as [K1 [HK1 Q1]]. destruct (pass_out E w0 w1 rs fs order HE Hn Hr an Hv ND o Ho') as [K2 [HK2 Q2]].
  exists (K1 + K2). split; [lra|]. intros prec emax sz T epsr epsf sort rpf rsf w0f w1f fsf Hpe Hs HT Rp Rs R0 R1 Rf Hu.
  set (i := (mkIdx prec emax sz T w0f rsf fsf, w1f) : idx2).
  assert (Hi : fmt_ok idx2 pr2 em2 V (K1 + K2) i).
  { split; [|split; [exact Hpe|exact Hu]]. split; [|exact R1]. split; [exact HT|]. split; [exact R0|]. split; [exact Rs|exact Rf]. }
  destruct (Q1 i (fmt_mono idx2 pr2 em2 V (K1 + K2) K1 i Hi ltac:(lra))) as [A1 [A2 [A3 [A4 [A5 A6]]]]].
  destruct (Q2 i (fmt_mono idx2 pr2 em2 V (K1 + K2) K2 i Hi ltac:(lra)) epsr epsf sort Hs) as [f [h [h' [E1 [E2 [U [W S]]]]]]].
  destruct (real_checks w0 w1 fs an Hv) as [B1 [B2 [B3 [B4 B5]]]].
  exists f, h, h'. split; [|split; [|split; [exact U|split]]].
  - rewrite <- E1. exact (pass_float order rp rs an i analog epsf sort rpf out eq_refl Hp Hr Rp Rs A1 A2 A3 A4 A5 A6).
  - rewrite (@iir_tail_cheb2_2 _ RNum RTrans); [exact E2|exact (edge_an w0 fs an (proj1 Hv))|exact B1|exact B2|exact B3|exact B4|exact B5|apply real_nneg; exact Hp|apply real_nneg; lra].
  - eapply filter_within_mono; [|exact W]. destruct (u_half prec (proj1 Hpe)) as [U0 _]. apply Rmult_le_compat_r; unfold i; cbn [fst xprec]; lra.
  - intros ->. apply S. reflexivity.
Qed.
Print Assumptions C119_cheby2_band_rounding.

Theorem C119_cheby2_band_response (order : nat) (rp rs w0 w1 : R) (fs : option R) (analog : option bool) (E : R) :
  (0 < order)%nat -> 0 <= rp -> 0 < rs -> analog <> Some true -> valid_band false w0 w1 fs -> 0 <= E ->
  (Nat.odd order = true -> ~ double_pole Bandpass (cheb2_pole order rs) (edge_freq false w0 fs) (edge_freq false w1 fs)) ->
  exists K, 1 <= K /\ forall prec emax szero (T : Trans spec_float) epsilon sort rpf rsf w0f w1f fsf,
  (1 < prec < emax)%Z -> is_sort sort -> accurate_trans prec emax E T ->
  reads prec emax rpf rp -> reads prec emax rsf rs -> reads prec emax w0f w0 -> reads prec emax w1f w1 -> reads_opt prec emax fsf fs -> K * uround prec <= 1 ->
  exists f g,
    @iirfilter_dyn _ (SFNum prec emax szero) T epsilon sort order [w0f; w1f] (Some rpf) (Some rsf) (Some Bandpass) (Some ChebyshevII) analog (Some OutZpk) fsf = Ok (DZpk f) /\
    @iirfilter_dyn _ (SFNum prec emax szero) T epsilon sort order [w0f; w1f] (Some rpf) (Some rsf) (Some Bandpass) (Some ChebyshevII) analog (Some OutBa) fsf = Ok (DBa g) /\
    stable_digital (zpk_val f) /\ ba_stable (map fval (ba_a g)) /\
    forall theta gain, gain = dgain_sqr (zpk_val f) theta \/ gain = ba_gain_sqr (map fval (ba_b g)) (map fval (ba_a g)) theta ->
      let (a, b) := band_ratio Bandpass (normalised [w0; w1] fs) theta in
      (a = 0 -> Rabs (gain - 1) <= K * uround prec) /\
      (a <> 0 -> chebT order (b / a) = 0 -> Rabs gain <= K * uround prec) /\
      (a <> 0 -> chebT order (b / a) <> 0 -> Rabs (gain - 1 / (1 + (Rpower 10 (rs / 10) - 1) / chebT order (b / a) ^ 2)) <= K * uround prec).
Proof.
  intros Hn Hp Hr Ha Hv HE ND. pose proof (not_analog analog Ha) as Ea.
  destruct (pass_exact order rp rs w0 w1 fs analog Hn Hp Hr Ha Hv) as (h0 & _ & Rh & Sh & Lz & Lp & EZ & EB & _ & G).
  destruct (C119_cheby2_band_rounding order rp rs w0 w1 fs analog (Some OutZpk) E ltac:(discriminate) ltac:(rewrite Ea; exact Hv) Hn Hp Hr HE ltac:(rewrite Ea; exact ND)) as [K1 [HK1 Q1]].
  destruct (C119_cheby2_band_rounding order rp rs w0 w1 fs analog (Some OutBa) E ltac:(discriminate) ltac:(rewrite Ea; exact Hv) Hn Hp Hr HE ltac:(rewrite Ea; exact ND)) as [K2 [HK2 Q2]].
  destruct (both h0 order Sh Rh Lz ltac:(lia) K1 K2 HK1 HK2) as [K [HK [L1 [L2 Q]]]].
  exists K. split; [exact HK|]. intros prec emax sz T eps sort rpf rsf w0f w1f fsf Hpe Hso HT Rp Rs R0 R1 Rf Hu. destruct (u_half prec ltac:(lia)) as [U0 _].
  destruct (Q1 prec emax sz T 0 eps sort rpf rsf w0f w1f fsf Hpe Hso HT Rp Rs R0 R1 Rf ltac:(nra)) as [f [h [h2 [F1 [F2 [UP [W1 S1]]]]]]].
  destruct (Q2 prec emax sz T 0 eps sort rpf rsf w0f w1f fsf Hpe Hso HT Rp Rs R0 R1 Rf ltac:(nra)) as [f' [h' [h2' [F1' [F2' [UP' [W2 _]]]]]]].
  rewrite EZ in F2. rewrite (EB 0 sort Hso) in F2'. injection F2 as <-. injection F2' as <-.
  destruct h2' as [h2'| |]; try (destruct UP'; fail). cbn [upto_orders] in UP'. subst h2'.
  destruct (within_zpk2 _ _ _ _ _ _ UP W1) as [z0 ->]. destruct (reorder2 _ _ _ _ _ _ UP W1) as [z1 [W1' EG]].
  destruct (Q prec emax (DZpk z1) f' ltac:(lia) Hu W1' W2) as [zf [bf [EQ [-> [SB R]]]]]. injection EQ as <-.
  exists z0, bf. split; [exact F1|]. split; [exact F1'|]. specialize (S1 eq_refl). rewrite Ea in S1. split; [exact S1|]. split; [exact SB|].
  intros theta gain Hg. rewrite <- EG in Hg. specialize (R theta gain Hg). specialize (G theta). destruct (band_ratio Bandpass (normalised [w0; w1] fs) theta) as [a b]. destruct G as (G1 & G2 & G3). split; [|split].
  - intros Z. rewrite <- (G1 Z). exact R.
  - intros Z Y. rewrite (G2 Z Y), Rminus_0_r in R. exact R.
  - intros Z Y. rewrite <- (G3 Z Y). exact R.
Qed.
Print Assumptions C119_cheby2_band_response.

Theorem C119_cheby2_band_sections (order : nat) (rp rs w0 w1 : R) (fs : option R) (analog : option bool) (E : R) :
  analog <> Some true -> valid_band false w0 w1 fs -> (0 < order)%nat -> 0 <= rp -> 0 < rs -> 0 <= E ->
  (Nat.odd order = true -> ~ double_pole Bandpass (cheb2_pole order rs) (edge_freq false w0 fs) (edge_freq false w1 fs)) ->
  exists K, 1 <= K /\ forall prec emax szero (T : Trans spec_float) sort rpf rsf w0f w1f fsf,
  (1 < prec < emax)%Z -> is_list_sort sort -> accurate_trans prec emax E T -> symmetric_trans prec emax T ->
  reads prec emax rpf rp -> reads prec emax rsf rs -> reads prec emax w0f w0 -> reads prec emax w1f w1 -> reads_opt prec emax fsf fs -> K * uround prec <= 1 ->
  exists f l r,
    iirfilter_dyn 0 sort order [w0; w1] (Some rp) (Some rs) (Some Bandpass) (Some ChebyshevII) analog (Some OutZpk) fs = Ok (DZpk f) /\
    @iirfilter_dyn _ (SFNum prec emax szero) T (machine_eps prec) sort order [w0f; w1f] (Some rpf) (Some rsf) (Some Bandpass) (Some ChebyshevII) analog (Some OutSos) fsf = Ok (DSos l) /\
    length r = order /\ realises r f /\ stable_sections r /\
    Forall2 (sos_within prec emax (K * uround prec)) l r /\ stable_sections (map sos_val l).
Proof.
  intros Ha Hv Hn Hp Hr HE ND. destruct (pass_exact order rp rs w0 w1 fs analog Hn Hp Hr Ha Hv) as (h & Eh & Rh & Sh & Lh & Lp & Ez & _).
  destruct (checks2 E w0 w1 rs fs Hv) as (K1 & HK1 & Q1).
  destruct (evk_sos idx2 pr2 em2 sz2 E HE T2 (Vb E w0 w1 rs fs) (Vb_acc E w0 w1 rs fs) (Vb_sym E w0 w1 rs fs) _ _ (pass_mates E w0 w1 rs fs order HE Hn Hr Hv ND) h Eh Rh Sh Lh) as (K2 & HK2 & Q2).
  exists (K1 + K2). split; [lra|]. intros prec emax sz T sort rpf rsf w0f w1f fsf Hpe Hs HT HS Rp Rs R0 R1 Rf Hu. set (i := (mkIdx prec emax sz T w0f rsf fsf, w1f) : idx2).
  assert (Hi : fmt_ok idx2 pr2 em2 (Vb E w0 w1 rs fs) (K1 + K2) i).
  { split; [|split; [exact Hpe|exact Hu]]. split; [|exact HS]. split; [|exact R1]. split; [exact HT|]. split; [exact R0|]. split; [exact Rs|exact Rf]. }
  destruct (Q1 i (fmt_mono idx2 pr2 em2 _ (K1 + K2) K1 i Hi ltac:(lra))) as (A1 & A2 & A3 & A4 & A5).
  destruct (Q2 i (fmt_mono idx2 pr2 em2 _ (K1 + K2) K2 i Hi ltac:(lra)) sort order Hs) as (sf & sr & E1 & Ls & RE & ST & W & SF).
  exists h, sf, sr. split; [apply Ez|]. split; [rewrite <- E1; exact (pass_float order rp rs false i analog _ sort rpf (Some OutSos) (not_analog analog Ha) Hp Hr Rp Rs A1 A2 A3 (fun _ => A4) (fun _ => A5) ltac:(discriminate))|].
  split. { rewrite Ls, Lp. rewrite (Nat.mul_comm 2 order), Nat.div_add_l by lia. change (1 / 2)%nat with 0%nat. lia. }
  split; [exact RE|]. split; [exact ST|]. split; [|exact SF].
  eapply within_le; [|exact W]. destruct (u_half prec (proj1 Hpe)) as [U0 _]. apply Rmult_le_compat_r; [exact (Rlt_le _ _ U0)|lra].
Qed.
Print Assumptions C119_cheby2_band_sections.

Theorem C119_cheby2_band_filter (order : nat) (rp rs w0 w1 : R) (fs : option R) (analog : option bool) (E : R) :
  analog <> Some true -> valid_band false w0 w1 fs -> (0 < order)%nat -> 0 <= rp -> 0 < rs -> 0 <= E ->
  (Nat.odd order = true -> ~ double_pole Bandpass (cheb2_pole order rs) (edge_freq false w0 fs) (edge_freq false w1 fs)) ->
  exists K, 1 <= K /\ forall prec emax szero (T : Trans spec_float) sort rpf rsf w0f w1f fsf,
  (1 < prec < emax)%Z -> is_list_sort sort -> accurate_trans prec emax E T -> symmetric_trans prec emax T ->
  reads prec emax rpf rp -> reads prec emax rsf rs -> reads prec emax w0f w0 -> reads prec emax w1f w1 -> reads_opt prec emax fsf fs -> K * uround prec <= 1 ->
  exists lf l,
    @iirfilter_dyn _ (SFNum prec emax szero) T (machine_eps prec) sort order [w0f; w1f] (Some rpf) (Some rsf) (Some Bandpass) (Some ChebyshevII) analog (Some OutSos) fsf = Ok (DSos lf) /\
    iirfilter_dyn 0 sort order [w0; w1] (Some rp) (Some rs) (Some Bandpass) (Some ChebyshevII) analog (Some OutSos) fs = Ok (DSos l) /\
    forall x X, Forall (finite prec emax) x -> 0 <= X -> Forall (fun v => Rabs (fval v) <= X) x -> K * (X + ftiny prec emax) <= fmax prec emax ->
    exists yf lf' y l',
      @sosfilt_dyn _ (SFNum prec emax szero) x lf = Ok (yf, lf') /\ sosfilt_dyn (map fval x) l = Ok (y, l') /\
      length yf = length x /\ length y = length x /\ Forall (finite prec emax) yf /\
      forall n, (n < length x)%nat -> Rabs (fval (nth n yf (S754_zero false)) - nth n y 0) <= K * (uround prec * X + ftiny prec emax).
Proof.
  intros Ha Hv Hn Hp Hr HE ND. destruct (pass_exact order rp rs w0 w1 fs analog Hn Hp Hr Ha Hv) as (h & Eh & Rh & Sh & Lh & Lp & _ & _ & Es & _).
  destruct (checks2 E w0 w1 rs fs Hv) as (K1 & HK1 & Q1).
  destruct (evk_pipe idx2 pr2 em2 sz2 E HE T2 (Vb E w0 w1 rs fs) (Vb_acc E w0 w1 rs fs) (Vb_sym E w0 w1 rs fs) _ _ (pass_mates E w0 w1 rs fs order HE Hn Hr Hv ND) h Eh Rh Sh Lh) as (K2 & HK2 & Q2).
  exists (K1 + K2). split; [lra|]. intros prec emax sz T sort rpf rsf w0f w1f fsf Hpe Hs HT HS Rp Rs R0 R1 Rf Hu. set (i := (mkIdx prec emax sz T w0f rsf fsf, w1f) : idx2).
  assert (Hi : fmt_ok idx2 pr2 em2 (Vb E w0 w1 rs fs) (K1 + K2) i).
  { split; [|split; [exact Hpe|exact Hu]]. split; [|exact HS]. split; [|exact R1]. split; [exact HT|]. split; [exact R0|]. split; [exact Rs|exact Rf]. }
  destruct (Q1 i (fmt_mono idx2 pr2 em2 _ (K1 + K2) K1 i Hi ltac:(lra))) as (A1 & A2 & A3 & A4 & A5).
  destruct (Q2 i (fmt_mono idx2 pr2 em2 _ (K1 + K2) K2 i Hi ltac:(lra)) sort order Hs) as (sf & E1 & P). destruct (Es sort (list_sort_sort sort Hs)) as (l & El & Rl).
  exists sf, l. split; [rewrite <- E1; exact (pass_float order rp rs false i analog _ sort rpf (Some OutSos) (not_analog analog Ha) Hp Hr Rp Rs A1 A2 A3 (fun _ => A4) (fun _ => A5) ltac:(discriminate))|]. split; [exact El|].
  intros x X Fx HX Bx HM. pose proof (tiny_pos prec emax) as TP. destruct (u_half prec (proj1 Hpe)) as [U0 _].
  assert (UX : 0 <= uround prec * X) by (apply Rmult_le_pos; [exact (Rlt_le _ _ U0)|exact HX]).
  destruct (P x X Fx HX Bx) as (yf & lf' & F1 & L1 & F2 & G). { eapply Rle_trans; [|exact HM]. apply Rmult_le_compat_r; [change (0 <= X + ftiny prec emax); lra|lra]. }
  destruct (G l Rl) as (y & l' & F3 & L2 & B). exists yf, lf', y, l'. split; [exact F1|]. split; [exact F3|]. split; [exact L1|]. split; [exact L2|]. split; [exact F2|].
  intros n Hn'. eapply Rle_trans; [exact (B n Hn')|]. apply Rmult_le_compat_r; [change (0 <= uround prec * X + ftiny prec emax); lra|lra].
Qed.
Print Assumptions C119_cheby2_band_filter.

(** A tone through it *)
Theorem C119_cheby2_band_tone (order : nat) (rp rs w0 w1 : R) (fs : option R) (analog : option bool) (E : R) :
  analog <> Some true -> valid_band false w0 w1 fs -> (0 < order)%nat -> 0 <= rp -> 0 < rs -> 0 <= E ->
  (Nat.odd order = true -> ~ double_pole Bandpass (cheb2_pole order rs) (edge_freq false w0 fs) (edge_freq false w1 fs)) ->
  exists h K rho, iirfilter_dyn 0 isort order [w0; w1] (Some rp) (Some rs) (Some Bandpass) (Some ChebyshevII) analog (Some OutZpk) fs = Ok (DZpk h) /\ 1 <= K /\ 0 < rho < 1 /\
    forall theta, exists g psi, 0 <= g /\ H h (cos theta, sin theta) = (g * cos psi, g * sin psi) /\
    (let (a, b) := band_ratio Bandpass (normalised [w0; w1] fs) theta in
     (a = 0 -> g = 1) /\ (a <> 0 -> chebT order (b / a) = 0 -> g = 0) /\
     (a <> 0 -> chebT order (b / a) <> 0 -> g ^ 2 = 1 / (1 + (Rpower 10 (rs / 10) - 1) / chebT order (b / a) ^ 2))) /\
    forall prec emax szero (T : Trans spec_float) sort rpf rsf w0f w1f fsf,
    (1 < prec < emax)%Z -> is_list_sort sort -> accurate_trans prec emax E T -> symmetric_trans prec emax T ->
    reads prec emax rpf rp -> reads prec emax rsf rs -> reads prec emax w0f w0 -> reads prec emax w1f w1 -> reads_opt prec emax fsf fs -> K * uround prec <= 1 ->
    exists sections,
      @iirfilter_dyn _ (SFNum prec emax szero) T (machine_eps prec) sort order [w0f; w1f] (Some rpf) (Some rsf) (Some Bandpass) (Some ChebyshevII) analog (Some OutSos) fsf = Ok (DSos sections) /\
      tone_passes prec emax szero K rho g psi theta sections.
Proof.
  intros Ha Hv Hn Hp Hr HE ND. destruct (pass_exact order rp rs w0 w1 fs analog Hn Hp Hr Ha Hv) as (h & _ & _ & Sh & Lh & _ & Ez & _ & Es & G).
  destruct (C119_cheby2_band_filter order rp rs w0 w1 fs analog E Ha Hv Hn Hp Hr HE ND) as (Kf & HKf & P).
  assert (Ex : exists l0, realises l0 h) by (destruct (Es isort (list_sort_sort _ isort_list_sort)) as (l & _ & R); exists l; exact R).
  destruct (tone_float h Kf HKf Sh Lh Ex) as (K & rho & HK & HKK & Hr' & Q0).
  exists h, K, rho. split; [apply Ez|]. split; [exact HK|]. split; [exact Hr'|]. intros theta. destruct (Q0 theta) as (g & psi & Hg & Eh & Eg & Q).
  exists g, psi. split; [exact Hg|]. split; [exact Eh|]. split.
  - specialize (G theta). destruct (band_ratio Bandpass (normalised [w0; w1] fs) theta) as [a b]. destruct G as (G1 & G2 & G3). rewrite <- Eg in G1, G2, G3. split; [|split; [|exact G3]].
    + intros Z. specialize (G1 Z). nra.
    + intros Z Y. exact (gain_zero g _ Hg eq_refl (G2 Z Y)).
  - intros prec emax szero T sort rpf rsf w0f w1f fsf Hpe Hs HT HS Rp Rs R0 R1 Rf Hu. destruct (u_half prec (proj1 Hpe)) as [U0 _].
    destruct (P prec emax szero T sort rpf rsf w0f w1f fsf Hpe Hs HT HS Rp Rs R0 R1 Rf) as (lf & l & E1 & E2 & F). { eapply Rle_trans; [|exact Hu]. apply Rmult_le_compat_r; lra. }
    exists lf. split; [exact E1|]. destruct (Es sort (list_sort_sort sort Hs)) as (l2 & E3 & Rl). assert (l2 = l) by congruence. subst l2. exact (Q prec emax szero lf l Hpe Rl F).
Qed.
Print Assumptions C119_cheby2_band_tone.

(** Order two, edges 2 and 4 at sampling rate 12, at least 2 dB down in the stop bands: an
    even order needs no condition on double poles, and a format fine enough for any constant
    and a library exist.  At a quarter of the sampling rate, the centre of the band, a tone
    passes unchanged. *)
Example C119_hyp_met : valid_band false 2 4 (Some 12) /\ Nat.odd 2 <> true /\ is_list_sort isort /\ forall K, exists prec emax T rf w0f w1f fsf, (1 < prec < emax)%Z /\
  accurate_trans prec emax 5 T /\ symmetric_trans prec emax T /\ reads prec emax rf 2 /\ reads prec emax w0f 2 /\ reads prec emax w1f 4 /\ reads_opt prec emax (Some fsf) (Some 12) /\ K * uround prec <= 1.
Proof.
  destruct C112_hyp_met as (A & B & _ & D). split; [exact A|]. split; [discriminate|]. split; [exact B|]. intros K. destruct (D K) as (prec & emax & T & w0f & w1f & fsf & P1 & P2 & P3 & P4 & P5 & P6 & P7).
  exists prec, emax, T, w0f, w0f, w1f, fsf. repeat (split; [first [exact P1|exact P2|exact P3|exact P4|exact P5|exact P6]|]). exact P7.
Qed.
Example C119_gain_ex : exists K rho g psi, 1 <= K /\ 0 < rho < 1 /\ g = 1 /\
  forall prec emax szero (T : Trans spec_float) rf w0f w1f fsf, (1 < prec < emax)%Z -> accurate_trans prec emax 5 T -> symmetric_trans prec emax T ->
    reads prec emax rf 2 -> reads prec emax w0f 2 -> reads prec emax w1f 4 -> reads_opt prec emax (Some fsf) (Some 12) -> K * uround prec <= 1 ->
    exists sections,
      @iirfilter_dyn _ (SFNum prec emax szero) T (machine_eps prec) isort 2 [w0f; w1f] (Some rf) (Some rf) (Some Bandpass) (Some ChebyshevII) None (Some OutSos) (Some fsf) = Ok (DSos sections) /\
      tone_passes prec emax szero K rho g psi (PI / 2) sections.
Proof.
  destruct (C119_cheby2_band_tone 2 2 2 2 4 (Some 12) None 5) as (h & K & rho & _ & HK & Hr & Q0); [discriminate|apply C119_hyp_met|lia|lra|lra|lra|discriminate|].
  destruct (Q0 (PI / 2)) as (g & psi & Hg & _ & Gn & Q).
  exists K, rho, g, psi. split; [exact HK|]. split; [exact Hr|]. split.
  - cbn [band_ratio normalised map nth] in Gn. replace (PI * (2 * 2 / 12) / 2) with (PI / 6) in Gn by field. replace (PI * (2 * 4 / 12) / 2) with (PI / 3) in Gn by field. replace (PI / 2 / 2) with (PI / 4) in Gn by field.
    rewrite cos_PI4, sin_PI4, cos_PI6, sin_PI6, cos_PI3, sin_PI3 in Gn. destruct Gn as [G1 _]. apply G1.
    assert (S2 : sqrt 2 <> 0) by (apply Rgt_not_eq, sqrt_lt_R0; lra). field. exact S2.
  - intros. apply Q; try assumption. exact isort_list_sort.
Qed.
