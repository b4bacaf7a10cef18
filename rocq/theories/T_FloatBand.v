(** C106: rounding in whole designs of band-pass and band-stop Butterworth and Chebyshev I
    filters.  The transform takes a complex square root at every pole.  Rounding decides on
    which side of the branch cut its argument falls, so the poles may come in another order;
    otherwise the design is that of real arithmetic up to a multiple of the unit roundoff. *)
From Coq Require Import Reals Ratan ZArith SpecFloat List Lia Lra Bool Permutation.
From Flocq Require Import Core BinarySingleNaN.
From Verif Require Import Base Num Trans M_Complex M_Filter M_Design Cx S_Design S_Filter S_Float S_FloatFft S_FloatZpk S_FloatTrans S_FloatBand
  P_Float P_FloatStats P_Poly P_Lp P_Proto P_Cheb P_FloatMed P_FloatI0 P_FloatZi P_FloatPoly T_FloatPoly P_FloatDesign P_FloatSqrt T_FloatDesign P_FloatBand P_FloatBandStage.
Import ListNotations.
Local Open Scope R_scope.

(** ** The design with two edges after its checks, over any numbers *)
Section Tail2.
Context {F : Type} {NF : Num F} {TF : Trans F}.
Lemma iir_tail2 epsilon sort order w0 w1 rp bt ft analog out fs proto :
  let an := unwrap_or analog false in let x0 := norm_freq w0 fs in let x1 := norm_freq w1 fs in
  (bt = Bandpass \/ bt = Bandstop) -> (an = true -> fs = None) ->
  nleb x0 nzero = false -> nleb x1 nzero = false -> nleb x1 x0 = false ->
  (an = false -> nleb none x0 = false) -> (an = false -> nleb none x1 = false) ->
  (ft = Butterworth /\ rp = None /\ proto = buttap_dyn order \/
   exists r, ft = ChebyshevI /\ rp = Some r /\ nltb r nzero = false /\ proto = cheb1ap_dyn order r) ->
  iirfilter_dyn epsilon sort order [w0; w1] rp None (Some bt) (Some ft) analog out fs =
  let! g := band2 bt proto (warped_freq an x0) (warped_freq an x1) in let! g := to_digital an g in emit epsilon sort order an (unwrap_or out OutBa) g.
Proof.
  intros an x0 x1 Hb Ha H0 H1 H2 H3 H4 Hp. unfold iirfilter_dyn. fold an. cbn [length Nat.ltb Nat.leb].
  assert (E : (match fs with Some fs => if an then Panic else Ok (map (fun wni => ndiv (nmul two wni) fs) [w0; w1]) | None => Ok [w0; w1] end) = Ok [x0; x1]).
  { unfold x0, x1, norm_freq. destruct fs; [|reflexivity]. destruct an; [specialize (Ha eq_refl); discriminate|reflexivity]. }
  rewrite E. cbn [bind existsb orb]. rewrite H0, H1. cbn [orb bind]. rewrite H2. cbn [bind].
  assert (EP2 : forall B (k : ZpkFormatFilter -> res B), (let! _ := match rp with Some rp => if nltb rp nzero then Panic else Ok tt | None => Ok tt end in
     let! zpk := match unwrap_or (Some ft) Butterworth with Butterworth => Ok (buttap_dyn order) | ChebyshevI => if is_none rp then Panic else let! rp := unwrap rp in Ok (cheb1ap_dyn order rp)
       | ChebyshevII => if is_none rp then Panic else let! rs := unwrap (@None F) in Ok (cheb2ap_dyn order rs) | CauerElliptic => Panic | BesselThomson => Panic end in k zpk) = k proto).
  { intros B k. destruct Hp as [[-> [-> ->]]|[r [-> [-> [Hr ->]]]]]; [reflexivity|]. rewrite Hr. reflexivity. }
  cbn [bind]. rewrite EP2. clear EP2 E. unfold warped_freq, to_digital, band2, emit.
  set (o := unwrap_or out OutBa). clearbody o an x0 x1. destruct an.
  - cbn [negb bind]. destruct Hb as [-> | ->]; cbn [unwrap_or length Nat.eqb negb index bind nth_error]; reflexivity.
  - cbn [negb]. rewrite H3, H4 by reflexivity. cbn [orb bind map].
    destruct Hb as [-> | ->]; cbn [unwrap_or length Nat.eqb negb index bind nth_error]; reflexivity.
Qed.
End Tail2.

(** ** From the band filter to the output *)
Section Out.
Variable I : Type.
Variables pr em : I -> Z.
Variable sz : I -> bool.
Variable T : I -> Trans spec_float.
Notation NF i := (SFNum (pr i) (em i) (sz i)).
Lemma good_perm h h0 : same_upto h h0 -> good h0 -> good h.
Proof.
  intros [Z [P _]] [A [B L]]. split; [rewrite Z; exact A|]. split; [exact (Permutation_Forall (Permutation_sym P) B)|]. rewrite Z, (Permutation_length P). exact L.
Qed.
Lemma good_perm2 h h0 : same_perm h h0 -> good h0 -> good h.
Proof.
  intros [Z [P _]] [A [B L]]. split; [exact (Permutation_Forall (Permutation_sym Z) A)|]. split; [exact (Permutation_Forall (Permutation_sym P) B)|]. rewrite (Permutation_length Z), (Permutation_length P). exact L.
Qed.
Lemma stage_dig (V : I -> Prop) (an : bool) h hf : znapp I pr em V sz h hf -> good h -> exists h' hf', znapp I pr em V sz h' hf' /\ to_digital an h = Ok h' /\
  (forall i, V i -> @to_digital _ (NF i) an (hf i) = Ok (hf' i)) /\ if an then stable_analog h' else stable_digital h'.
Proof.
  intros A [Z [P L]]. unfold to_digital. destruct an.
  - exists h, hf. split; [exact A|]. split; [reflexivity|]. split; [reflexivity|exact P].
  - rewrite Forall_forall in Z, P.
    destruct (stage_bilinear I pr em V sz h hf A L 2 (fun i => @two _ (NF i))) as [h' [hf' [A' [B' D']]]].
    { apply Forall_forall. intros c Hc Ec. apply P in Hc. rewrite Ec in Hc. cbn in Hc. lra. }
    { apply Forall_forall. intros c Hc Ec. apply Z in Hc. rewrite Ec in Hc. cbn in Hc. lra. }
    { exact (napp_intZ I pr em V sz 2). }
    exists h', hf'. split; [exact A'|]. split; [exact B'|]. split; [exact D'|].
    unfold bilinear_zpk_dyn, relative_degree_dyn in B'. destruct (Nat.ltb_spec (length (zk_p h)) (length (zk_z h))); [lia|]. injection B' as <-.
    unfold stable_digital. cbn [zk_p]. apply Forall_forall. intros c Hc. apply in_map_iff in Hc. destruct Hc as [[a b] [<- Hp]]. apply P in Hp. cbn in Hp.
    set (n := (2 * 2 - a) * (2 * 2 - a) + (0 - b) * (0 - b)). assert (N0 : 0 < n) by (unfold n; nra).
    change (cnorm_sqr (((2 * 2 + a) * (2 * 2 - a) + (0 + b) * (0 - b)) / n, ((0 + b) * (2 * 2 - a) - (2 * 2 + a) * (0 - b)) / n) < 1).
    unfold cnorm_sqr, cre, cim. cbn [fst snd nadd nmul RNum].
    replace (_ + _) with (((2 * 2 + a) * (2 * 2 + a) + b * b) / n); [|unfold n in *; field; lra].
    apply (Rmult_lt_reg_r n); [exact N0|]. unfold Rdiv. rewrite Rmult_assoc, Rinv_l by lra. unfold n. nra.
Qed.
Lemma ev_stable (V : I -> Prop) (an : bool) h hf : znapp I pr em V sz h hf -> (if an then stable_analog h else stable_digital h) -> ev I pr em V (fun i => float_stable an (DZpk (hf i))).
Proof.
  intros [_ [[LP NP] _]] S. destruct an.
  - eapply ev_impl; [|apply (ev_upto pr em V (length (zk_p h)) (fun k i => cre (cval (nth k (zk_p (hf i)) (@czero _ (NF i)))) < 0))].
    + cbn beta. intros i Vi _ H. unfold float_stable, stable_analog. cbn [zk_p zpk_val]. apply Forall_forall. intros c Hc. apply in_map_iff in Hc. destruct Hc as [p [<- Hp]].
      destruct (In_nth _ _ (@czero _ (NF i)) Hp) as [k [Hk <-]]. apply H. rewrite <- (LP i Vi). exact Hk.
    + intros k Hk. apply (ev_left pr em V (nth k (zk_p h) C0)); [apply NP; exact Hk|]. unfold stable_analog in S. rewrite Forall_forall in S. apply S, nth_In, Hk.
  - eapply ev_impl; [|apply (ev_upto pr em V (length (zk_p h)) (fun k i => cnorm_sqr (cval (nth k (zk_p (hf i)) (@czero _ (NF i)))) < 1))].
    + cbn beta. intros i Vi _ H. unfold float_stable, stable_digital. cbn [zk_p zpk_val]. apply Forall_forall. intros c Hc. apply in_map_iff in Hc. destruct Hc as [p [<- Hp]].
      destruct (In_nth _ _ (@czero _ (NF i)) Hp) as [k [Hk <-]]. apply H. rewrite <- (LP i Vi). exact Hk.
    + intros k Hk. apply (ev_disc pr em V (nth k (zk_p h) C0)); [apply NP; exact Hk|]. unfold stable_digital in S. rewrite Forall_forall in S. apply S, nth_In, Hk.
Qed.
Lemma tf_upto sort order h h0 : is_sort sort -> same_upto h h0 ->
  zpk2tf_dyn sort order (zk_z h) (zk_p h) (zk_k h) = zpk2tf_dyn sort order (zk_z h0) (zk_p h0) (zk_k h0).
Proof.
  intros Hs [Z [P K]]. rewrite !zpk2tf_ok by exact Hs. rewrite Z, K. do 2 f_equal. unfold padded_coef, pcoef. rewrite (fold_pstep_perm _ _ P). reflexivity.
Qed.

Definition out_ok (V : I -> Prop) an order out (real : res (@ZpkFormatFilter R)) (float : I -> res (@ZpkFormatFilter spec_float)) (K : R) (i : I) : Prop :=
  forall epsr epsf sort, is_sort sort -> exists f h h',
  (let! g := float i in let! g := @to_digital _ (NF i) an g in @emit _ (NF i) (T i) epsf sort order an out g) = Ok f /\
  (let! g := real in let! g := to_digital an g in emit epsr sort order an out g) = Ok h /\
  upto_order h h' /\ filter_within (pr i) (em i) (K * uround (pr i)) f h' /\ (out = OutZpk -> float_stable an f).
Lemma out_mono V an order out real float : kmono pr (out_ok V an order out real float).
Proof.
  intros K K' i U HK LE H epsr epsf sort Hs. destruct (H epsr epsf sort Hs) as [f [h [h' [A [B [C0 [W S]]]]]]]. exists f, h, h'.
  split; [exact A|]. split; [exact B|]. split; [exact C0|]. split; [|exact S]. eapply filter_within_mono; [|exact W]. apply Rmult_le_compat_r; lra.
Qed.
Lemma stage_out V an order out real float : out <> OutSos -> staged I pr em sz V real float good -> evk pr em V (out_ok V an order out real float).
Proof.
  intros Ho (pat & n & h0 & hf & Lp & ER & EF & G & H).
  apply (evk_patterns I pr em (out_ok V an order out real float) (out_mono V an order out real float) n V pat Lp). intros sg.
  destruct (H sg) as [h [SU N]]. pose proof (good_perm h h0 SU G) as Gh.
  destruct (stage_dig _ an h hf N Gh) as [k [kf [NK [EK [FK SK]]]]].
  assert (G0 : exists k0, to_digital an h0 = Ok k0 /\ same_upto k k0).
  { assert (SU' : same_upto h0 h) by (destruct SU as [A [B D]]; split; [symmetry; exact A|split; [apply Permutation_sym; exact B|symmetry; exact D]]).
    destruct (digital_upto an h0 h k SU' EK) as [k0 [E0 [A [B D]]]]. exists k0. split; [exact E0|]. split; [symmetry; exact A|split; [apply Permutation_sym; exact B|symmetry; exact D]]. }
  destruct G0 as [k0 [E0 SK0]]. set (W := fun i => V i /\ pat i = sg) in *. destruct out; [| |congruence].
  - destruct (stage_tf I pr em W sz k kf NK (2 * order)%nat) as [K [HK Q]]. exists K. split; [exact HK|]. intros i Hi epsr epsf sort Hs.
    destruct (Q i Hi sort Hs) as [bf [af [b [a [E1 [E2 [F1 [F2 [W1 W2]]]]]]]]]. exists (DBa (mkBa bf af)), (DBa (mkBa b a)), (DBa (mkBa b a)).
    rewrite (EF i (proj1 (proj1 Hi))), ER. cbn [bind]. rewrite (FK i (proj1 Hi)), E0. cbn [bind emit]. rewrite E1, <- (tf_upto sort (2 * order) k k0 Hs SK0), E2.
    split; [reflexivity|]. split; [reflexivity|]. split; [reflexivity|]. split; [|discriminate]. cbn [filter_within ba_b ba_a]. auto.
  - pose proof NK as [NZ [NP NQ]]. destruct (zpk_uniform I pr em W sz _ _ _ _ _ _ NZ NP NQ) as [K [HK Q]].
    destruct (ev_stable W an k kf NK SK) as [L [HL ST]]. exists (K + L). split; [lra|]. intros i Hi epsr epsf sort Hs.
    destruct (Q i (fmt_mono I pr em W (K + L) K i Hi ltac:(lra))) as [FF [W1 [W2 W3]]]. specialize (ST i (fmt_mono I pr em W (K + L) L i Hi ltac:(lra))).
    exists (DZpk (kf i)), (DZpk k0), (DZpk k). rewrite (EF i (proj1 (proj1 Hi))), ER. cbn [bind]. rewrite (FK i (proj1 Hi)), E0. cbn [bind emit].
    split; [reflexivity|]. split; [reflexivity|]. split; [|split; [|intros _; exact ST]].
    + destruct SK0 as [A [B D]]. split; [symmetry; exact A|]. split; [apply Permutation_sym; exact B|symmetry; exact D].
    + apply (filter_within_mono _ _ (K * uround (pr i))).
      * destruct Hi as (_ & Hpe & _). destruct (u_half (pr i) ltac:(lia)) as [U0 _]. apply Rmult_le_compat_r; lra.
      * destruct (kf i) as [zz pp kk], k as [hz hp hk]. split; [exact FF|]. split; [exact W1|]. split; [exact W2|exact W3].
Qed.
End Out.

(** ** One index per format, library and float arguments: the index of one edge, and the
    other edge *)
Definition idx2 : Type := idx * spec_float.
Definition other (j : idx2) : idx := mkIdx (xprec (fst j)) (xemax (fst j)) (xsz (fst j)) (xT (fst j)) (snd j) (xrp (fst j)) (xfs (fst j)).
Notation pr2 := (fun j : idx2 => xprec (fst j)).
Notation em2 := (fun j : idx2 => xemax (fst j)).
Notation sz2 := (fun j : idx2 => xsz (fst j)).
Notation NJ j := (SFNum (xprec (fst j)) (xemax (fst j)) (xsz (fst j))).
Lemma napp_pull {I J} (m : J -> I) (pr em : I -> Z) (V : I -> Prop) (W : J -> Prop) c f : (forall j, W j -> V (m j)) ->
  napp I pr em V c f -> napp J (fun j => pr (m j)) (fun j => em (m j)) W c (fun j => f (m j)).
Proof. intros S [K [HK H]]. exists K. split; [exact HK|]. intros j (A & B). apply (H (m j)). split; [apply S; exact A|exact B]. Qed.
Lemma ev_pull {I J} (m : J -> I) (pr em : I -> Z) (V : I -> Prop) (W : J -> Prop) P : (forall j, W j -> V (m j)) ->
  ev I pr em V P -> ev J (fun j => pr (m j)) (fun j => em (m j)) W (fun j => P (m j)).
Proof. intros S [K [HK H]]. exists K. split; [exact HK|]. intros j (A & B). apply (H (m j)). split; [apply S; exact A|exact B]. Qed.

Section Core2.
Variables (E w0 w1 rp : R) (fs : option R) (an : bool).
Hypothesis HE : 0 <= E.
Hypothesis Hv : valid_band an w0 w1 fs.
Definition V2 (j : idx2) : Prop := Vx E w0 rp fs (fst j) /\ reads (xprec (fst j)) (xemax (fst j)) (snd j) w1.
Lemma V2_fst j : V2 j -> Vx E w0 rp fs (fst j).
Proof. intros [A _]. exact A. Qed.
Lemma V2_other j : V2 j -> Vx E w1 rp fs (other j).
Proof. intros [(A & _ & B & D) R1]. split; [exact A|]. split; [exact R1|]. split; [exact B|exact D]. Qed.
Notation x0 := (norm_freq w0 fs).
Notation x1 := (norm_freq w1 fs).
Lemma Hv0 : valid_edge an w0 fs. Proof. apply Hv. Qed.
Lemma Hv1 : valid_edge an w1 fs. Proof. apply Hv. Qed.
Lemma x_lt : x0 < x1.
Proof.
  destruct Hv as [A [_ L]]. unfold norm_freq, valid_edge in *. destruct fs as [s|]; [|exact L]. destruct A as [_ [S _]].
  change (2 * w0 / s < 2 * w1 / s). unfold Rdiv. apply Rmult_lt_compat_r; [apply Rinv_0_lt_compat; exact S|lra].
Qed.
Notation W0 := (warped_freq an x0).
Notation W1 := (warped_freq an x1).
Lemma warped_pos : 0 < W0.
Proof. exact (wa_pos w0 fs (edge_x w0 fs an Hv0) an (edge_x1 w0 fs an Hv0)). Qed.
Lemma warped_lt : W0 < W1.
Proof.
  pose proof x_lt as L. pose proof (edge_x w0 fs an Hv0) as P. pose proof (edge_x1 w1 fs an Hv1) as B. unfold warped_freq. destruct an; [exact L|]. specialize (B eq_refl).
  generalize dependent (norm_freq w0 fs). generalize dependent (norm_freq w1 fs). intros b Hb a Lab Ha.
  change (2 * 2 * tan (PI * a / 2) < 2 * 2 * tan (PI * b / 2)). pose proof PI_RGT_0.
  assert (tan (PI * a / 2) < tan (PI * b / 2)); [|lra]. apply tan_increasing; nra.
Qed.
Definition xf0 (j : idx2) : spec_float := @norm_freq _ (NJ j) (xw (fst j)) (xfs (fst j)).
Definition xf1 (j : idx2) : spec_float := @norm_freq _ (NJ j) (snd j) (xfs (fst j)).
Lemma napp_x0 : napp idx2 pr2 em2 V2 x0 xf0.
Proof. exact (napp_pull fst xprec xemax _ V2 _ _ V2_fst (napp_x E w0 rp fs (edge_fs w0 fs an Hv0) (edge_x w0 fs an Hv0))). Qed.
Lemma napp_x1 : napp idx2 pr2 em2 V2 x1 xf1.
Proof. exact (napp_pull other xprec xemax _ V2 _ _ V2_other (napp_x E w1 rp fs (edge_fs w1 fs an Hv1) (edge_x w1 fs an Hv1))). Qed.
Lemma napp_W0 : napp idx2 pr2 em2 V2 W0 (fun j => @warped_freq _ (NJ j) (xT (fst j)) an (xf0 j)).
Proof. exact (napp_pull fst xprec xemax _ V2 _ _ V2_fst (napp_wa E w0 rp fs HE (edge_fs w0 fs an Hv0) (edge_x w0 fs an Hv0) an (edge_x1 w0 fs an Hv0))). Qed.
Lemma napp_W1 : napp idx2 pr2 em2 V2 W1 (fun j => @warped_freq _ (NJ j) (xT (fst j)) an (xf1 j)).
Proof. exact (napp_pull other xprec xemax _ V2 _ _ V2_other (napp_wa E w1 rp fs HE (edge_fs w1 fs an Hv1) (edge_x w1 fs an Hv1) an (edge_x1 w1 fs an Hv1))). Qed.
Lemma checks : ev idx2 pr2 em2 V2 (fun j =>
  @nleb _ (NJ j) (xf0 j) (@nzero _ (NJ j)) = false /\ @nleb _ (NJ j) (xf1 j) (@nzero _ (NJ j)) = false /\ @nleb _ (NJ j) (xf1 j) (xf0 j) = false /\
  (an = false -> @nleb _ (NJ j) (@none _ (NJ j)) (xf0 j) = false) /\ (an = false -> @nleb _ (NJ j) (@none _ (NJ j)) (xf1 j) = false) /\
  (an = true -> xfs (fst j) = None)).
Proof.
  pose proof (ev_pull fst xprec xemax _ V2 _ V2_fst (final E w0 rp fs an Hv0)) as A.
  pose proof (ev_pull other xprec xemax _ V2 _ V2_other (final E w1 rp fs an Hv1)) as B.
  pose proof (napp_lt idx2 pr2 em2 V2 _ _ _ _ x_lt napp_x0 napp_x1) as L.
  eapply ev_impl; [|exact (ev_and _ _ _ _ _ _ A (ev_and _ _ _ _ _ _ B L))]. cbn beta.
  intros j Vj Hpe ((A1 & A2 & A3) & (B1 & B2 & _) & (F1 & F2 & Lt)). split; [exact A1|]. split; [exact B1|]. split; [|split; [exact A2|split; [exact B2|exact A3]]].
  change (SFleb (xf1 j) (xf0 j) = false). rewrite (leb_fval (xprec (fst j)) (xemax (fst j))) by assumption. unfold Rleb. destruct (Rle_dec _ _); [lra|reflexivity].
Qed.
Lemma real_checks : @nleb R RNum x0 0 = false /\ @nleb R RNum x1 0 = false /\ @nleb R RNum x1 x0 = false /\
  (an = false -> @nleb R RNum 1 x0 = false) /\ (an = false -> @nleb R RNum 1 x1 = false).
Proof.
  destruct (edge_checks w0 fs an Hv0) as [A1 A2]. destruct (edge_checks w1 fs an Hv1) as [B1 B2]. pose proof x_lt as L.
  split; [exact A1|]. split; [exact B1|]. split; [|split; [exact A2|exact B2]]. generalize dependent (norm_freq w0 fs). generalize dependent (norm_freq w1 fs). intros b B1 B2 a A1 A2 L.
  cbn [nleb RNum]. unfold Rleb. destruct (Rle_dec _ _); [lra|reflexivity].
Qed.
Variables (bt : FilterBandType) (g : @ZpkFormatFilter R) (gf : idx2 -> @ZpkFormatFilter spec_float).
Hypothesis Hbt : bt = Bandpass \/ bt = Bandstop.
Hypothesis Hg : znapp idx2 pr2 em2 V2 sz2 g gf.
Hypothesis Gz : zk_z g = [].
Hypothesis Gp : Forall (fun p => cre p < 0) (zk_p g).
Hypothesis Gc : conj_closed (zk_p g).
Hypothesis Gd : no_double bt (zk_p g) W0 W1.
Lemma final2 order out : out <> OutSos -> evk pr2 em2 V2 (out_ok idx2 pr2 em2 sz2 (fun j => xT (fst j)) V2 an order out (band2 bt g W0 W1)
  (fun j => @band2 _ (NJ j) (xT (fst j)) bt (gf j) (@warped_freq _ (NJ j) (xT (fst j)) an (xf0 j)) (@warped_freq _ (NJ j) (xT (fst j)) an (xf1 j)))).
Proof.
  intros Ho. apply stage_out; [exact Ho|].
  apply (stage_band2 idx2 pr2 em2 sz2 E HE (fun j => xT (fst j)) V2); try assumption.
  - intros j Vj _. apply Vj.
  - exact napp_W0.
  - exact napp_W1.
  - exact warped_pos.
  - exact warped_lt.
Qed.
End Core2.

(** ** Double poles come from a real pole only *)
Lemma phi_zero n k : (k < n)%nat -> sin (phi n k) = 0 -> Nat.odd n = true /\ cos (phi n k) = 1.
Proof.
  intros Hk S. pose proof (phi_range n k Hk) as R0. assert (Z : phi n k = 0).
  { destruct (Rtotal_order (phi n k) 0) as [L|[Q|L]]; [|exact Q|]; exfalso.
    - assert (0 < sin (- phi n k)) by (apply sin_gt_0; pose proof PI_RGT_0; lra). rewrite sin_neg in H. lra.
    - assert (0 < sin (phi n k)) by (apply sin_gt_0; pose proof PI_RGT_0; lra). lra. }
  split; [|rewrite Z; apply cos_0]. unfold phi in Z. assert (Hn : 0 < INR n) by (apply lt_0_INR; lia). pose proof PI_RGT_0.
  assert (Q : 1 - INR n + 2 * INR k = 0).
  { apply (Rmult_eq_reg_l (PI / (2 * INR n))); [|apply Rgt_not_eq, Rdiv_lt_0_compat; lra]. rewrite Rmult_0_r. rewrite <- Z. field. lra. }
  assert (N : n = (2 * k + 1)%nat) by (apply INR_eq; rewrite plus_INR, mult_INR; cbn [INR]; lra). rewrite N, Nat.add_comm, Nat.odd_add_mul_2. reflexivity.
Qed.
Lemma ellipse_no_double bt n A B W0 W1 (g : nat -> C) : (bt = Bandpass \/ bt = Bandstop) -> 0 < A -> 0 < B -> 0 < W0 -> W0 < W1 ->
  (forall k, (k < n)%nat -> g k = (- (A * cos (phi n k)), - (B * sin (phi n k)))) ->
  (Nat.odd n = true -> ~ double_pole bt A W0 W1) -> no_double bt (map g (seq 0 n)) W0 W1.
Proof.
  intros Hbt HA HB H0 H1 Hg ND p Hp. apply in_map_iff in Hp. destruct Hp as [k [<- Hk]]. apply in_seq in Hk. rewrite Hg by lia. clear Hg.
  pose proof (cos_phi n k ltac:(lia)) as C0. set (c := cos (phi n k)) in *. set (s := sin (phi n k)) in *. set (h := (W1 - W0) / 2). assert (H : 0 < h) by (unfold h; lra).
  assert (AC : 0 < A * c) by nra.
  assert (KEY : s = 0 -> A * c = A /\ Nat.odd n = true) by (intros S; destruct (phi_zero n k ltac:(lia) S) as [O Q]; fold c in Q; rewrite Q, Rmult_1_r; auto).
  destruct Hbt as [-> | ->]; intros Q.
  - pose proof (f_equal fst Q) as Q1. pose proof (f_equal snd Q) as Q2. cbn in Q1, Q2.
    assert (S : s = 0).
    { assert (Q3 : (A * c) * B * h * h * s = 0) by nra. assert (0 < (A * c) * B * h * h) by exact (Rmult_lt_0_compat _ _ (Rmult_lt_0_compat _ _ (Rmult_lt_0_compat _ _ AC HB) H) H). apply Rmult_integral in Q3. destruct Q3 as [Q3|Q3]; [lra|exact Q3]. }
    destruct (KEY S) as [EA O]. apply (ND O). unfold double_pole. rewrite S, EA in Q1. unfold h in Q1. nra.
  - set (x := - (A * c)) in *. set (y := - (B * s)) in *. assert (X : x < 0) by (unfold x; lra).
    assert (Q' : (RtoC h * RtoC h)%C = (RtoC (W0 * W1)%R * ((x, y) * (x, y)))%C).
    { rewrite <- Q. assert (N : (x, y) <> Cx.C0) by (intros Z; injection Z; intros; lra). field. exact N. }
    pose proof (f_equal fst Q') as Q1. pose proof (f_equal snd Q') as Q2. cbn in Q1, Q2.
    assert (P : 0 < W0 * W1) by nra.
    assert (S : s = 0).
    { assert (Q3 : (W0 * W1) * (x * y) = 0) by nra. assert (Y : y = 0) by (apply Rmult_integral in Q3; destruct Q3 as [Q3|Q3]; [lra|apply Rmult_integral in Q3; destruct Q3; [lra|assumption]]). unfold y in Y. nra. }
    destruct (KEY S) as [EA O]. apply (ND O). unfold double_pole. assert (Y : y = 0) by (unfold y; rewrite S; ring). rewrite Y in Q1. unfold x in Q1. rewrite EA in Q1. unfold h in Q1. nra.
Qed.
Lemma warped_edge an w fs : warped_freq an (norm_freq w fs) = edge_freq an w fs.
Proof. unfold warped_freq, norm_freq, edge_freq. destruct fs, an; try reflexivity; change (2 * 2 * tan (PI * (2 * w / r) / 2) = 4 * tan (PI * (2 * w / r) / 2)) || change (2 * 2 * tan (PI * w / 2) = 4 * tan (PI * w / 2)); lra. Qed.

(** * C106 *)
Theorem C106_butter_band_rounding (order : nat) (w0 w1 : R) (fs : option R) (bt : FilterBandType) (analog : option bool) (out : option FilterOutputType) (E : R) :
  let an := unwrap_or analog false in
  (bt = Bandpass \/ bt = Bandstop) -> out <> Some OutSos -> valid_band an w0 w1 fs -> 0 <= E ->
  (Nat.odd order = true -> ~ double_pole bt 1 (edge_freq an w0 fs) (edge_freq an w1 fs)) ->
  exists K, 1 <= K /\ forall prec emax szero (T : Trans spec_float) epsr epsf sort w0f w1f fsf,
  (1 < prec < emax)%Z -> is_sort sort -> accurate_trans prec emax E T ->
  reads prec emax w0f w0 -> reads prec emax w1f w1 -> reads_opt prec emax fsf fs -> K * uround prec <= 1 ->
  exists f h h',
    @butter_dyn _ (SFNum prec emax szero) T epsf sort order [w0f; w1f] (Some bt) analog out fsf = Ok f /\
    butter_dyn epsr sort order [w0; w1] (Some bt) analog out fs = Ok h /\
    upto_order h h' /\ filter_within prec emax (K * uround prec) f h' /\
    (out = Some OutZpk -> float_stable an f).
Proof.
  intros an Hbt Ho Hv HE ND. set (o := unwrap_or out OutBa).
  assert (Ho' : o <> OutSos) by (unfold o; destruct out as [[]|]; cbn; congruence).
  set (V := V2 E w0 w1 0 fs).
  assert (NG : znapp idx2 pr2 em2 V sz2 (buttap_dyn order) (fun i => @buttap_dyn _ (NJ i) (xT (fst i)) order)) by (apply (stage_buttap idx2 pr2 em2 V sz2 E HE (fun j => xT (fst j))); intros i Vi _; apply Vi).
  assert (Gz : zk_z (@buttap_dyn R RNum RTrans order) = []) by reflexivity.
  assert (Gp : Forall (fun p => cre p < 0) (zk_p (@buttap_dyn R RNum RTrans order))).
  { rewrite buttap_eq. cbn [zk_p]. apply Forall_forall. intros c Hc. apply in_map_iff in Hc. destruct Hc as [k [<- Hk]]. apply in_seq in Hk. apply bp_stable. lia. }
  assert (Gc : conj_closed (zk_p (@buttap_dyn R RNum RTrans order))) by (rewrite buttap_eq; apply buttap_closed).
  assert (Gd : no_double bt (zk_p (@buttap_dyn R RNum RTrans order)) (warped_freq an (norm_freq w0 fs)) (warped_freq an (norm_freq w1 fs))).
  { rewrite buttap_eq. cbn [zk_p]. apply (ellipse_no_double bt order 1 1); [exact Hbt|lra|lra|exact (warped_pos w0 w1 fs an Hv)|exact (warped_lt w0 w1 fs an Hv)| |].
    - intros k Hk. unfold bp, Cx.E. apply C_ext; cbn; ring.
    - rewrite !warped_edge. exact ND. }
  destruct (checks E w0 w1 0 fs an Hv) as [K1 [HK1 Q1]].
  destruct (final2 E w0 w1 0 fs an HE Hv bt _ _ Hbt NG Gz Gp Gc Gd order o Ho') as [K2 [HK2 Q2]].
  exists (K1 + K2). split; [lra|]. intros prec emax sz T epsr epsf sort w0f w1f fsf Hpe Hs HT R0 R1 Rf Hu.
  set (i := (mkIdx prec emax sz T w0f (S754_zero false) fsf, w1f) : idx2).
  assert (Hi : fmt_ok idx2 pr2 em2 V (K1 + K2) i).
  { split; [|split; [exact Hpe|exact Hu]]. split; [|exact R1]. split; [exact HT|]. split; [exact R0|]. split; [|exact Rf]. split; [split; [reflexivity|exact Logic.I]|reflexivity]. }
  destruct (Q1 i (fmt_mono idx2 pr2 em2 V (K1 + K2) K1 i Hi ltac:(lra))) as [A1 [A2 [A3 [A4 [A5 A6]]]]].
  destruct (Q2 i (fmt_mono idx2 pr2 em2 V (K1 + K2) K2 i Hi ltac:(lra)) epsr epsf sort Hs) as [f [h [h' [E1 [E2 [U [W S]]]]]]].
  destruct (real_checks w0 w1 fs an Hv) as [B1 [B2 [B3 [B4 B5]]]].
  exists f, h, h'. split; [|split; [|split; [exact U|split]]].
  - unfold butter_dyn. cbn [unwrap_or]. fold an o. rewrite (@iir_tail2 _ (SFNum prec emax sz) T epsf sort order w0f w1f None bt Butterworth (Some an) (Some o) fsf (@buttap_dyn _ (SFNum prec emax sz) T order)); [exact E1|exact Hbt|exact A6|exact A1|exact A2|exact A3|exact A4|exact A5|].
    left. auto.
  - unfold butter_dyn. cbn [unwrap_or]. fold an o. rewrite (@iir_tail2 _ RNum RTrans epsr sort order w0 w1 None bt Butterworth (Some an) (Some o) fs (buttap_dyn order)); [exact E2|exact Hbt|exact (edge_an w0 fs an (proj1 Hv))|exact B1|exact B2|exact B3|exact B4|exact B5|].
    left. auto.
  - eapply filter_within_mono; [|exact W]. destruct (u_half prec (proj1 Hpe)) as [U0 _]. apply Rmult_le_compat_r; unfold i; cbn [fst xprec]; lra.
  - intros ->. apply S. reflexivity.
Qed.
Print Assumptions C106_butter_band_rounding.

Theorem C106_cheby1_band_rounding (order : nat) (rp w0 w1 : R) (fs : option R) (bt : FilterBandType) (analog : option bool) (out : option FilterOutputType) (E : R) :
  let an := unwrap_or analog false in
  (bt = Bandpass \/ bt = Bandstop) -> out <> Some OutSos -> valid_band an w0 w1 fs -> 0 < rp -> 0 <= E ->
  (Nat.odd order = true -> ~ double_pole bt (cheb_pole order rp) (edge_freq an w0 fs) (edge_freq an w1 fs)) ->
  exists K, 1 <= K /\ forall prec emax szero (T : Trans spec_float) epsr epsf sort rpf w0f w1f fsf,
  (1 < prec < emax)%Z -> is_sort sort -> accurate_trans prec emax E T ->
  reads prec emax rpf rp -> reads prec emax w0f w0 -> reads prec emax w1f w1 -> reads_opt prec emax fsf fs -> K * uround prec <= 1 ->
  exists f h h',
    @cheby1_dyn _ (SFNum prec emax szero) T epsf sort order rpf [w0f; w1f] (Some bt) analog out fsf = Ok f /\
    cheby1_dyn epsr sort order rp [w0; w1] (Some bt) analog out fs = Ok h /\
    upto_order h h' /\ filter_within prec emax (K * uround prec) f h' /\
    (out = Some OutZpk -> float_stable an f).
Proof.
  intros an Hbt Ho Hv Hr HE ND. set (o := unwrap_or out OutBa).
  assert (Ho' : o <> OutSos) by (unfold o; destruct out as [[]|]; cbn; congruence).
  set (V := V2 E w0 w1 rp fs).
  assert (NR : napp idx2 pr2 em2 V rp (fun j => xrp (fst j))) by (apply napp_exact; intros i Vi _; apply Vi).
  assert (NG : znapp idx2 pr2 em2 V sz2 (cheb1ap_dyn order rp) (fun i => @cheb1ap_dyn _ (NJ i) (xT (fst i)) order (xrp (fst i)))).
  { apply (stage_cheb1ap idx2 pr2 em2 V sz2 E HE (fun j => xT (fst j))); [intros i Vi _; apply Vi|exact Hr|exact NR]. }
  assert (Gz : zk_z (@cheb1ap_dyn R RNum RTrans order rp) = []) by (destruct order; reflexivity).
  assert (EP : zk_p (@cheb1ap_dyn R RNum RTrans order rp) = map (cp order (eps1 rp)) (seq 0 order)) by (destruct order as [|n]; [reflexivity|]; rewrite cheb1ap_eq by (assumption || lia); reflexivity).
  assert (Gp : Forall (fun p => cre p < 0) (zk_p (@cheb1ap_dyn R RNum RTrans order rp))).
  { rewrite EP. apply Forall_forall. intros c Hc. apply in_map_iff in Hc. destruct Hc as [k [<- Hk]]. apply in_seq in Hk.
    apply cp_stable; [lia|apply eps1_pos; exact Hr|lia]. }
  assert (Gc : conj_closed (zk_p (@cheb1ap_dyn R RNum RTrans order rp))) by (rewrite EP; apply cp_closed).
  assert (Gd : no_double bt (zk_p (@cheb1ap_dyn R RNum RTrans order rp)) (warped_freq an (norm_freq w0 fs)) (warped_freq an (norm_freq w1 fs))).
  { rewrite EP. destruct order as [|n] eqn:En; [intros p []|]. rewrite <- En in *. assert (Hn : (0 < order)%nat) by lia.
    pose proof (sinh_mu order (eps1 rp) Hn (eps1_pos rp Hr)) as SM.
    apply (ellipse_no_double bt order (cheb_pole order rp) (cosh (arcsinh (1 / eps1 rp) / INR order))); [exact Hbt|exact SM|unfold cosh; pose proof (exp_pos (arcsinh (1 / eps1 rp) / INR order)); pose proof (exp_pos (- (arcsinh (1 / eps1 rp) / INR order))); lra|exact (warped_pos w0 w1 fs an Hv)|exact (warped_lt w0 w1 fs an Hv)| |].
    - intros k Hk. reflexivity.
    - rewrite !warped_edge. exact ND. }
  destruct (checks E w0 w1 rp fs an Hv) as [K1 [HK1 Q1]].
  destruct (final2 E w0 w1 rp fs an HE Hv bt _ _ Hbt NG Gz Gp Gc Gd order o Ho') as [K2 [HK2 Q2]].
  exists (K1 + K2). split; [lra|]. intros prec emax sz T epsr epsf sort rpf w0f w1f fsf Hpe Hs HT Rr R0 R1 Rf Hu.
  set (i := (mkIdx prec emax sz T w0f rpf fsf, w1f) : idx2).
  assert (Hi : fmt_ok idx2 pr2 em2 V (K1 + K2) i).
  { split; [|split; [exact Hpe|exact Hu]]. split; [|exact R1]. split; [exact HT|]. split; [exact R0|]. split; [exact Rr|exact Rf]. }
  destruct (Q1 i (fmt_mono idx2 pr2 em2 V (K1 + K2) K1 i Hi ltac:(lra))) as [A1 [A2 [A3 [A4 [A5 A6]]]]].
  destruct (Q2 i (fmt_mono idx2 pr2 em2 V (K1 + K2) K2 i Hi ltac:(lra)) epsr epsf sort Hs) as [f [h [h' [E1 [E2 [U [W S]]]]]]].
  destruct (real_checks w0 w1 fs an Hv) as [B1 [B2 [B3 [B4 B5]]]].
  exists f, h, h'. split; [|split; [|split; [exact U|split]]].
  - unfold cheby1_dyn. rewrite (@iir_tail2 _ (SFNum prec emax sz) T epsf sort order w0f w1f (Some rpf) bt ChebyshevI analog out fsf (@cheb1ap_dyn _ (SFNum prec emax sz) T order rpf)); [exact E1|exact Hbt|exact A6|exact A1|exact A2|exact A3|exact A4|exact A5|].
    right. exists rpf. split; [reflexivity|]. split; [reflexivity|]. split; [|reflexivity]. destruct Rr as [Fr Er].
    change (SFltb rpf (S754_zero false) = false). rewrite (ltb_fval prec emax rpf (S754_zero false) Fr (conj eq_refl Logic.I)). rewrite Er. unfold Rltb. cbn [fval]. destruct (Rlt_dec _ _); [lra|reflexivity].
  - unfold cheby1_dyn. rewrite (@iir_tail2 _ RNum RTrans epsr sort order w0 w1 (Some rp) bt ChebyshevI analog out fs (cheb1ap_dyn order rp)); [exact E2|exact Hbt|exact (edge_an w0 fs an (proj1 Hv))|exact B1|exact B2|exact B3|exact B4|exact B5|].
    right. exists rp. split; [reflexivity|]. split; [reflexivity|]. split; [|reflexivity]. cbn [nltb RNum nzero]. unfold Rltb. destruct (Rlt_dec _ _); [lra|reflexivity].
  - eapply filter_within_mono; [|exact W]. destruct (u_half prec (proj1 Hpe)) as [U0 _]. apply Rmult_le_compat_r; unfold i; cbn [fst xprec]; lra.
  - intros ->. apply S. reflexivity.
Qed.
Print Assumptions C106_cheby1_band_rounding.

(** Third order, ripple 10, analog edges 1 and 2: no double pole, and formats of any
    precision asked for exist. *)
Example C106_hyp_met : valid_band true 1 2 None /\
  (forall bt, bt = Bandpass \/ bt = Bandstop -> ~ double_pole bt 1 (edge_freq true 1 None) (edge_freq true 2 None)) /\
  ~ double_pole Bandpass (cheb_pole 3 10) (edge_freq true 1 None) (edge_freq true 2 None) /\
  forall K, exists prec emax T w0f w1f, (1 < prec < emax)%Z /\ accurate_trans prec emax 5 T /\ reads prec emax w0f 1 /\ reads prec emax w1f 2 /\ K * uround prec <= 1.
Proof.
  split; [cbn; repeat split; try lra; discriminate|]. split; [intros bt [-> | ->]; cbn; lra|]. split.
  - cbn [double_pole edge_freq]. intros Q.
    assert (EP : sqrt (Rpower 10 (10 / 10) - 1) = 3).
    { replace (10 / 10) with 1 by field. rewrite Rpower_1 by lra. replace (10 - 1) with (3 * 3) by ring. apply sqrt_square. lra. }
    assert (B : 0 < cheb_pole 3 10 < 1).
    { unfold cheb_pole. rewrite EP. set (m := arcsinh (1 / 3)). assert (S : sinh m = 1 / 3) by apply sinh_arcsinh.
      assert (M0 : 0 < m). { destruct (Rle_or_lt m 0) as [L|L]; [|exact L]. exfalso. destruct (Req_dec m 0) as [Z|Z]; [rewrite Z, sinh_0 in S; lra|]. assert (sinh m < sinh 0) by (apply sinh_lt; lra). rewrite sinh_0 in H. lra. }
      replace (INR 3) with 3 by (cbn; ring). split.
      - rewrite <- sinh_0. apply sinh_lt. lra.
      - assert (sinh (m / 3) < sinh m) by (apply sinh_lt; lra). lra. }
    nra.
  - intros K. destruct (fine_format K) as [prec [emax [Hpe Hu]]].
    exists prec, emax, (rounding_library prec emax), (SpecFloat.binary_normalize prec emax 1 0 false), (SpecFloat.binary_normalize prec emax 2 0 false).
    split; [exact Hpe|]. split; [apply rounding_library_accurate; exact Hpe|]. split; [apply small_int; [exact Hpe|lia]|]. split; [apply small_int; [exact Hpe|lia]|exact Hu].
Qed.
