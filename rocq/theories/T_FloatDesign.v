(** C102: rounding in whole designs of low- and high-pass Butterworth and Chebyshev I
    filters.  At every IEEE 754 format fine enough, and with every library of elementary
    functions that is accurate to a fixed number of unit roundoffs, the designed zeros,
    poles, gain or polynomial coefficients are those of real arithmetic up to a multiple of
    the unit roundoff that depends on the arguments only. *)
From Coq Require Import Reals Ratan ZArith SpecFloat List Lia Lra Bool.
From Flocq Require Import Core BinarySingleNaN.
From Verif Require Import Base Num Trans M_Complex M_Filter M_Design Cx S_Design S_Filter S_Float S_FloatFft S_FloatZpk S_FloatTrans
  P_Float P_FloatStats P_Poly P_Lp P_Proto P_Cheb P_FloatMed P_FloatI0 P_FloatZi P_FloatPoly T_FloatPoly P_FloatDesign.
Import ListNotations.
Local Open Scope R_scope.

(** ** The design after its checks, over any numbers *)
Section Tail.
Context {F : Type} {NF : Num F} {TF : Trans F}.
Definition norm_freq (w : F) (fs : option F) : F := match fs with Some fs => ndiv (nmul two w) fs | None => w end.
Definition warped_freq (an : bool) (x : F) : F := if an then x else nmul (nmul two two) (ttan (ndiv (nmul tpi x) two)).
Definition band (bt : FilterBandType) (g : ZpkFormatFilter) (w : F) : res ZpkFormatFilter :=
  match bt with Lowpass => lp2lp_zpk_dyn g (Some w) | _ => lp2hp_zpk_dyn g (Some w) end.
Definition to_digital (an : bool) (g : ZpkFormatFilter) : res ZpkFormatFilter := if an then Ok g else bilinear_zpk_dyn g two.
Definition emit epsilon sort order (an : bool) (out : FilterOutputType) (g : ZpkFormatFilter) : res DigitalFilter :=
  match out with
  | OutZpk => Ok (DZpk g)
  | OutBa => let! ba := zpk2tf_dyn sort (2 * order) (zk_z g) (zk_p g) (zk_k g) in Ok (DBa ba)
  | OutSos => let! s := zpk2sos_dyn epsilon sort order g None (Some an) in Ok (DSos s)
  end.
Lemma iir_tail epsilon sort order w rp bt ft analog out fs proto :
  let an := unwrap_or analog false in let x := norm_freq w fs in
  (bt = Lowpass \/ bt = Highpass) -> (an = true -> fs = None) ->
  nleb x nzero = false -> (an = false -> nleb none x = false) ->
  (ft = Butterworth /\ rp = None /\ proto = buttap_dyn order \/
   exists r, ft = ChebyshevI /\ rp = Some r /\ nltb r nzero = false /\ proto = cheb1ap_dyn order r) ->
  iirfilter_dyn epsilon sort order [w] rp None (Some bt) (Some ft) analog out fs =
  let! g := band bt proto (warped_freq an x) in let! g := to_digital an g in emit epsilon sort order an (unwrap_or out OutBa) g.
Proof.
  intros an x Hb Ha H0 H1 Hp. unfold iirfilter_dyn. fold an. cbn [length Nat.ltb Nat.leb].
  assert (E : (match fs with Some fs => if an then Panic else Ok (map (fun wni => ndiv (nmul two wni) fs) [w]) | None => Ok [w] end) = Ok [x]).
  { unfold x, norm_freq. destruct fs; [|reflexivity]. destruct an; [specialize (Ha eq_refl); discriminate|reflexivity]. }
  rewrite E. cbn [bind existsb orb]. rewrite H0. cbn [orb bind].
  assert (EP : (let! _ := match rp with Some rp => if nltb rp nzero then Panic else Ok tt | None => Ok tt end in
     match ft with Butterworth => Ok (buttap_dyn order) | ChebyshevI => if is_none rp then Panic else let! rp := unwrap rp in Ok (cheb1ap_dyn order rp)
       | ChebyshevII => Panic | CauerElliptic => Panic | BesselThomson => Panic end) = Ok proto).
  { destruct Hp as [[-> [-> ->]]|[r [-> [-> [Hr ->]]]]]; [reflexivity|]. rewrite Hr. reflexivity. }
  assert (EP2 : forall B (k : ZpkFormatFilter -> res B), (let! _ := match rp with Some rp => if nltb rp nzero then Panic else Ok tt | None => Ok tt end in
     let! zpk := match unwrap_or (Some ft) Butterworth with Butterworth => Ok (buttap_dyn order) | ChebyshevI => if is_none rp then Panic else let! rp := unwrap rp in Ok (cheb1ap_dyn order rp)
       | ChebyshevII => if is_none rp then Panic else let! rs := unwrap (@None F) in Ok (cheb2ap_dyn order rs) | CauerElliptic => Panic | BesselThomson => Panic end in k zpk) = k proto).
  { intros B k. destruct Hp as [[-> [-> ->]]|[r [-> [-> [Hr ->]]]]]; [reflexivity|]. rewrite Hr. reflexivity. }
  cbn [bind]. rewrite EP2. clear EP EP2 E. unfold warped_freq, to_digital, band, emit.
  set (o := unwrap_or out OutBa). clearbody o an x. destruct an.
  - cbn [negb bind]. destruct Hb as [-> | ->]; cbn [unwrap_or length Nat.eqb negb index bind nth_error].
    + reflexivity.
    + reflexivity.
  - cbn [negb]. rewrite H1 by reflexivity. cbn [orb bind map].
    destruct Hb as [-> | ->]; cbn [unwrap_or length Nat.eqb negb index bind nth_error]; reflexivity.
Qed.
End Tail.

(** ** One index per format, library and float arguments *)
Record idx := mkIdx { xprec : Z; xemax : Z; xsz : bool; xT : Trans spec_float; xw : spec_float; xrp : spec_float; xfs : option spec_float }.
Notation NI i := (SFNum (xprec i) (xemax i) (xsz i)).

Section Core.
Variables (E w rp : R) (fs : option R).
Hypothesis HE : 0 <= E.
Definition Vx (i : idx) : Prop := accurate_trans (xprec i) (xemax i) E (xT i) /\ reads (xprec i) (xemax i) (xw i) w /\
  reads (xprec i) (xemax i) (xrp i) rp /\ reads_opt (xprec i) (xemax i) (xfs i) fs.
Notation napp := (napp idx xprec xemax Vx).
Notation znapp := (znapp idx xprec xemax Vx xsz).
Notation ev := (ev idx xprec xemax Vx).
Let x : R := norm_freq w fs.
Let xf (i : idx) : spec_float := @norm_freq _ (NI i) (xw i) (xfs i).
Hypothesis Hfs : match fs with Some s => 0 < s | None => True end.
Hypothesis Hx : 0 < x.
Lemma HT i : Vx i -> (1 < xprec i < xemax i)%Z -> accurate_trans (xprec i) (xemax i) E (xT i).
Proof. intros Vi _. apply Vi. Qed.
Lemma napp_w : napp w xw.
Proof. apply napp_exact. intros i Vi _. apply Vi. Qed.
Lemma napp_rp : napp rp xrp.
Proof. apply napp_exact. intros i Vi _. apply Vi. Qed.
Lemma napp_x : napp x xf.
Proof.
  unfold x, xf. destruct fs as [s|] eqn:Efs.
  - set (sf := fun i => match xfs i with Some a => a | None => S754_zero false end).
    assert (EQ : forall i, Vx i -> xfs i = Some (sf i) /\ reads (xprec i) (xemax i) (sf i) s).
    { intros i (_ & _ & _ & H). rewrite Efs in H. unfold sf. unfold reads_opt in H. destruct (xfs i) as [a|]; [|destruct H]. split; [reflexivity|exact H]. }
    apply (napp_ext idx xprec xemax Vx (2 * w / s) _ (fun i => @ndiv _ (NI i) (@nmul _ (NI i) (@two _ (NI i)) (xw i)) (sf i))); [reflexivity| |].
    + intros i Vi _. destruct (EQ i Vi) as [-> _]. reflexivity.
    + apply napp_div; [lra| |apply napp_exact; intros i Vi _; apply EQ; exact Vi].
      apply napp_mul; [exact (napp_intZ idx xprec xemax Vx xsz 2)|apply napp_w].
  - apply (napp_ext idx xprec xemax Vx w _ xw); [reflexivity| |apply napp_w].
    intros i (_ & _ & _ & H) _. rewrite Efs in H. unfold reads_opt in H. destruct (xfs i); [destruct H|reflexivity].
Qed.
Lemma ev_pos : ev (fun i => @nleb _ (NI i) (xf i) (@nzero _ (NI i)) = false).
Proof.
  eapply ev_impl; [|apply (napp_lt idx xprec xemax Vx 0 x _ xf Hx (napp_zero idx xprec xemax Vx false) napp_x)]. cbn beta.
  intros i Vi Hpe (F1 & F2 & L). change (SFleb (xf i) (S754_zero false) = false). rewrite (leb_fval (xprec i) (xemax i)) by assumption.
  unfold Rleb. destruct (Rle_dec _ _); [lra|reflexivity].
Qed.
Lemma ev_lt1 : x < 1 -> ev (fun i => @nleb _ (NI i) (@none _ (NI i)) (xf i) = false).
Proof.
  intros H1. eapply ev_impl; [|apply (napp_lt idx xprec xemax Vx x 1 xf _ H1 napp_x (napp_one idx xprec xemax Vx))]. cbn beta.
  intros i Vi Hpe (F1 & F2 & L). change (SFleb (SpecFloat.binary_normalize (xprec i) (xemax i) 1 0 false) (xf i) = false). rewrite (leb_fval (xprec i) (xemax i)) by assumption.
  unfold Rleb. destruct (Rle_dec _ _); [lra|reflexivity].
Qed.

Section Proto.
Variables (g : @ZpkFormatFilter R) (gf : idx -> @ZpkFormatFilter spec_float) (an : bool) (bt : FilterBandType).
Hypothesis Hg : znapp g gf.
Hypothesis Gz : zk_z g = [].
Hypothesis Gp : Forall (fun p => cre p < 0) (zk_p g).
Hypothesis H1 : an = false -> x < 1.
Hypothesis Hbt : bt = Lowpass \/ bt = Highpass.
Let wa : R := warped_freq an x.
Let waf (i : idx) : spec_float := @warped_freq _ (NI i) (xT i) an (xf i).
Lemma wa_pos : 0 < wa.
Proof.
  unfold wa, warped_freq. destruct an; [exact Hx|]. specialize (H1 eq_refl). change (0 < 2 * 2 * tan (PI * x / 2)).
  pose proof PI_RGT_0. assert (0 < tan (PI * x / 2)); [|lra]. apply tan_gt_0; nra.
Qed.
Lemma napp_wa : napp wa waf.
Proof.
  unfold wa, waf, warped_freq. destruct an; [exact napp_x|]. specialize (H1 eq_refl). pose proof PI_RGT_0.
  apply napp_mul; [apply napp_mul; exact (napp_intZ idx xprec xemax Vx xsz 2)|].
  apply (napp_tan idx xprec xemax Vx E HE xT HT); [change (0 < PI * x / 2 < PI / 2); split; nra|].
  apply napp_div; [apply IZR_neq; lia|apply napp_mul; [apply (napp_pi idx xprec xemax Vx E HE xT HT)|exact napp_x]|exact (napp_intZ idx xprec xemax Vx xsz 2)].
Qed.
Lemma stage_band : exists h hf, znapp h hf /\ band bt g wa = Ok h /\ (forall i, Vx i -> @band _ (NI i) bt (gf i) (waf i) = Ok (hf i)) /\
  Forall (fun z => z = C0) (zk_z h) /\ Forall (fun p => cre p < 0) (zk_p h) /\ (length (zk_z h) <= length (zk_p h))%nat.
Proof.
  assert (Hd : (length (zk_z g) <= length (zk_p g))%nat) by (rewrite Gz; cbn; lia). pose proof wa_pos as W. rewrite Forall_forall in Gp. destruct Hbt as [-> | ->].
  - destruct (stage_lp2lp idx xprec xemax Vx xsz g gf Hg Hd wa waf napp_wa) as [h [hf [A [B D]]]]. exists h, hf. split; [exact A|]. split; [exact B|]. split; [exact D|].
    unfold lp2lp_zpk_dyn, relative_degree_dyn in B. rewrite Gz in B. cbn [length Nat.ltb Nat.leb bind map] in B. injection B as <-. cbn [zk_z zk_p].
    split; [constructor|]. split; [|cbn; lia]. apply Forall_forall. intros c Hc. apply in_map_iff in Hc. destruct Hc as [p [<- Hp]]. apply Gp in Hp.
    change (cre p * wa - cim p * 0 < 0). nra.
  - destruct (stage_lp2hp idx xprec xemax Vx xsz g gf Hg Hd wa waf) as [h [hf [A [B D]]]].
    { rewrite Gz. apply Forall_forall. intros c Hc Ec. apply Gp in Hc. rewrite Ec in Hc. cbn in Hc. lra. }
    { exact napp_wa. }
    exists h, hf. split; [exact A|]. split; [exact B|]. split; [exact D|].
    unfold lp2hp_zpk_dyn, relative_degree_dyn in B. rewrite Gz in B. cbn [length Nat.ltb Nat.leb bind map app] in B. injection B as <-. cbn [zk_z zk_p].
    split; [|split].
    + apply Forall_forall. intros c Hc. apply repeat_spec in Hc. exact Hc.
    + apply Forall_forall. intros c Hc. apply in_map_iff in Hc. destruct Hc as [p [<- Hp]]. apply Gp in Hp.
      change ((wa * cre p + 0 * cim p) / (cre p * cre p + cim p * cim p) < 0). assert (D0 : 0 < cre p * cre p + cim p * cim p) by nra.
      apply (Rmult_lt_reg_r (cre p * cre p + cim p * cim p)); [exact D0|]. unfold Rdiv. rewrite Rmult_assoc, Rinv_l by lra. nra.
    + rewrite repeat_length, map_length. lia.
Qed.
Lemma stage_design : exists h hf, znapp h hf /\ (let! g := band bt g wa in to_digital an g) = Ok h /\
  (forall i, Vx i -> (let! g := @band _ (NI i) bt (gf i) (waf i) in @to_digital _ (NI i) an g) = Ok (hf i)) /\
  if an then stable_analog h else stable_digital h.
Proof.
  destruct stage_band as [h [hf [A [B [D [Z [P L]]]]]]]. rewrite B. cbn [bind]. unfold to_digital. destruct an.
  - exists h, hf. split; [exact A|]. split; [reflexivity|]. split; [|exact P]. intros i Vi. rewrite (D i Vi). reflexivity.
  - rewrite Forall_forall in Z, P.
    destruct (stage_bilinear idx xprec xemax Vx xsz h hf A L 2 (fun i => @two _ (NI i))) as [h' [hf' [A' [B' D']]]].
    { apply Forall_forall. intros c Hc Ec. apply P in Hc. rewrite Ec in Hc. cbn in Hc. lra. }
    { apply Forall_forall. intros c Hc Ec. apply Z in Hc. rewrite Ec in Hc. injection Hc. intros. lra. }
    { exact (napp_intZ idx xprec xemax Vx xsz 2). }
    exists h', hf'. split; [exact A'|]. split; [exact B'|]. split; [intros i Vi; rewrite (D i Vi); cbn [bind]; apply D'; exact Vi|].
    unfold bilinear_zpk_dyn, relative_degree_dyn in B'. destruct (Nat.ltb_spec (length (zk_p h)) (length (zk_z h))); [lia|]. injection B' as <-.
    unfold stable_digital. cbn [zk_p]. apply Forall_forall. intros c Hc. apply in_map_iff in Hc. destruct Hc as [[a b] [<- Hp]]. apply P in Hp. cbn in Hp.
    set (n := (2 * 2 - a) * (2 * 2 - a) + (0 - b) * (0 - b)). assert (N0 : 0 < n) by (unfold n; nra).
    change (cnorm_sqr (((2 * 2 + a) * (2 * 2 - a) + (0 + b) * (0 - b)) / n, ((0 + b) * (2 * 2 - a) - (2 * 2 + a) * (0 - b)) / n) < 1).
    unfold cnorm_sqr, cre, cim. cbn [fst snd nadd nmul RNum].
    replace (_ + _) with (((2 * 2 + a) * (2 * 2 + a) + b * b) / n); [|unfold n in *; field; lra].
    apply (Rmult_lt_reg_r n); [exact N0|]. unfold Rdiv. rewrite Rmult_assoc, Rinv_l by lra. unfold n. nra.
Qed.
End Proto.
End Core.

(** Finitely many facts that hold eventually hold eventually together. *)
Lemma ev_upto {I} pr em (V : I -> Prop) n (Q : nat -> I -> Prop) : (forall k, (k < n)%nat -> ev I pr em V (Q k)) ->
  ev I pr em V (fun i => forall k, (k < n)%nat -> Q k i).
Proof.
  induction n as [|n IH]; intros H; [apply ev_all; intros; lia|].
  eapply ev_impl; [|apply ev_and; [apply IH; intros; apply H; lia|apply (H n); lia]]. cbn beta. intros i _ _ [A B] k Hk.
  destruct (Nat.eq_dec k n) as [->|Nk]; [exact B|apply A; lia].
Qed.
Lemma ev_left {I} pr em (V : I -> Prop) (c : C) f : cnapp I pr em V c f -> cre c < 0 -> ev I pr em V (fun i => cre (cval (f i)) < 0).
Proof.
  intros [A _] H. eapply ev_impl; [|apply (napp_lt I pr em V (fst c) 0 _ _ H A (napp_zero I pr em V false))]. cbn beta. intros i _ _ (_ & _ & L). exact L.
Qed.
Lemma ev_disc {I} pr em (V : I -> Prop) (c : C) f : cnapp I pr em V c f -> cnorm_sqr c < 1 -> ev I pr em V (fun i => cnorm_sqr (cval (f i)) < 1).
Proof.
  intros [[K [HK A]] [L [HL B]]] H. destruct c as [a b]. unfold cnorm_sqr, cre, cim in H. cbn [fst snd nadd nmul RNum] in *.
  set (d := 1 - (a * a + b * b)). assert (D0 : 0 < d) by (unfold d; lra). set (J := K + L). set (M := J + 8 * J / d).
  assert (M0 : 0 <= 8 * J / d) by (apply Rmult_le_pos; [unfold J; lra|left; apply Rinv_0_lt_compat; exact D0]).
  exists M. split; [unfold M, J in *; lra|]. intros i Hi.
  destruct (A i (fmt_mono I pr em V M K i Hi ltac:(unfold M, J in *; lra))) as [_ E1]. destruct (B i (fmt_mono I pr em V M L i Hi ltac:(unfold M, J in *; lra))) as [_ E2].
  destruct (fmt_mono I pr em V M J i Hi ltac:(unfold M; lra)) as (_ & Hpe & Q1). destruct (fmt_mono I pr em V M (8 * J / d) i Hi ltac:(unfold M, J in *; lra)) as (_ & _ & Q2).
  destruct (u_half (pr i) ltac:(lia)) as [U0 _].
  change (fval (fst (f i)) * fval (fst (f i)) + fval (snd (f i)) * fval (snd (f i)) < 1).
  set (u := uround (pr i)) in *. set (p := fval (fst (f i))) in *. set (q := fval (snd (f i))) in *. clearbody p q u.
  set (e := J * u) in *. assert (T : 8 * e <= d).
  { apply (Rmult_le_reg_r (/ d)); [apply Rinv_0_lt_compat; exact D0|]. rewrite Rinv_r by lra. unfold e. replace (8 * (J * u) * / d) with (8 * J / d * u) by (unfold Rdiv; ring). exact Q2. }
  assert (E0 : 0 < e) by (unfold e, J; nra).
  assert (E1' : Rabs (p - a) <= e) by (eapply Rle_trans; [exact E1|]; unfold e, J; nra).
  assert (E2' : Rabs (q - b) <= e) by (eapply Rle_trans; [exact E2|]; unfold e, J; nra).
  clearbody e. apply Raux.Rabs_le_inv in E1'. apply Raux.Rabs_le_inv in E2'.
  assert (Ba : -1 <= a <= 1) by nra. assert (Bb : -1 <= b <= 1) by nra. unfold d in T.
  assert (S1 : p * p <= a * a + 2 * e + e * e).
  { replace (p * p) with (a * a + 2 * (a * (p - a)) + (p - a) * (p - a)) by ring. assert ((p - a) * (p - a) <= e * e) by nra. assert (a * (p - a) <= e) by nra. lra. }
  assert (S2 : q * q <= b * b + 2 * e + e * e).
  { replace (q * q) with (b * b + 2 * (b * (q - b)) + (q - b) * (q - b)) by ring. assert ((q - b) * (q - b) <= e * e) by nra. assert (b * (q - b) <= e) by nra. lra. }
  assert (e * e <= e) by nra. nra.
Qed.

Section Final.
Variables (E w rp : R) (fs : option R) (an : bool).
Hypothesis Hv : valid_edge an w fs.
Notation V := (Vx E w rp fs).
Notation x := (norm_freq w fs).
Lemma edge_fs : match fs with Some s => 0 < s | None => True end.
Proof. unfold valid_edge in Hv. destruct fs; [apply Hv|exact Logic.I]. Qed.
Lemma edge_x : 0 < x.
Proof. unfold valid_edge in Hv. destruct fs; apply Hv. Qed.
Lemma edge_x1 : an = false -> x < 1.
Proof. unfold valid_edge in Hv. destruct fs; intros; apply Hv; assumption. Qed.
Lemma edge_an : an = true -> fs = None.
Proof. intros A. unfold valid_edge in Hv. destruct fs; [destruct Hv as [B _]; congruence|reflexivity]. Qed.

Lemma edge_checks : @nleb R RNum x 0 = false /\ (an = false -> @nleb R RNum 1 x = false).
Proof.
  pose proof edge_x as P. pose proof edge_x1 as P1. generalize dependent x. intros y P P1. cbn [nleb RNum]. unfold Rleb.
  split; [|intros A; specialize (P1 A)]; destruct (Rle_dec _ _); lra || reflexivity.
Qed.
(** The checks of the design, and what comes behind the prototype. *)
Lemma final : ev idx xprec xemax V (fun i =>
  @nleb _ (NI i) (@norm_freq _ (NI i) (xw i) (xfs i)) (@nzero _ (NI i)) = false /\
  (an = false -> @nleb _ (NI i) (@none _ (NI i)) (@norm_freq _ (NI i) (xw i) (xfs i)) = false) /\ (an = true -> xfs i = None)).
Proof.
  apply ev_and; [apply ev_pos; [exact edge_fs|exact edge_x]|]. apply ev_and.
  - destruct (bool_dec an false) as [Ean|Ean]; [|apply ev_all; intros; contradiction].
    eapply ev_impl. 2:{ exact (ev_lt1 E w rp fs edge_fs edge_x (edge_x1 Ean)). }
    cbn beta. intros i _ _ Q _. exact Q.
  - apply ev_all. intros i (_ & _ & _ & O) _ A. rewrite (edge_an A) in O. destruct (xfs i); [destruct O|reflexivity].
Qed.
Variables (bt : FilterBandType) (g : @ZpkFormatFilter R) (gf : idx -> @ZpkFormatFilter spec_float).
Hypothesis HE : 0 <= E.
Hypothesis Hbt : bt = Lowpass \/ bt = Highpass.
Hypothesis Hg : znapp idx xprec xemax V xsz g gf.
Hypothesis Gz : zk_z g = [].
Hypothesis Gp : Forall (fun p => cre p < 0) (zk_p g).
Lemma final_out order out : out <> OutSos -> exists K, 1 <= K /\ forall i, fmt_ok idx xprec xemax V K i -> forall epsr epsf sort, is_sort sort ->
  exists f h,
  (let! g := @band _ (NI i) bt (gf i) (@warped_freq _ (NI i) (xT i) an (@norm_freq _ (NI i) (xw i) (xfs i))) in
   let! g := @to_digital _ (NI i) an g in @emit _ (NI i) (xT i) epsf sort order an out g) = Ok f /\
  (let! g := band bt g (warped_freq an x) in let! g := to_digital an g in emit epsr sort order an out g) = Ok h /\
  filter_within (xprec i) (xemax i) (K * uround (xprec i)) f h /\ (out = OutZpk -> float_stable an f).
Proof.
  intros Ho. destruct (stage_design E w rp fs HE edge_fs edge_x g gf an bt Hg Gz Gp edge_x1 Hbt) as [h [hf [NH [B [D S]]]]].
  assert (BIND : forall A1 A2 B1 (m : res A1) (k : A1 -> res A2) (l : A2 -> res B1), (let! a := m in let! b := k a in l b) = (let! b := (let! a := m in k a) in l b)).
  { intros A1 A2 B1 m k l. destruct m; reflexivity. }
  destruct out; [| |congruence].
  - destruct (stage_tf idx xprec xemax V xsz h hf NH (2 * order)%nat) as [K [HK Q]]. exists K. split; [exact HK|]. intros i Hi epsr epsf sort Hs.
    destruct (Q i Hi sort Hs) as [bf [af [b [a [E1 [E2 [F1 [F2 [W1 W2]]]]]]]]]. exists (DBa (mkBa bf af)), (DBa (mkBa b a)).
    rewrite !BIND, B, (D i (proj1 Hi)). cbn [bind emit]. rewrite E1, E2. split; [reflexivity|]. split; [reflexivity|]. split; [|discriminate].
    cbn [filter_within ba_b ba_a]. auto.
  - pose proof NH as [NZ [NP NK]].
    destruct (zpk_uniform idx xprec xemax V xsz _ _ _ _ _ _ NZ NP NK) as [K [HK Q]].
    assert (ST : ev idx xprec xemax V (fun i => float_stable an (DZpk (hf i)))).
    { destruct NP as [LP NP]. destruct an.
      - eapply ev_impl; [|apply (ev_upto xprec xemax V (length (zk_p h)) (fun k i => cre (cval (nth k (zk_p (hf i)) (@czero _ (NI i)))) < 0))].
        + cbn beta. intros i Vi _ H. unfold float_stable, stable_analog. cbn [zk_p zpk_val]. apply Forall_forall. intros c Hc. apply in_map_iff in Hc. destruct Hc as [p [<- Hp]].
          destruct (In_nth _ _ (@czero _ (NI i)) Hp) as [k [Hk <-]]. apply H. rewrite <- (LP i Vi). exact Hk.
        + intros k Hk. apply (ev_left xprec xemax V (nth k (zk_p h) C0)); [apply NP; exact Hk|]. unfold stable_analog in S. rewrite Forall_forall in S. apply S, nth_In, Hk.
      - eapply ev_impl; [|apply (ev_upto xprec xemax V (length (zk_p h)) (fun k i => cnorm_sqr (cval (nth k (zk_p (hf i)) (@czero _ (NI i)))) < 1))].
        + cbn beta. intros i Vi _ H. unfold float_stable, stable_digital. cbn [zk_p zpk_val]. apply Forall_forall. intros c Hc. apply in_map_iff in Hc. destruct Hc as [p [<- Hp]].
          destruct (In_nth _ _ (@czero _ (NI i)) Hp) as [k [Hk <-]]. apply H. rewrite <- (LP i Vi). exact Hk.
        + intros k Hk. apply (ev_disc xprec xemax V (nth k (zk_p h) C0)); [apply NP; exact Hk|]. unfold stable_digital in S. rewrite Forall_forall in S. apply S, nth_In, Hk. }
    destruct ST as [L [HL ST]]. exists (K + L). split; [lra|]. intros i Hi epsr epsf sort Hs.
    destruct (Q i (fmt_mono idx xprec xemax V (K + L) K i Hi ltac:(lra))) as [FF [W1 [W2 W3]]].
    specialize (ST i (fmt_mono idx xprec xemax V (K + L) L i Hi ltac:(lra))).
    exists (DZpk (hf i)), (DZpk h). rewrite !BIND, B, (D i (proj1 Hi)). cbn [bind emit]. split; [reflexivity|]. split; [reflexivity|]. split; [|intros _; exact ST].
    destruct Hi as (_ & Hpe & _). destruct (u_half (xprec i) ltac:(lia)) as [U0 _].
    assert (LE : K * uround (xprec i) <= (K + L) * uround (xprec i)) by (apply Rmult_le_compat_r; lra).
    assert (MONO : forall l m, Forall2 (cwithin (K * uround (xprec i))) l m -> Forall2 (cwithin ((K + L) * uround (xprec i))) l m).
    { intros l m. induction 1 as [|a b l m [Q1 Q2] _ IH]; constructor; [|exact IH]. split; eapply Rle_trans; eassumption. }
    destruct (hf i) as [zz pp kk], h as [hz hp hk]. split; [exact FF|]. split; [apply MONO; exact W1|]. split; [apply MONO; exact W2|eapply Rle_trans; [exact W3|exact LE]].
Qed.
End Final.


Lemma filter_within_mono prec emax e e' f h : e <= e' -> filter_within prec emax e f h -> filter_within prec emax e' f h.
Proof.
  intros LE W.
  assert (M1 : forall l m, Forall2 (cwithin e) l m -> Forall2 (cwithin e') l m).
  { intros l m. induction 1 as [|a b l m [Q1 Q2] _ IH]; constructor; [|exact IH]. split; eapply Rle_trans; eassumption. }
  assert (M2 : forall l m, Forall2 (fun x y => Rabs (fval x - y) <= e) l m -> Forall2 (fun x y => Rabs (fval x - y) <= e') l m).
  { intros l m. induction 1 as [|a b l m Q _ IH]; constructor; [|exact IH]. eapply Rle_trans; eassumption. }
  destruct f as [f|f|f], h as [h|h|h]; try (exfalso; exact W); cbn [filter_within] in *.
  - destruct W as [F1 [F2 [W1 W2]]]. auto.
  - destruct W as [F [W1 [W2 W3]]]. split; [exact F|]. split; [apply M1; exact W1|]. split; [apply M1; exact W2|]. eapply Rle_trans; [exact W3|exact LE].
Qed.

(** * C102 *)
Theorem C102_butter_rounding (order : nat) (w : R) (fs : option R) (bt : FilterBandType) (analog : option bool) (out : option FilterOutputType) (E : R) :
  (bt = Lowpass \/ bt = Highpass) -> out <> Some OutSos -> valid_edge (unwrap_or analog false) w fs -> 0 <= E ->
  exists K, 1 <= K /\ forall prec emax szero (T : Trans spec_float) epsr epsf sort wf fsf,
  (1 < prec < emax)%Z -> is_sort sort -> accurate_trans prec emax E T ->
  reads prec emax wf w -> reads_opt prec emax fsf fs -> K * uround prec <= 1 ->
  exists f h,
    @butter_dyn _ (SFNum prec emax szero) T epsf sort order [wf] (Some bt) analog out fsf = Ok f /\
    butter_dyn epsr sort order [w] (Some bt) analog out fs = Ok h /\
    filter_within prec emax (K * uround prec) f h /\
    (out = Some OutZpk -> float_stable (unwrap_or analog false) f).
Proof.
  intros Hbt Ho Hv HE. set (an := unwrap_or analog false) in *. set (o := unwrap_or out OutBa).
  assert (Ho' : o <> OutSos) by (unfold o; destruct out as [[]|]; cbn; congruence).
  set (V := Vx E w 0 fs).
  assert (NG : znapp idx xprec xemax V xsz (buttap_dyn order) (fun i => @buttap_dyn _ (NI i) (xT i) order)) by (apply (stage_buttap idx xprec xemax V xsz E HE xT); intros i Vi _; apply Vi).
  assert (Gz : zk_z (@buttap_dyn R RNum RTrans order) = []) by reflexivity.
  assert (Gp : Forall (fun p => cre p < 0) (zk_p (@buttap_dyn R RNum RTrans order))).
  { rewrite buttap_eq. cbn [zk_p]. apply Forall_forall. intros c Hc. apply in_map_iff in Hc. destruct Hc as [k [<- Hk]]. apply in_seq in Hk. apply bp_stable. lia. }
  destruct (final E w 0 fs an Hv) as [K1 [HK1 Q1]].
  destruct (final_out E w 0 fs an Hv bt _ _ HE Hbt NG Gz Gp order o Ho') as [K2 [HK2 Q2]].
  exists (K1 + K2). split; [lra|]. intros prec emax sz T epsr epsf sort wf fsf Hpe Hs HT Rw Rf Hu.
  set (i := mkIdx prec emax sz T wf (S754_zero false) fsf).
  assert (Hi : fmt_ok idx xprec xemax V (K1 + K2) i).
  { split; [|split; [exact Hpe|exact Hu]]. split; [exact HT|]. split; [exact Rw|]. split; [|exact Rf]. split; [split; [reflexivity|exact Logic.I]|reflexivity]. }
  destruct (Q1 i (fmt_mono idx xprec xemax V (K1 + K2) K1 i Hi ltac:(lra))) as [C1 [C2 C3]].
  destruct (Q2 i (fmt_mono idx xprec xemax V (K1 + K2) K2 i Hi ltac:(lra)) epsr epsf sort Hs) as [f [h [E1 [E2 [W S]]]]].
  destruct (edge_checks w fs an Hv) as [R1 R2].
  exists f, h. split; [|split; [|split]].
  - unfold butter_dyn. cbn [unwrap_or]. fold an o. rewrite (@iir_tail _ (SFNum prec emax sz) T epsf sort order wf None bt Butterworth (Some an) (Some o) fsf (@buttap_dyn _ (SFNum prec emax sz) T order)); [exact E1|exact Hbt|exact C3|exact C1|exact C2|].
    left. auto.
  - unfold butter_dyn. cbn [unwrap_or]. fold an o. rewrite (@iir_tail _ RNum RTrans epsr sort order w None bt Butterworth (Some an) (Some o) fs (buttap_dyn order)); [exact E2|exact Hbt|exact (edge_an w fs an Hv)|exact R1|exact R2|].
    left. auto.
  - eapply filter_within_mono; [|exact W]. destruct (u_half prec ltac:(lia)). apply Rmult_le_compat_r; cbn [xprec i]; unfold i; cbn [xprec]; lra.
  - intros ->. apply S. reflexivity.
Qed.
Print Assumptions C102_butter_rounding.

Theorem C102_cheby1_rounding (order : nat) (rp : R) (w : R) (fs : option R) (bt : FilterBandType) (analog : option bool) (out : option FilterOutputType) (E : R) :
  (bt = Lowpass \/ bt = Highpass) -> out <> Some OutSos -> valid_edge (unwrap_or analog false) w fs -> 0 < rp -> 0 <= E ->
  exists K, 1 <= K /\ forall prec emax szero (T : Trans spec_float) epsr epsf sort rpf wf fsf,
  (1 < prec < emax)%Z -> is_sort sort -> accurate_trans prec emax E T ->
  reads prec emax rpf rp -> reads prec emax wf w -> reads_opt prec emax fsf fs -> K * uround prec <= 1 ->
  exists f h,
    @cheby1_dyn _ (SFNum prec emax szero) T epsf sort order rpf [wf] (Some bt) analog out fsf = Ok f /\
    cheby1_dyn epsr sort order rp [w] (Some bt) analog out fs = Ok h /\
    filter_within prec emax (K * uround prec) f h /\
    (out = Some OutZpk -> float_stable (unwrap_or analog false) f).
Proof.
  intros Hbt Ho Hv Hr HE. set (an := unwrap_or analog false) in *. set (o := unwrap_or out OutBa).
  assert (Ho' : o <> OutSos) by (unfold o; destruct out as [[]|]; cbn; congruence).
  set (V := Vx E w rp fs).
  assert (NG : znapp idx xprec xemax V xsz (cheb1ap_dyn order rp) (fun i => @cheb1ap_dyn _ (NI i) (xT i) order (xrp i))).
  { apply (stage_cheb1ap idx xprec xemax V xsz E HE xT); [intros i Vi _; apply Vi|exact Hr|apply napp_rp]. }
  assert (Gz : zk_z (@cheb1ap_dyn R RNum RTrans order rp) = []) by (destruct order; reflexivity).
  assert (Gp : Forall (fun p => cre p < 0) (zk_p (@cheb1ap_dyn R RNum RTrans order rp))).
  { destruct order as [|n]; [constructor|]. rewrite cheb1ap_eq by (assumption || lia). cbn [zk_p]. apply Forall_forall. intros c Hc. apply in_map_iff in Hc. destruct Hc as [k [<- Hk]]. apply in_seq in Hk.
    apply cp_stable; [lia|apply eps1_pos; exact Hr|lia]. }
  destruct (final E w rp fs an Hv) as [K1 [HK1 Q1]].
  destruct (final_out E w rp fs an Hv bt _ _ HE Hbt NG Gz Gp order o Ho') as [K2 [HK2 Q2]].
  exists (K1 + K2). split; [lra|]. intros prec emax sz T epsr epsf sort rpf wf fsf Hpe Hs HT Rr Rw Rf Hu.
  set (i := mkIdx prec emax sz T wf rpf fsf).
  assert (Hi : fmt_ok idx xprec xemax V (K1 + K2) i).
  { split; [|split; [exact Hpe|exact Hu]]. split; [exact HT|]. split; [exact Rw|]. split; [|exact Rf]. exact Rr. }
  destruct (Q1 i (fmt_mono idx xprec xemax V (K1 + K2) K1 i Hi ltac:(lra))) as [C1 [C2 C3]].
  destruct (Q2 i (fmt_mono idx xprec xemax V (K1 + K2) K2 i Hi ltac:(lra)) epsr epsf sort Hs) as [f [h [E1 [E2 [W S]]]]].
  destruct (edge_checks w fs an Hv) as [R1 R2].
  exists f, h. split; [|split; [|split]].
  - unfold cheby1_dyn. rewrite (@iir_tail _ (SFNum prec emax sz) T epsf sort order wf (Some rpf) bt ChebyshevI analog out fsf (@cheb1ap_dyn _ (SFNum prec emax sz) T order rpf)); [exact E1|exact Hbt|exact C3|exact C1|exact C2|].
    right. exists rpf. split; [reflexivity|]. split; [reflexivity|]. split; [|reflexivity]. destruct Rr as [Fr Er].
    change (SFltb rpf (S754_zero false) = false). rewrite (ltb_fval prec emax rpf (S754_zero false) Fr (conj eq_refl Logic.I)). rewrite Er. unfold Rltb. cbn [fval]. destruct (Rlt_dec _ _); [lra|reflexivity].
  - unfold cheby1_dyn. rewrite (@iir_tail _ RNum RTrans epsr sort order w (Some rp) bt ChebyshevI analog out fs (cheb1ap_dyn order rp)); [exact E2|exact Hbt|exact (edge_an w fs an Hv)|exact R1|exact R2|].
    right. exists rp. split; [reflexivity|]. split; [reflexivity|]. split; [|reflexivity]. cbn [nltb RNum nzero]. unfold Rltb. destruct (Rlt_dec _ _); [lra|reflexivity].
  - eapply filter_within_mono; [|exact W]. destruct (u_half prec ltac:(lia)). apply Rmult_le_compat_r; cbn [xprec i]; unfold i; cbn [xprec]; lra.
  - intros ->. apply S. reflexivity.
Qed.
Print Assumptions C102_cheby1_rounding.

(** ** Accurate libraries exist: round the exact value *)
Section Library.
Variables prec emax : Z.
Hypothesis Hpe : (1 < prec < emax)%Z.
Notation fx := (FLT_exp (SpecFloat.emin prec emax) prec).
Notation rnd := (round radix2 fx ZnearestE).
Definition rounded (v : R) : spec_float :=
  SpecFloat.binary_normalize prec emax (Ztrunc (scaled_mantissa radix2 fx (rnd v))) (Generic_fmt.cexp radix2 fx (rnd v)) false.
Lemma rounded_ok v : Rabs v <= fmax prec emax -> finite prec emax (rounded v) /\ fval (rounded v) = rnd v.
Proof.
  intros B. assert (Hp : Prec_gt_0 prec) by (unfold Prec_gt_0; lia). assert (He : Prec_lt_emax prec emax) by (unfold Prec_lt_emax; lia).
  unfold rounded. rewrite (normalize_equiv prec emax Hp He).
  pose proof (binary_normalize_correct prec emax Hp He mode_NE (Ztrunc (scaled_mantissa radix2 fx (rnd v))) (Generic_fmt.cexp radix2 fx (rnd v)) false) as C. cbv zeta in C.
  assert (G : generic_format radix2 fx (rnd v)) by (apply generic_format_round; [apply FLT_exp_valid; exact Hp|apply valid_rnd_N]).
  assert (EQ : F2R (Float radix2 (Ztrunc (scaled_mantissa radix2 fx (rnd v))) (Generic_fmt.cexp radix2 fx (rnd v))) = rnd v) by (symmetry; exact G).
  rewrite EQ in C.
  assert (RR : rnd (rnd v) = rnd v) by (apply round_generic; [apply valid_rnd_N|exact G]).
  change (round radix2 (SpecFloat.fexp prec emax) (round_mode mode_NE) (rnd v)) with (rnd (rnd v)) in C. rewrite RR in C.
  rewrite Rlt_bool_true in C by (apply rnd_bound; assumption). destruct C as [C1 [C2 _]].
  destruct (B_finite prec emax _ C2) as [D1 D2]. split; [exact D1|]. rewrite D2, C1. reflexivity.
Qed.
Lemma rounded_accurate f dom : accurate prec emax 5 (fun x => rounded (f (fval x))) f dom.
Proof.
  intros x _ _ B. pose proof (Rabs_pos (f (fval x))) as P. destruct (rounded_ok (f (fval x)) ltac:(lra)) as [F W]. split; [exact F|]. rewrite W.
  pose proof (rnd_err prec emax ltac:(unfold Prec_gt_0; lia) (f (fval x))) as Q. pose proof (tiny_le_u prec emax Hpe) as T. destruct (u_half prec ltac:(lia)) as [U0 _].
  eapply Rle_trans; [exact Q|]. nra.
Qed.
Definition rounding_library : Trans spec_float := {|
  texp := fun x => rounded (exp (fval x)); tsin := fun x => rounded (sin (fval x)); tcos := fun x => rounded (cos (fval x));
  ttan := fun x => rounded (tan (fval x)); tsinh := fun x => rounded (sinh (fval x)); tcosh := fun x => rounded (cosh (fval x));
  tasinh := fun x => rounded (arcsinh (fval x)); tpowf := fun b x => rounded (Rpower (fval b) (fval x)); tpi := rounded PI;
  thypot := fun x y => rounded (sqrt (fval x * fval x + fval y * fval y)); tatan2 := fun y x => rounded (Ratan2 (fval y) (fval x));
  tsignpos := fun x => Rleb 0 (fval x) |}.
Lemma rounding_library_accurate : accurate_trans prec emax 5 rounding_library.
Proof.
  constructor; try (apply rounded_accurate); [|intros b _ _; apply (rounded_accurate (Rpower (fval b)))| | |reflexivity].
  2: { intros x _. apply (rounded_accurate (fun y => sqrt (fval x * fval x + y * y))). }
  2: { intros x _ _. apply (rounded_accurate (fun y => Ratan2 y (fval x))). }
  pose proof PI_4. pose proof PI_RGT_0. pose proof (small_fmax _ _ Hpe).
  destruct (rounded_ok PI) as [F W]; [rewrite Rabs_right by lra; lra|]. split; [exact F|]. cbn [tpi rounding_library]. rewrite W.
  pose proof (rnd_err prec emax ltac:(unfold Prec_gt_0; lia) PI) as Q. rewrite (Rabs_right PI) in Q by lra.
  pose proof (tiny_le_u prec emax Hpe) as T. destruct (u_half prec ltac:(lia)) as [U0 _]. eapply Rle_trans; [exact Q|]. nra.
Qed.
End Library.

(** Order any, edge 1 at sampling rate 4, ripple 1: both theorems apply to formats of any
    precision asked for, with a library of accuracy 5. *)
Example C102_hyp_met : valid_edge false 1 (Some 4) /\ forall K, exists prec emax T wf fsf, (1 < prec < emax)%Z /\
  accurate_trans prec emax 5 T /\ reads prec emax wf 1 /\ reads_opt prec emax (Some fsf) (Some 4) /\ K * uround prec <= 1.
Proof.
  split; [cbn; repeat split; lra|]. intros K. destruct (fine_format K) as [prec [emax [Hpe Hu]]].
  exists prec, emax, (rounding_library prec emax), (SpecFloat.binary_normalize prec emax 1 0 false), (SpecFloat.binary_normalize prec emax 4 0 false).
  split; [exact Hpe|]. split; [apply rounding_library_accurate; exact Hpe|]. split; [apply small_int; [exact Hpe|lia]|]. split; [|exact Hu].
  apply (fofZ_ok prec emax ltac:(unfold Prec_gt_0; lia) ltac:(unfold Prec_lt_emax; lia) 4).
  - cbn [Z.abs]. change 4%Z with (2 ^ 2)%Z. apply Z.pow_le_mono_r; lia.
  - cbn [Z.abs]. apply small_fmax. exact Hpe.
Qed.
