(** Designs of sections in floats, and filtering with them. *)
From Coq Require Import Reals ZArith SpecFloat List Lia Lra Bool Permutation Sorted Classical.
From Flocq Require Import Core BinarySingleNaN.
From Verif Require Import Base Num Trans M_Complex M_Filter M_Design Cx S_Design S_Filter S_Stable S_Float S_FloatFft S_FloatZpk S_FloatTrans S_FloatSos
  P_Float P_FloatStats P_Sosfilt P_Poly P_Lp P_Proto P_Cheb P_Sos P_Stable P_FloatMed P_FloatI0 P_FloatZi P_FloatPoly T_FloatPoly P_FloatDesign T_FloatDesign P_FloatBand T_FloatBand P_FloatFilt T_FloatFilt
  P_FloatSym P_FloatMate P_FloatSos P_FloatPipe T_Sos P_Unique T_Unique P_FloatSosCore.
Import ListNotations.
Local Open Scope R_scope.
Notation NI i := (SFNum (xprec i) (xemax i) (xsz i)).

(** ** The design *)
Section Design.
Variables (E w rp : R) (fs : option R).
Hypothesis HE : 0 <= E.
Hypothesis Hv : valid_edge false w fs.
Definition Vs (i : idx) : Prop := Vx E w rp fs i /\ symmetric_trans (xprec i) (xemax i) (xT i).
Lemma Vs_x i : Vs i -> Vx E w rp fs i.
Proof. intros H. apply H. Qed.
Lemma Vs_acc i : Vs i -> (1 < xprec i < xemax i)%Z -> accurate_trans (xprec i) (xemax i) E (xT i).
Proof. intros [H _] _. apply H. Qed.
Lemma Vs_sym i : Vs i -> (1 < xprec i < xemax i)%Z -> symmetric_trans (xprec i) (xemax i) (xT i).
Proof. intros [_ H] _. exact H. Qed.
Notation napp := (napp idx xprec xemax Vs).
Notation znapp := (znapp idx xprec xemax Vs xsz).
Notation zmate := (zmate idx xprec xemax Vs xsz).
Lemma napp_rps : napp rp xrp.
Proof. exact (napp_pull (fun i => i) xprec xemax _ Vs _ _ Vs_x (napp_rp E w rp fs)). Qed.
Let wa : R := warped_freq false (norm_freq w fs).
Let waf (i : idx) : spec_float := @warped_freq _ (NI i) (xT i) false (@norm_freq _ (NI i) (xw i) (xfs i)).
Lemma wa_pos' : 0 < wa.
Proof. apply wa_pos; [exact (edge_x w fs false Hv)|exact (edge_x1 w fs false Hv)]. Qed.
Lemma napp_was : napp wa waf.
Proof. exact (napp_pull (fun i => i) xprec xemax _ Vs _ _ Vs_x (napp_wa E w rp fs HE (edge_fs w fs false Hv) (edge_x w fs false Hv) false (edge_x1 w fs false Hv))). Qed.

Variables (g : @ZpkFormatFilter R) (gf : idx -> @ZpkFormatFilter spec_float) (bt : FilterBandType).
Hypothesis Hbt : bt = Lowpass \/ bt = Highpass.
Hypothesis Hg : znapp g gf.
Hypothesis Hm : zmate g gf.
Hypothesis Gz : zk_z g = [].
Hypothesis Gp : Forall (fun p => cre p < 0) (zk_p g).
Lemma sos_band : exists h hf, znapp h hf /\ zmate h hf /\ band bt g wa = Ok h /\ (forall i, Vs i -> @band _ (NI i) bt (gf i) (waf i) = Ok (hf i)) /\
  Forall (fun z => z = C0) (zk_z h) /\ Forall (fun p => cre p < 0) (zk_p h) /\ (length (zk_z h) <= length (zk_p h))%nat.
Proof.
  assert (Hd : (length (zk_z g) <= length (zk_p g))%nat) by (rewrite Gz; cbn; lia). pose proof wa_pos' as W. rewrite Forall_forall in Gp. destruct Hbt as [-> | ->].
  - destruct (stage_lp2lp idx xprec xemax Vs xsz g gf Hg Hd wa waf napp_was) as [h [hf [A [B D]]]]. exists h, hf. split; [exact A|].
    split; [exact (mate_lp2lp idx xprec xemax Vs xsz g h gf hf Hm Hd wa waf ltac:(lra) napp_was B D)|]. split; [exact B|]. split; [exact D|].
    unfold lp2lp_zpk_dyn, relative_degree_dyn in B. rewrite Gz in B. cbn [length Nat.ltb Nat.leb bind map] in B. injection B as <-. cbn [zk_z zk_p].
    split; [constructor|]. split; [|cbn; lia]. apply Forall_forall. intros c Hc. apply in_map_iff in Hc. destruct Hc as [p [<- Hp]]. apply Gp in Hp.
    change (cre p * wa - cim p * 0 < 0). nra.
  - assert (N0 : Forall (fun c => c <> C0) (zk_p g)) by (apply Forall_forall; intros c Hc Ec; apply Gp in Hc; rewrite Ec in Hc; cbn in Hc; lra).
    destruct (stage_lp2hp idx xprec xemax Vs xsz g gf Hg Hd wa waf) as [h [hf [A [B D]]]]; [rewrite Gz; exact N0|exact napp_was|].
    exists h, hf. split; [exact A|]. split; [exact (mate_lp2hp idx xprec xemax Vs xsz g h gf hf Hm Hd wa waf ltac:(lra) Gz N0 napp_was B D)|]. split; [exact B|]. split; [exact D|].
    unfold lp2hp_zpk_dyn, relative_degree_dyn in B. rewrite Gz in B. cbn [length Nat.ltb Nat.leb bind map app] in B. injection B as <-. cbn [zk_z zk_p].
    split; [|split].
    + apply Forall_forall. intros c Hc. apply repeat_spec in Hc. exact Hc.
    + apply Forall_forall. intros c Hc. apply in_map_iff in Hc. destruct Hc as [p [<- Hp]]. apply Gp in Hp.
      change ((wa * cre p + 0 * cim p) / (cre p * cre p + cim p * cim p) < 0). assert (D0 : 0 < cre p * cre p + cim p * cim p) by nra.
      apply (Rmult_lt_reg_r (cre p * cre p + cim p * cim p)); [exact D0|]. unfold Rdiv. rewrite Rmult_assoc, Rinv_l by lra. nra.
    + rewrite repeat_length, map_length. lia.
Qed.
Lemma sos_digital : exists h hf, znapp h hf /\ zmate h hf /\ (let! g := band bt g wa in to_digital false g) = Ok h /\
  (forall i, Vs i -> (let! g := @band _ (NI i) bt (gf i) (waf i) in @to_digital _ (NI i) false g) = Ok (hf i)).
Proof.
  destruct sos_band as (h & hf & A & M & B & D & Z & P & L). rewrite B. cbn [bind]. unfold to_digital. rewrite Forall_forall in Z, P.
  assert (HP : Forall (fun c => c <> (2 * 2, 0)) (zk_p h)) by (apply Forall_forall; intros c Hc Ec; apply P in Hc; rewrite Ec in Hc; cbn in Hc; lra).
  assert (HZ : Forall (fun c => c <> (2 * 2, 0)) (zk_z h)) by (apply Forall_forall; intros c Hc Ec; apply Z in Hc; rewrite Ec in Hc; injection Hc; intros; lra).
  pose proof (napp_intZ idx xprec xemax Vs xsz 2) as N2.
  destruct (stage_bilinear idx xprec xemax Vs xsz h hf A L 2 (fun i => @two _ (NI i)) HP HZ N2) as [h' [hf' [A' [B' D']]]].
  exists h', hf'. split; [exact A'|]. split; [exact (mate_bilinear idx xprec xemax Vs xsz h h' hf hf' M L 2 (fun i => @two _ (NI i)) ltac:(lra) HP HZ N2 B' D')|].
  split; [exact B'|]. intros i Vi. rewrite (D i Vi). cbn [bind]. apply D'. exact Vi.
Qed.

Variable h : @ZpkFormatFilter R.
Hypothesis Hh : (let! g := band bt g wa in to_digital false g) = Ok h.
Hypothesis Rh : real_filter h.
Hypothesis Sh : stable_digital h.
Hypothesis Lh : length (zk_z h) = length (zk_p h).
Let L : nat := Nat.max 1 ((length (zk_p h) + 1) / 2).
Definition float_sections i sort order : res (@DigitalFilter spec_float) :=
  let! g := @band _ (NI i) bt (gf i) (waf i) in let! g := @to_digital _ (NI i) false g in @emit _ (NI i) (xT i) (machine_eps (xprec i)) sort order false OutSos g.
Lemma sections_emitted hf : (forall i, Vs i -> (let! g := @band _ (NI i) bt (gf i) (waf i) in @to_digital _ (NI i) false g) = Ok (hf i)) ->
  forall i sort order, Vs i -> float_sections i sort order = emitted idx xprec xemax xsz xT hf i sort order.
Proof. intros D i sort order Vi. unfold float_sections. rewrite <- bind_assoc, (D i Vi). reflexivity. Qed.
Lemma sos_core : exists K r C, 1 <= K /\ 0 <= r < 1 /\ 1 <= C /\ forall i, fmt_ok idx xprec xemax Vs K i -> forall sort order, is_list_sort sort ->
  exists sf sr, float_sections i sort order = Ok (DSos sf) /\ length sr = L /\ realises sr h /\ stable_sections sr /\
    Forall2 (sos_within (xprec i) (xemax i) (K * uround (xprec i))) sf sr /\ Forall (poles_within r) sr /\ Forall (coef_le C) sr /\ stable_sections (map sos_val sf).
Proof.
  destruct sos_digital as (h' & hf & A & M & B & D). assert (h' = h) by congruence. subst h'. clear B.
  destruct (core_sos idx xprec xemax xsz E HE xT Vs Vs_acc Vs_sym h hf A M Rh Sh Lh) as (K & r & C & HK & Hr & HC & Q). exists K, r, C. split; [exact HK|]. split; [exact Hr|]. split; [exact HC|].
  intros i Hi sort order Hs. rewrite (sections_emitted hf D i sort order (proj1 Hi)). exact (Q i Hi sort order Hs).
Qed.
Lemma pipe_core : exists K, 1 <= K /\ forall i, fmt_ok idx xprec xemax Vs K i -> forall sort order, is_list_sort sort ->
  exists sf, float_sections i sort order = Ok (DSos sf) /\ forall x X, Forall (finite (xprec i) (xemax i)) x -> 0 <= X -> Forall (fun v => Rabs (fval v) <= X) x -> K * (X + ftiny (xprec i) (xemax i)) <= fmax (xprec i) (xemax i) ->
  exists yf lf', @sosfilt_dyn _ (NI i) x sf = Ok (yf, lf') /\ length yf = length x /\ Forall (finite (xprec i) (xemax i)) yf /\
  forall l, realises l h -> exists y l', sosfilt_dyn (map fval x) l = Ok (y, l') /\ length y = length x /\
    forall n, (n < length x)%nat -> Rabs (fval (nth n yf (S754_zero false)) - nth n y 0) <= K * (uround (xprec i) * X + ftiny (xprec i) (xemax i)).
Proof.
  destruct sos_digital as (h' & hf & A & M & B & D). assert (h' = h) by congruence. subst h'. clear B.
  destruct (core_pipe idx xprec xemax xsz E HE xT Vs Vs_acc Vs_sym h hf A M Rh Sh Lh) as (K & HK & Q). exists K. split; [exact HK|].
  intros i Hi sort order Hs. rewrite (sections_emitted hf D i sort order (proj1 Hi)). exact (Q i Hi sort order Hs).
Qed.
End Design.
