(** The complex square root of conjugate floats is conjugate, off the real axis, when the
    library of functions is symmetric. *)
From Coq Require Import Reals Ratan ZArith SpecFloat List Lia Lra Bool Permutation.
From Flocq Require Import Core BinarySingleNaN.
From Verif Require Import Base Num Trans M_Complex M_Filter M_Design Cx S_Design S_Filter S_Float S_FloatFft S_FloatZpk S_FloatTrans S_FloatSos
  P_Float P_FloatStats P_Sqrt P_Poly P_Lp P_Proto P_Stable P_Zi P_FloatI0 P_FloatZi P_FloatPoly T_FloatPoly P_FloatDesign P_FloatResponse P_FloatSqrt P_FloatSym P_FloatMate.
Import ListNotations.
Local Open Scope R_scope.

Lemma ev_cond {I} pr em (V : I -> Prop) (b : I -> bool) (P : I -> Prop) : ev I pr em (fun i => V i /\ b i = true) P -> ev I pr em V (fun i => b i = true -> P i).
Proof. intros [K [HK H]]. exists K. split; [exact HK|]. intros i (Vi & Hpe & HU) B. apply H. split; [split; assumption|]. split; assumption. Qed.
Lemma vapp_fin {I} pr em (V : I -> Prop) c f : vapp I pr em V c f -> ev I pr em V (fun i => finite (pr i) (em i) (f i)).
Proof. intros [K [HK H]]. exists K. split; [exact HK|]. intros i Hi. apply H. exact Hi. Qed.

Section Root.
Variable I : Type.
Variables pr em : I -> Z.
Variable sz : I -> bool.
Variable E : R.
Hypothesis HE : 0 <= E.
Variable T : I -> Trans spec_float.
Notation NF i := (SFNum (pr i) (em i) (sz i)).
Notation tw i := (SFadd (pr i) (em i) (SpecFloat.binary_normalize (pr i) (em i) 1 0 false) (SpecFloat.binary_normalize (pr i) (em i) 1 0 false)).
Variable V : I -> Prop.
Hypothesis HT : forall i, V i -> (1 < pr i < em i)%Z -> accurate_trans (pr i) (em i) E (T i).
Hypothesis HS : forall i, V i -> (1 < pr i < em i)%Z -> symmetric_trans (pr i) (em i) (T i).

(** What the polar branch computes is finite on the way. *)
Definition polar_fin (i : I) (z : cplx spec_float) : Prop :=
  let hy := @thypot _ (T i) (cre z) (cim z) in let an := @tatan2 _ (T i) (cim z) (cre z) in
  let th := SFdiv (pr i) (em i) an (tw i) in
  finite (pr i) (em i) hy /\ finite (pr i) (em i) an /\ finite (pr i) (em i) th /\ finite (pr i) (em i) (@tcos _ (T i) th) /\ finite (pr i) (em i) (@tsin _ (T i) th).
Definition half_abs (i : I) (z : cplx spec_float) : spec_float := SFdiv (pr i) (em i) (SFabs (cim z)) (tw i).
Lemma ev_polar (c : C) (zf : I -> cplx spec_float) : c <> C0 -> cnapp I pr em V c zf ->
  ev I pr em V (fun i => cfinite (pr i) (em i) (zf i) /\ finite (pr i) (em i) (half_abs i (zf i)) /\ (fval (cre (zf i)) <> 0 -> fval (cim (zf i)) <> 0 -> polar_fin i (zf i))).
Proof.
  intros Hc Nc. destruct (ev_r I pr em V c zf Hc Nc) as [d [M [Hd ER]]].
  set (x := fun i => fval (cre (zf i))). set (y := fun i => fval (cim (zf i))). set (r := fun i => sqrt (x i * x i + y i * y i)).
  set (b := fun i => negb (Reqb (x i) 0) && negb (Reqb (y i) 0)).
  assert (NB : forall i, b i = true <-> x i <> 0 /\ y i <> 0).
  { intros i. unfold b, Reqb. destruct (Req_EM_T (x i) 0), (Req_EM_T (y i) 0); cbn; split; intros Q; try discriminate; try tauto. }
  set (W := fun i => V i /\ b i = true). assert (S : forall i, W i -> V i) by (intros i [A _]; exact A).
  assert (PW : ev I pr em W (fun i => polar_fin i (zf i))).
  { pose proof (ev_shrink pr em V W _ S ER) as ERW. pose proof PI_RGT_0 as PI0. pose proof PI_4 as PI4.
    set (hy := fun i => @thypot _ (T i) (cre (zf i)) (cim (zf i))). set (an := fun i => @tatan2 _ (T i) (cim (zf i)) (cre (zf i))).
    assert (VH : vapp I pr em W r hy).
    { apply (vapp_acc I pr em W E (fun i => @thypot _ (T i) (cre (zf i))) (fun i v => sqrt (x i * x i + v * v)) anywhere M (fun i => cim (zf i)) HE).
      eapply ev_impl; [|exact ERW]. cbn beta. intros i Wi Hpe [F1 [F2 [R1 R2]]]. split; [apply (acc_hypot _ _ _ _ (HT i (S i Wi) Hpe)); exact F1|]. split; [exact F2|]. split; [exact Logic.I|].
      change (Rabs (r i) <= M). rewrite Rabs_right by (unfold r, x, y; lra). exact R2. }
    assert (VA : vapp I pr em W (fun i => Ratan2 (y i) (x i)) an).
    { apply (vapp_acc I pr em W E (fun i v => @tatan2 _ (T i) v (cre (zf i))) (fun i v => Ratan2 v (x i)) (fun v => v <> 0) PI (fun i => cim (zf i)) HE).
      eapply ev_impl; [|exact ERW]. cbn beta. intros i [Vi B] Hpe [F1 [F2 [R1 R2]]]. apply NB in B. destruct B as [B1 B0].
      split; [apply (acc_atan2 _ _ _ _ (HT i Vi Hpe)); assumption|]. split; [exact F2|]. split; [exact B0|].
      destruct (atan2_polar (x i) (y i) (or_introl B1)) as [_ [_ [B _]]]. fold (y i). apply Rabs_le. lra. }
    pose proof (vapp_half I pr em W _ _ VA) as VT.
    set (th := fun i => SFdiv (pr i) (em i) (an i) (tw i)) in VT.
    assert (DOM : ev I pr em W (fun i => Rabs (fval (th i)) <= 2)).
    { destruct VT as [K [HK H]]. destruct ERW as [L [HL G]]. set (e := 2 - PI / 2). assert (E0 : 0 < e) by (unfold e; pose proof PI_lt_4; lra).
      exists (K + L + K / e). assert (0 <= K / e) by (apply Rmult_le_pos; [lra|left; apply Rinv_0_lt_compat; exact E0]). split; [lra|]. intros i Hi.
      destruct (H i (fmt_mono I pr em W _ K i Hi ltac:(lra))) as [_ [B _]]. destruct (fmt_mono I pr em W _ (K / e) i Hi ltac:(lra)) as (Wi & _ & HU).
      assert (Q : K * uround (pr i) <= e) by (apply (Rmult_le_reg_r (/ e)); [apply Rinv_0_lt_compat; exact E0|]; rewrite Rinv_r by lra; replace (K * uround (pr i) * / e) with (K / e * uround (pr i)) by (unfold Rdiv; ring); exact HU).
      destruct Wi as [_ B1]. apply NB in B1. destruct (atan2_polar (x i) (y i) (or_introl (proj1 B1))) as [_ [_ [BB _]]].
      apply Raux.Rabs_le_inv in B. apply Rabs_le. unfold e in Q. lra. }
    assert (VC : vapp I pr em W (fun i => cos (Ratan2 (y i) (x i) / 2)) (fun i => @tcos _ (T i) (th i))).
    { apply (vapp_lip I pr em W E (fun i => @tcos _ (T i)) cos (fun v => Rabs v <= 2) 1 (fun i => Ratan2 (y i) (x i) / 2) th HE Rle_0_1); [|apply cos_lip| |exact DOM|exact VT].
      - apply ev_all. intros i Wi Hpe. apply (acc_cos _ _ _ _ (HT i (S i Wi) Hpe)).
      - intros a. apply Rabs_le, COS_bound. }
    assert (VN : vapp I pr em W (fun i => sin (Ratan2 (y i) (x i) / 2)) (fun i => @tsin _ (T i) (th i))).
    { apply (vapp_lip I pr em W E (fun i => @tsin _ (T i)) sin (fun v => Rabs v <= 2) 1 (fun i => Ratan2 (y i) (x i) / 2) th HE Rle_0_1); [|apply sin_lip| |exact DOM|exact VT].
      - apply ev_all. intros i Wi Hpe. apply (acc_sin _ _ _ _ (HT i (S i Wi) Hpe)).
      - intros a. apply Rabs_le, SIN_bound. }
    eapply ev_impl; [|exact (ev_and _ _ _ _ _ _ (vapp_fin pr em W _ _ VH) (ev_and _ _ _ _ _ _ (vapp_fin pr em W _ _ VA) (ev_and _ _ _ _ _ _ (vapp_fin pr em W _ _ VT) (ev_and _ _ _ _ _ _ (vapp_fin pr em W _ _ VC) (vapp_fin pr em W _ _ VN)))))].
    cbn beta. intros i _ _ H. exact H. }
  pose proof (vapp_fin pr em V _ _ (vapp_half I pr em V _ _ (vapp_abs I pr em V _ _ (vapp_self I pr em V _ _ (proj2 Nc))))) as HA.
  apply ev_cond in PW. eapply ev_impl; [|exact (ev_and _ _ _ _ _ _ (ev_and _ _ _ _ _ _ ER HA) PW)]. cbn beta. intros i _ _ [[[F1 [F2 _]] HA'] P]. split; [split; assumption|]. split; [exact HA'|]. intros X Y. apply P, NB. split; assumption.
Qed.

(** One format: the roots of two conjugate floats off the real axis. *)
Lemma csqrt_conj i z z' : V i -> (1 < pr i < em i)%Z -> finite (pr i) (em i) (tw i) -> fval (tw i) = 2 -> cfinite (pr i) (em i) z -> cfinite (pr i) (em i) z' -> cval z' = cconj (cval z) -> fval (cim z) <> 0 ->
  finite (pr i) (em i) (half_abs i z) ->
  (fval (cre z) <> 0 -> fval (cim z) <> 0 -> polar_fin i z) -> (fval (cre z') <> 0 -> fval (cim z') <> 0 -> polar_fin i z') ->
  cfinite (pr i) (em i) (@csqrt _ (NF i) (T i) z) ->
  cval (@csqrt _ (NF i) (T i) z') = cconj (cval (@csqrt _ (NF i) (T i) z)).
Proof.
  intros Vi Hpe F2 V2 [Fx Fy] [Fx' Fy'] EV NY FA P P'. assert (EX : fval (cre z') = fval (cre z)) by exact (f_equal fst EV). assert (EY : fval (cim z') = - fval (cim z)) by exact (f_equal snd EV).
  assert (N2 : fval (tw i) <> 0) by (rewrite V2; lra).
  assert (Hp : Prec_gt_0 (pr i)) by (unfold Prec_gt_0; lia). assert (He : Prec_lt_emax (pr i) (em i)) by (unfold Prec_lt_emax; lia).
  assert (NY' : fval (cim z') <> 0) by (rewrite EY; lra). unfold csqrt.
  rewrite (eqb0 I pr em sz i (cim z) Hpe Fy), (eqb0 I pr em sz i (cim z') Hpe Fy'), (eqb0 I pr em sz i (cre z) Hpe Fx), (eqb0 I pr em sz i (cre z') Hpe Fx'), EX.
  assert (B0 : Reqb (fval (cim z)) 0 = false) by (unfold Reqb; destruct (Req_EM_T (fval (cim z)) 0); [contradiction|reflexivity]).
  assert (B0' : Reqb (fval (cim z')) 0 = false) by (unfold Reqb; destruct (Req_EM_T (fval (cim z')) 0); [contradiction|reflexivity]).
  rewrite B0, B0'. destruct (Reqb (fval (cre z)) 0) eqn:B1.
  - intros _. rewrite (acc_sign _ _ _ _ (HT i Vi Hpe) _ Fy NY), (acc_sign _ _ _ _ (HT i Vi Hpe) _ Fy' NY').
    assert (M : fval (SFsqrt (pr i) (em i) (half_abs i z')) = fval (SFsqrt (pr i) (em i) (half_abs i z))).
    { destruct (fabs_val (pr i) (em i) _ Fy) as [A1 A2]. destruct (fabs_val (pr i) (em i) _ Fy') as [A1' A2'].
      assert (MA : mate (pr i) (em i) false (SFabs (cim z)) (SFabs (cim z'))) by (split; [exact A1'|]; rewrite A2, A2', EY, Rabs_Ropp; unfold sg; ring).
      assert (MD : mate (pr i) (em i) false (half_abs i z) (half_abs i z')) by (apply (mate_div (pr i) (em i) Hp He false false); [exact A1|exact F2|exact N2|exact FA|exact MA|apply mate_self; exact F2]).
      apply (mate_sqrt (pr i) (em i) Hp He) in MD; [|exact FA|]; [destruct MD as [_ ->]; unfold sg; ring|].
      destruct (fdiv_char (pr i) (em i) _ _ _ (tw i) A1 F2 N2) as [_ Q]. unfold half_abs. rewrite (Q FA), A2, V2. rewrite <- (round_0 radix2 (FLT_exp (SpecFloat.emin (pr i) (em i)) (pr i)) ZnearestE).
      apply round_le; [apply FLT_exp_valid; exact Hp|apply valid_rnd_N|]. pose proof (Rabs_pos (fval (cim z))). lra. }
    fold (half_abs i z). fold (half_abs i z'). change (@nsqrt _ (NF i) (@ndiv _ (NF i) (@nabs _ (NF i) (cim z)) (@nadd _ (NF i) (@none _ (NF i)) (@none _ (NF i))))) with (SFsqrt (pr i) (em i) (half_abs i z)).
    change (@nsqrt _ (NF i) (@ndiv _ (NF i) (@nabs _ (NF i) (cim z')) (@nadd _ (NF i) (@none _ (NF i)) (@none _ (NF i))))) with (SFsqrt (pr i) (em i) (half_abs i z')).
    unfold cval, cconj. cbn [cre cim fst snd]. cbv zeta. rewrite EY. unfold Rleb. apply C_ext; cbn [fst snd cre cim nneg RNum]; [exact M|].
    destruct (Rle_dec 0 (fval (cim z))), (Rle_dec 0 (- fval (cim z))); try (exfalso; apply NY; lra); try (exfalso; lra); cbn [nneg SFNum]; rewrite val_opp, M; ring.
  - assert (X0 : fval (cre z) <> 0) by (apply Reqb_false; exact B1).
    intros [G1 G2]. specialize (P X0 NY). rewrite EX in P'. specialize (P' X0 NY'). destruct P as (H1 & H2 & H3 & H4 & H5), P' as (H1' & H2' & H3' & H4' & H5').
    pose proof (HS i Vi Hpe) as Sy.
    assert (R : mate (pr i) (em i) false (@thypot _ (T i) (cre z) (cim z)) (@thypot _ (T i) (cre z') (cim z'))) by (split; [exact H1'|]; rewrite (sym_hypot _ _ _ Sy _ _ _ _ Fx Fx' Fy Fy' EX EY); unfold sg; ring).
    pose proof (sym_length _ _ _ Sy _ _ Fx Fy H1) as LN. destruct (fsqrt_ok (pr i) (em i) Hp He _ H1 LN) as [FR _].
    apply (mate_sqrt (pr i) (em i) Hp He) in R; [|exact H1|exact LN].
    assert (A : mate (pr i) (em i) true (@tatan2 _ (T i) (cim z) (cre z)) (@tatan2 _ (T i) (cim z') (cre z'))) by (split; [exact H2'|]; rewrite (sym_atan2 _ _ _ Sy _ _ _ _ Fx Fx' Fy Fy' EX EY X0 NY); unfold sg; ring).
    apply (mate_div (pr i) (em i) Hp He true false _ (tw i) _ (tw i) H2 F2 N2 H3) in A; [|apply mate_self; exact F2]. destruct A as [_ A]. cbn [xorb] in A.
    set (th := SFdiv (pr i) (em i) (@tatan2 _ (T i) (cim z) (cre z)) (tw i)) in *. set (th' := SFdiv (pr i) (em i) (@tatan2 _ (T i) (cim z') (cre z')) (tw i)) in *.
    assert (A' : fval th' = - fval th) by (rewrite A; unfold sg; ring).
    assert (MC : mate (pr i) (em i) false (@tcos _ (T i) th) (@tcos _ (T i) th')) by (split; [exact H4'|]; rewrite (sym_cos _ _ _ Sy _ _ H3 H3' A'); unfold sg; ring).
    assert (MS : mate (pr i) (em i) true (@tsin _ (T i) th) (@tsin _ (T i) th')) by (split; [exact H5'|]; rewrite (sym_sin _ _ _ Sy _ _ H3 H3' A'); unfold sg; ring).
    destruct (mate_mul (pr i) (em i) Hp He false false _ _ _ _ FR H4 G1 R MC) as [_ Q1]. destruct (mate_mul (pr i) (em i) Hp He false true _ _ _ _ FR H5 G2 R MS) as [_ Q2].
    unfold sg in Q1, Q2. cbn [xorb] in Q1, Q2. rewrite Rmult_1_l in Q1. replace (-1) with (- (1)) in Q2 by ring. rewrite Ropp_mult_distr_l_reverse, Rmult_1_l in Q2.
    apply C_ext; [exact Q1|exact Q2].
Qed.

(** The families: from mates to mates of roots. *)
Lemma cm_csqrt (c s s' : C) (f f' : I -> cplx spec_float) : cim c <> 0 -> cm I pr em V c f f' ->
  cnapp I pr em V s (fun i => @csqrt _ (NF i) (T i) (f i)) -> cnapp I pr em V s' (fun i => @csqrt _ (NF i) (T i) (f' i)) ->
  cm I pr em V s (fun i => @csqrt _ (NF i) (T i) (f i)) (fun i => @csqrt _ (NF i) (T i) (f' i)).
Proof.
  intros Hc M Ns Ns'. assert (C1 : c <> C0) by (intros ->; apply Hc; reflexivity). assert (C2 : cconj c <> C0) by (intros Q; apply Hc; apply (f_equal cim) in Q; cbn in Q; unfold cim in *; lra).
  pose proof (ev_polar c f C1 (cm_cnapp _ _ _ _ _ _ _ M)) as P. pose proof (ev_polar (cconj c) f' C2 (cm_conj _ _ _ _ _ _ _ M)) as P'.
  pose proof (cm_value _ _ _ _ _ _ _ M) as CV. pose proof (napp_nz I pr em V _ _ Hc (proj2 (cm_cnapp _ _ _ _ _ _ _ M))) as NZ.
  assert (EV : ev I pr em V (fun i => cfinite (pr i) (em i) (@csqrt _ (NF i) (T i) (f' i)) /\ cval (@csqrt _ (NF i) (T i) (f' i)) = cconj (cval (@csqrt _ (NF i) (T i) (f i))))).
  { destruct Ns as [N1 N2]. destruct Ns' as [N1' N2'].
    eapply ev_impl; [|exact (ev_and _ _ _ _ _ _ (ev_and _ _ _ _ _ _ P P') (ev_and _ _ _ _ _ _ (ev_and _ _ _ _ _ _ CV NZ) (ev_and _ _ _ _ _ _ (ev_two I pr em V)
       (ev_and _ _ _ _ _ _ (ev_and _ _ _ _ _ _ (napp_ev I pr em V _ _ N1) (napp_ev I pr em V _ _ N2)) (ev_and _ _ _ _ _ _ (napp_ev I pr em V _ _ N1') (napp_ev I pr em V _ _ N2'))))))].
    cbn beta. intros i Vi Hpe [[(_ & FA & Q) (_ & _ & Q')] [[(F1 & F2 & CC) NZ0] [[T1 T2] [[G1 G2] [G1' G2']]]]]. split; [split; assumption|].
    apply (csqrt_conj i (f i) (f' i)); try assumption. split; assumption. }
  split; (split; [apply Ns|]); (eapply ev_impl; [|exact EV]); cbn beta; intros i _ _ [[F1 F2] Q]; (split; [assumption|]).
  - change (sg false) with 1. rewrite Rmult_1_l. exact (f_equal fst Q).
  - replace (sg true) with (- (1)) by (unfold sg; ring). rewrite Ropp_mult_distr_l_reverse, Rmult_1_l. exact (f_equal snd Q).
Qed.
End Root.
