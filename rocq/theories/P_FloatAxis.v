(** Zeros on the imaginary axis through the band-pass transform in floats: they stay on the axis,
    in pairs that are exactly conjugate. *)
From Coq Require Import Reals Ratan ZArith SpecFloat List Lia Lra Bool Permutation.
From Flocq Require Import Core BinarySingleNaN.
From Verif Require Import Base Num Trans M_Complex M_Filter M_Design Cx S_Design S_Filter S_Float S_FloatFft S_FloatZpk S_FloatTrans S_FloatSos
  P_Float P_FloatStats P_Sqrt P_Poly P_Lp P_Proto P_Stable P_Zi P_FloatI0 P_FloatZi P_FloatPoly T_FloatPoly P_FloatDesign P_FloatResponse P_FloatSqrt P_FloatSym P_FloatMate P_FloatBand P_FloatBandStage P_FloatCsqrt P_FloatBandMate.
Import ListNotations.
Local Open Scope R_scope.

Lemma root_on_axis (z s : C) wo : 0 < wo -> cre z = 0 -> (s * s = z * z - RtoC (wo * wo)%R)%C -> cre s = 0 /\ cim s <> 0.
Proof.
  intros W Z Q. destruct z as [x y], s as [a b]. pose proof (f_equal cre Q) as H1. pose proof (f_equal cim Q) as H2. cbn in *. subst x.
  assert (B : b <> 0) by (intros ->; nra). split; [|exact B]. assert (AB : a * b = 0) by lra. apply Rmult_integral in AB. tauto.
Qed.

Section AxisRoots.
Variable I : Type.
Variables pr em : I -> Z.
Variable sz : I -> bool.
Variable E : R.
Hypothesis HE : 0 <= E.
Variable T : I -> Trans spec_float.
Notation NF i := (SFNum (pr i) (em i) (sz i)).
Variable V : I -> Prop.
Hypothesis HT : forall i, V i -> (1 < pr i < em i)%Z -> accurate_trans (pr i) (em i) E (T i).

Lemma am_scale c d f f' g g' : am I pr em V c f f' -> cm I pr em V d g g' -> am I pr em V (cmul c d) (fun i => @cmul _ (NF i) (f i) (g i)) (fun i => @cmul _ (NF i) (f' i) (g' i)).
Proof.
  intros [A B] [A' B']. split.
  - exact (sm_sub I pr em V _ _ _ _ _ _ _ (sm_mul I pr em V _ _ _ _ _ _ _ _ A A') (sm_mul I pr em V _ _ _ _ _ _ _ _ B B')).
  - exact (sm_add I pr em V _ _ _ _ _ _ _ (sm_mul I pr em V _ _ _ _ _ _ _ _ A B') (sm_mul I pr em V _ _ _ _ _ _ _ _ B A')).
Qed.
Lemma cm_intro (W : I -> Prop) c f f' : cnapp I pr em W c f -> ev I pr em W (fun i => cfinite (pr i) (em i) (f' i) /\ cval (f' i) = cconj (cval (f i))) -> cm I pr em W c f f'.
Proof.
  intros [A B] EV. split; (split; [assumption|]); (eapply ev_impl; [|exact EV]); cbn beta; intros i _ _ [[F1 F2] Q]; (split; [assumption|]).
  - change (P_FloatSym.sg false) with 1. rewrite Rmult_1_l. exact (f_equal fst Q).
  - replace (P_FloatSym.sg true) with (- (1)) by (unfold P_FloatSym.sg; ring). rewrite Ropp_mult_distr_l_reverse, Rmult_1_l. exact (f_equal snd Q).
Qed.
(** The sum with one root is the conjugate of the difference with the other. *)
Lemma cross_val i (z z' s s' : cplx spec_float) : (1 < pr i < em i)%Z -> cfinite (pr i) (em i) z -> cfinite (pr i) (em i) z' -> cfinite (pr i) (em i) s -> cfinite (pr i) (em i) s' ->
  cval z' = cconj (cval z) -> fval (cre s) = 0 -> fval (cre s') = 0 -> fval (cim s') = fval (cim s) ->
  cfinite (pr i) (em i) (@cadd _ (NF i) z s) -> cfinite (pr i) (em i) (@csub _ (NF i) z' s') -> cval (@csub _ (NF i) z' s') = cconj (cval (@cadd _ (NF i) z s)).
Proof.
  intros Hpe [Z1 Z2] [Z1' Z2'] [S1 S2] [S1' S2'] Y X X' Q [A1 A2] [B1 B2]. assert (Hp : Prec_gt_0 (pr i)) by (unfold Prec_gt_0; lia). assert (He : Prec_lt_emax (pr i) (em i)) by (unfold Prec_lt_emax; lia).
  destruct (fadd_char (pr i) (em i) _ _ _ _ Z1 S1) as [_ C1]. destruct (fadd_char (pr i) (em i) _ _ _ _ Z2 S2) as [_ C2].
  destruct (fsub_char (pr i) (em i) _ _ _ _ Z1' S1') as [_ C3]. destruct (fsub_char (pr i) (em i) _ _ _ _ Z2' S2') as [_ C4].
  specialize (C1 A1). specialize (C2 A2). specialize (C3 B1). specialize (C4 B2).
  assert (Y1 : fval (cre z') = fval (cre z)) by exact (f_equal fst Y). assert (Y2 : fval (cim z') = - fval (cim z)) by exact (f_equal snd Y).
  apply C_ext.
  - etransitivity; [exact C3|]. etransitivity; [|symmetry; exact C1]. unfold cre in *. rewrite X, X', Y1. f_equal. ring.
  - etransitivity; [exact C4|]. transitivity (- fval (SFadd (pr i) (em i) (cim z) (cim s))); [|reflexivity]. rewrite C2, <- round_NE_opp. unfold cim in *. rewrite Q, Y2. f_equal. ring.
Qed.

Variables (l : list C) (lf : I -> list (cplx spec_float)) (m : nat -> nat) (wo : R) (wf : I -> spec_float).
Hypothesis Ml : lmate I pr em V sz l lf m.
Hypothesis Nw : napp I pr em V wo wf.
Hypothesis Pw : 0 < wo.
Hypothesis Hr : forall z, In z l -> cre z = 0 /\ cim z <> 0.
Let q (z : C) : C := csub (csquare z) (npow wo 2, 0).
Let qf (i : I) (z : cplx spec_float) : cplx spec_float := @csub _ (NF i) (@csquare _ (NF i) z) (@npow _ (NF i) (wf i) 2, @nzero _ (NF i)).
Let rt (i : I) (z : cplx spec_float) : cplx spec_float := @csqrt _ (NF i) (T i) (qf i z).
Let nf (i : I) (k : nat) : cplx spec_float := nth k (lf i) (@czero _ (NF i)).
Hypothesis Al : forall k, (k < length l)%nat -> am I pr em V (nth k l C0) (fun i => nf i k) (fun i => nf i k).
Let n : nat := length l.
Lemma axis_sq z : In z l -> (z * z)%C <> RtoC (wo * wo)%R.
Proof. intros Hz Q. destruct (Hr z Hz) as [X Y]. apply (f_equal cre) in Q. destruct z as [x y]. cbn in *. subst x. nra. Qed.
Lemma axis_q k : (k < n)%nat -> ev I pr em V (fun i => cfinite (pr i) (em i) (qf i (nf i k)) /\ fval (cim (qf i (nf i k))) = 0 /\ fval (cre (qf i (nf i k))) < 0).
Proof.
  intros Hk. pose proof (Al k Hk) as A.
  assert (Q : cm I pr em V (q (nth k l C0)) (fun i => qf i (nf i k)) (fun i => qf i (nf i k))).
  { apply (cm_sub I pr em V sz); [apply (am_mul I pr em sz V); exact A|]. apply cm_real. apply (napp_npow I pr em V sz). exact Nw. }
  assert (N : fst (q (nth k l C0)) < 0).
  { destruct (Hr _ (nth_In l C0 Hk)) as [X Y]. pose proof (q_eq wo (nth k l C0)) as QE. cbv beta in QE. unfold q. rewrite QE. destruct (nth k l C0) as [x y]. cbn in *. subst x. nra. }
  pose proof (napp_lt I pr em V _ 0 _ _ N (proj1 (cm_cnapp _ _ _ _ _ _ _ Q)) (napp_zero I pr em V false)) as LT.
  eapply ev_impl; [|exact (ev_and _ _ _ _ _ _ (cm_value _ _ _ _ _ _ _ Q) LT)]. cbn beta. intros i _ _ [(F & _ & E1) (_ & _ & L)].
  split; [exact F|]. split; [exact (cconj_self _ E1)|exact L].
Qed.
Lemma axis_rt i k : V i -> (1 < pr i < em i)%Z -> cfinite (pr i) (em i) (qf i (nf i k)) -> fval (cim (qf i (nf i k))) = 0 -> fval (cre (qf i (nf i k))) < 0 ->
  fval (cre (rt i (nf i k))) = 0 /\ (fval (cim (rt i (nf i k))) = fval (SFsqrt (pr i) (em i) (SFopp (cre (qf i (nf i k))))) \/ fval (cim (rt i (nf i k))) = - fval (SFsqrt (pr i) (em i) (SFopp (cre (qf i (nf i k)))))).
Proof.
  intros Vi Hpe [F1 F2] Y LT. unfold rt, csqrt. rewrite (eqb0 I pr em sz i _ Hpe F2), Y. unfold Reqb. destruct (Req_EM_T 0 0) as [_|Q]; [|exfalso; apply Q; reflexivity].
  rewrite (acc_sign _ _ _ _ (HT i Vi Hpe) _ F1) by (unfold cre; unfold cre in LT; lra). unfold Rleb. destruct (Rle_dec 0 (fval (cre (qf i (nf i k))))) as [Q|Q]; [exfalso; lra|].
  cbv zeta. split; [reflexivity|]. cbn [cim snd]. destruct (tsignpos _); [left; reflexivity|right]. apply val_opp.
Qed.

Section Pattern.
Variable sg : list bool.
Let W (i : I) : Prop := V i /\ pattern I pr em sz T l lf q qf i = sg.
Let SW : forall i, W i -> V i := fun i H => proj1 H.
Let pl : list C := plus_list l q sg.
Let mi : list C := minus_list l q sg.
Let sr (k : nat) : C := signed_root l q sg k.
Let pf (i : I) : list (cplx spec_float) := map (fun z => @cadd _ (NF i) z (rt i z)) (lf i).
Let mf (i : I) : list (cplx spec_float) := map (fun z => @csub _ (NF i) z (rt i z)) (lf i).
Definition up (k : nat) : bool := if Rlt_dec 0 (cim (sr k)) then true else false.
Definition same_side (k : nat) : bool := Bool.eqb (up k) (up (m k)).
Lemma axis_root k : (k < n)%nat -> cnapp I pr em W (sr k) (fun i => rt i (nf i k)).
Proof. exact (root_k I pr em sz E HE T V HT l lf m wo wf Ml Nw axis_sq sg k). Qed.
Lemma axis_side k : (k < n)%nat -> ev I pr em W (fun i => cfinite (pr i) (em i) (rt i (nf i k)) /\ fval (cre (rt i (nf i k))) = 0 /\ (if up k then 0 < fval (cim (rt i (nf i k))) else fval (cim (rt i (nf i k))) < 0) /\
  (fval (cim (rt i (nf i k))) = fval (SFsqrt (pr i) (em i) (SFopp (cre (qf i (nf i k))))) \/ fval (cim (rt i (nf i k))) = - fval (SFsqrt (pr i) (em i) (SFopp (cre (qf i (nf i k))))))).
Proof.
  intros Hk. destruct (axis_root k Hk) as [N1 N2]. pose proof (sr_sq l wo sg k Hk) as SQ. cbv beta in SQ. fold (sr k) in SQ.
  destruct (root_on_axis _ _ _ Pw (proj1 (Hr _ (nth_In l C0 Hk))) SQ) as [_ NZ].
  assert (SD : ev I pr em W (fun i => if up k then 0 < fval (cim (rt i (nf i k))) else fval (cim (rt i (nf i k))) < 0)).
  { unfold up. change (q) with (fun z : C => csub (csquare z) (npow wo 2, 0)) in *. destruct (Rlt_dec 0 (cim (sr k))) as [L|L].
    - eapply ev_impl; [|exact (napp_lt I pr em W 0 _ _ _ L (napp_zero I pr em W false) N2)]. cbn beta. intros i _ _ (_ & _ & Q). exact Q.
    - assert (L' : cim (sr k) < 0) by (destruct (Rtotal_order (cim (sr k)) 0) as [Q|[Q|Q]]; [exact Q|contradiction|contradiction]).
      eapply ev_impl; [|exact (napp_lt I pr em W _ 0 _ _ L' N2 (napp_zero I pr em W false))]. cbn beta. intros i _ _ (_ & _ & Q). exact Q. }
  eapply ev_impl; [|exact (ev_and _ _ _ _ _ _ (ev_and _ _ _ _ _ _ (napp_ev I pr em W _ _ N1) (napp_ev I pr em W _ _ N2)) (ev_and _ _ _ _ _ _ SD (ev_shrink pr em V W _ SW (axis_q k Hk))))].
  cbn beta. intros i Wi Hpe [[F1 F2] [S (F & Y & X)]]. destruct (axis_rt i k (SW i Wi) Hpe F Y X) as [A B]. split; [split; assumption|]. split; [exact A|]. split; [exact S|exact B].
Qed.
Lemma axis_rel k : (k < n)%nat -> (m k < n)%nat -> ev I pr em W (fun i => cfinite (pr i) (em i) (rt i (nf i k)) /\ cfinite (pr i) (em i) (rt i (nf i (m k))) /\ fval (cre (rt i (nf i k))) = 0 /\ fval (cre (rt i (nf i (m k)))) = 0 /\
  fval (cim (rt i (nf i (m k)))) = (if same_side k then 1 else -1) * fval (cim (rt i (nf i k)))).
Proof.
  intros Hk Hm. pose proof (cm_shrink I pr em V W SW _ _ _ (cm_q I pr em sz V l lf m wo wf Ml Nw k Hk)) as [[_ MQ] _]. cbv beta in MQ.
  eapply ev_impl; [|exact (ev_and _ _ _ _ _ _ (ev_and _ _ _ _ _ _ (axis_side k Hk) (axis_side (m k) Hm)) (ev_and _ _ _ _ _ _ MQ (ev_shrink pr em V W _ SW (axis_q k Hk))))].
  cbn beta. intros i Wi Hpe [[(F & X & S & B) (F' & X' & S' & B')] [MT ((G & _) & _ & L)]].
  split; [exact F|]. split; [exact F'|]. split; [exact X|]. split; [exact X'|].
  assert (Hp : Prec_gt_0 (pr i)) by (unfold Prec_gt_0; lia). assert (He : Prec_lt_emax (pr i) (em i)) by (unfold Prec_lt_emax; lia).
  assert (MS : fval (SFsqrt (pr i) (em i) (SFopp (cre (qf i (nf i (m k)))))) = fval (SFsqrt (pr i) (em i) (SFopp (cre (qf i (nf i k)))))).
  { destruct (mate_sqrt (pr i) (em i) Hp He (SFopp (cre (qf i (nf i k)))) (SFopp (cre (qf i (nf i (m k)))))) as [_ Q].
    - apply fin_opp. exact G.
    - rewrite val_opp. lra.
    - apply mate_opp. exact MT.
    - rewrite Q. unfold P_FloatSym.sg. ring. }
  rewrite MS in B'. set (a := fval (SFsqrt (pr i) (em i) (SFopp (cre (qf i (nf i k)))))) in *. set (v := fval (cim (rt i (nf i k)))) in *. set (v' := fval (cim (rt i (nf i (m k))))) in *. clearbody a v v'. clear - S S' B B'.
  unfold same_side. destruct (up k), (up (m k)); cbn [Bool.eqb]; destruct B, B'; lra.
Qed.
Definition mm2 (j : nat) : nat := if (j <? n)%nat then (if same_side j then n + m j else m j)%nat else (if same_side (j - n) then m (j - n) else n + m (j - n))%nat.
Theorem axis_mate : lmate I pr em W sz (pl ++ mi) (fun i => pf i ++ mf i) mm2.
Proof.
  destruct (len_pl l wo sg) as [L1 L2]. fold pl in L1. fold mi in L2. change (length pl = n) in L1. change (length mi = n) in L2. split.
  { intros i Wi. destruct Ml as [L _]. specialize (L i (SW i Wi)). unfold pf, mf. rewrite !app_length, !map_length, L1, L2, L. reflexivity. }
  rewrite app_length, L1, L2.
  assert (P1 : forall k, (k < n)%nat -> nth k (pl ++ mi) C0 = cadd (nth k l C0) (sr k)) by (intros k Hk; rewrite app_nth1 by lia; apply (nth_pl l wo sg k Hk)).
  assert (P2 : forall k, (k < n)%nat -> nth (n + k) (pl ++ mi) C0 = csub (nth k l C0) (sr k)) by (intros k Hk; rewrite app_nth2 by lia; rewrite L1; replace (n + k - n)%nat with k by lia; apply (nth_pl l wo sg k Hk)).
  assert (LF : forall i, W i -> length (pf i) = n) by (intros i Wi; unfold pf; rewrite map_length; destruct Ml as [L _]; apply L, SW, Wi).
  assert (F1 : forall i k, W i -> (k < n)%nat -> nth k (pf i ++ mf i) (@czero _ (NF i)) = @cadd _ (NF i) (nf i k) (rt i (nf i k))) by (intros i k Wi Hk; rewrite app_nth1 by (rewrite LF by exact Wi; exact Hk); apply (nth_pf I pr em sz T V l lf m wf Ml i k (SW i Wi) Hk)).
  assert (F2 : forall i k, W i -> (k < n)%nat -> nth (n + k) (pf i ++ mf i) (@czero _ (NF i)) = @csub _ (NF i) (nf i k) (rt i (nf i k))) by (intros i k Wi Hk; rewrite app_nth2 by (rewrite LF by exact Wi; lia); rewrite LF by exact Wi; replace (n + k - n)%nat with k by lia; apply (nth_pf I pr em sz T V l lf m wf Ml i k (SW i Wi) Hk)).
  assert (KEY : forall k, (k < n)%nat -> (m k < n)%nat /\ m (m k) = k /\ same_side (m k) = same_side k /\ (cim (cadd (nth k l C0) (sr k)) <> 0 /\ cim (csub (nth k l C0) (sr k)) <> 0) /\
    (same_side k = true ->
      cm I pr em W (cadd (nth k l C0) (sr k)) (fun i => @cadd _ (NF i) (nf i k) (rt i (nf i k))) (fun i => @csub _ (NF i) (nf i (m k)) (rt i (nf i (m k)))) /\
      cm I pr em W (csub (nth k l C0) (sr k)) (fun i => @csub _ (NF i) (nf i k) (rt i (nf i k))) (fun i => @cadd _ (NF i) (nf i (m k)) (rt i (nf i (m k))))) /\
    (same_side k = false ->
      cm I pr em W (cadd (nth k l C0) (sr k)) (fun i => @cadd _ (NF i) (nf i k) (rt i (nf i k))) (fun i => @cadd _ (NF i) (nf i (m k)) (rt i (nf i (m k)))) /\
      cm I pr em W (csub (nth k l C0) (sr k)) (fun i => @csub _ (NF i) (nf i k) (rt i (nf i k))) (fun i => @csub _ (NF i) (nf i (m k)) (rt i (nf i (m k)))))).
  { intros k Hk. pose proof Ml as [_ M]. destruct (M k Hk) as (A & B & _ & _). change (m k < n)%nat in A. split; [exact A|]. split; [exact B|].
    split; [unfold same_side; rewrite B; destruct (up k), (up (m k)); reflexivity|].
    pose proof (sr_sq l wo sg k Hk) as SQ. cbv beta in SQ. split; [exact (root_nonreal _ _ wo ltac:(lra) (proj2 (Hr _ (nth_In l C0 Hk))) SQ)|].
    pose proof (pole_k I pr em sz T V l lf m wo wf Ml sg k Hk) as PK. fold W in PK. pose proof (axis_root k Hk) as RK. pose proof (axis_root (m k) A) as RM. pose proof (axis_rel k Hk A) as RL.
    pose proof (cm_cnapp _ _ _ _ _ _ _ PK) as NK. pose proof (cm_cnapp _ _ _ _ _ _ _ (cm_sym I pr em W _ _ _ PK)) as NM.
    pose proof (cnapp_add I pr em W sz _ _ _ _ NK RK) as AK. pose proof (cnapp_sub I pr em W sz _ _ _ _ NK RK) as SK.
    pose proof (cnapp_add I pr em W sz _ _ _ _ NM RM) as AM. pose proof (cnapp_sub I pr em W sz _ _ _ _ NM RM) as SM.
    pose proof (cm_value _ _ _ _ _ _ _ PK) as VK. split; intros S; rewrite S in RL.
    - split.
      + apply cm_intro; [exact AK|].
        eapply ev_impl; [|exact (ev_and _ _ _ _ _ _ (ev_and _ _ _ _ _ _ RL VK) (ev_and _ _ _ _ _ _ (ev_and _ _ _ _ _ _ (napp_ev I pr em W _ _ (proj1 AK)) (napp_ev I pr em W _ _ (proj2 AK))) (ev_and _ _ _ _ _ _ (napp_ev I pr em W _ _ (proj1 SM)) (napp_ev I pr em W _ _ (proj2 SM)))))].
        cbn beta. intros i _ Hpe [[(R1 & R2 & X & X' & Y) (G1 & G2 & Q)] [[A1 A2] [B1 B2]]]. split; [split; assumption|].
        apply cross_val; try assumption; try (split; assumption). rewrite Y. ring.
      + apply cm_intro; [exact SK|].
        eapply ev_impl; [|exact (ev_and _ _ _ _ _ _ (ev_and _ _ _ _ _ _ RL VK) (ev_and _ _ _ _ _ _ (ev_and _ _ _ _ _ _ (napp_ev I pr em W _ _ (proj1 SK)) (napp_ev I pr em W _ _ (proj2 SK))) (ev_and _ _ _ _ _ _ (napp_ev I pr em W _ _ (proj1 AM)) (napp_ev I pr em W _ _ (proj2 AM)))))].
        cbn beta. intros i _ Hpe [[(R1 & R2 & X & X' & Y) (G1 & G2 & Q)] [[A1 A2] [B1 B2]]]. split; [split; assumption|].
        assert (CV : cval (@csub _ (NF i) (nf i k) (rt i (nf i k))) = cconj (cval (@cadd _ (NF i) (nf i (m k)) (rt i (nf i (m k)))))).
        { apply cross_val; try assumption; try (split; assumption); [|rewrite Y; ring]. etransitivity; [|apply (f_equal cconj); symmetry; exact Q]. change (cval (nf i k) = cconj (cconj (cval (nf i k)))). generalize (cval (nf i k)). intros [x y]. apply C_ext; cbn; ring. }
        rewrite CV. generalize (cval (@cadd _ (NF i) (nf i (m k)) (rt i (nf i (m k))))). intros [x y]. apply C_ext; cbn; ring.
    - assert (MO : cm I pr em W (sr k) (fun i => rt i (nf i k)) (fun i => rt i (nf i (m k)))).
      { apply cm_intro; [exact RK|]. eapply ev_impl; [|exact RL]. cbn beta. intros i _ _ (_ & R2 & X & X' & Y). split; [exact R2|]. apply C_ext.
        - change (fval (cre (rt i (nf i (m k)))) = fval (cre (rt i (nf i k)))). lra.
        - change (fval (cim (rt i (nf i (m k)))) = - fval (cim (rt i (nf i k)))). rewrite Y. ring. }
      split; [exact (cm_add I pr em W sz _ _ _ _ _ _ PK MO)|exact (cm_sub I pr em W sz _ _ _ _ _ _ PK MO)]. }
  intros j Hj. unfold mm2. destruct (Nat.ltb_spec j n) as [Lt|Ge].
  - destruct (KEY j Lt) as (A & B & S' & [N1 N2] & KT & KF). destruct (same_side j) eqn:S.
    + destruct (KT eq_refl) as [C1 _]. split; [lia|]. destruct (Nat.ltb_spec (n + m j) n) as [Q|_]; [lia|]. replace (n + m j - n)%nat with (m j) by lia. rewrite S'. split; [exact B|]. rewrite (P1 j Lt). split; [right; exact N1|].
      eapply cm_ext; [reflexivity| | |exact C1]; cbn beta; intros i Wi; symmetry; [apply F1; assumption|apply F2; assumption].
    + destruct (KF eq_refl) as [C1 _]. split; [lia|]. destruct (Nat.ltb_spec (m j) n) as [_|Q]; [|lia]. rewrite S'. split; [exact B|]. rewrite (P1 j Lt). split; [right; exact N1|].
      eapply cm_ext; [reflexivity| | |exact C1]; cbn beta; intros i Wi; symmetry; apply F1; assumption.
  - assert (Hk : (j - n < n)%nat) by lia. set (k := (j - n)%nat) in *. assert (Ej : j = (n + k)%nat) by (unfold k; lia). clearbody k. subst j.
    destruct (KEY k Hk) as (A & B & S' & [N1 N2] & KT & KF). destruct (same_side k) eqn:S.
    + destruct (KT eq_refl) as [_ C2]. split; [lia|]. destruct (Nat.ltb_spec (m k) n) as [_|Q]; [|lia]. rewrite S'. split; [lia|]. rewrite (P2 k Hk). split; [right; exact N2|].
      eapply cm_ext; [reflexivity| | |exact C2]; cbn beta; intros i Wi; symmetry; [apply F2; assumption|apply F1; assumption].
    + destruct (KF eq_refl) as [_ C2]. split; [lia|]. destruct (Nat.ltb_spec (n + m k) n) as [Q|_]; [lia|]. replace (n + m k - n)%nat with (m k) by lia. rewrite S'. split; [lia|]. rewrite (P2 k Hk). split; [right; exact N2|].
      eapply cm_ext; [reflexivity| | |exact C2]; cbn beta; intros i Wi; symmetry; apply F2; assumption.
Qed.
End Pattern.

Lemma axis_stage_mate :
  exists pat : I -> list bool, (forall i, length (pat i) = length l) /\ forall sg, exists l' m',
    Permutation l' (map (fun z => cadd z (csqrt (q z))) l ++ map (fun z => csub z (csqrt (q z))) l) /\
    lmate I pr em (fun i => V i /\ pat i = sg) sz l'
      (fun i => map (fun z => @cadd _ (NF i) z (rt i z)) (lf i) ++ map (fun z => @csub _ (NF i) z (rt i z)) (lf i)) m'.
Proof.
  exists (pattern I pr em sz T l lf q qf). split; [apply pattern_length|]. intros sg.
  exists (plus_list l q sg ++ minus_list l q sg), (mm2 sg). split; [apply signed_perm|]. exact (axis_mate sg).
Qed.
End AxisRoots.
