(** Band-pass and band-stop transforms in floats give exactly conjugate roots, when the
    library of functions is symmetric. *)
From Coq Require Import Reals Ratan ZArith SpecFloat List Lia Lra Bool Permutation.
From Flocq Require Import Core BinarySingleNaN.
From Verif Require Import Base Num Trans M_Complex M_Filter M_Design Cx S_Design S_Filter S_Float S_FloatFft S_FloatZpk S_FloatTrans S_FloatSos
  P_Float P_FloatStats P_Sqrt P_Poly P_Lp P_Proto P_Stable P_Zi P_FloatI0 P_FloatZi P_FloatPoly T_FloatPoly P_FloatDesign P_FloatResponse P_FloatSqrt P_FloatSym P_FloatMate P_FloatBand P_FloatBandStage P_FloatCsqrt.
Import ListNotations.
Local Open Scope R_scope.

Section Shrink.
Variable I : Type.
Variables pr em : I -> Z.
Variable sz : I -> bool.
Variables V W : I -> Prop.
Hypothesis S : forall i, W i -> V i.
Lemma sm_shrink b c f f' : sm I pr em V b c f f' -> sm I pr em W b c f f'.
Proof. intros [A B]. split; [exact (napp_shrink pr em V W _ _ S A)|exact (ev_shrink pr em V W _ S B)]. Qed.
Lemma cm_shrink c f f' : cm I pr em V c f f' -> cm I pr em W c f f'.
Proof. intros [A B]. split; apply sm_shrink; assumption. Qed.
Lemma lmate_shrink l lf m : lmate I pr em V sz l lf m -> lmate I pr em W sz l lf m.
Proof. intros [L H]. split; [intros i Wi; apply L, S, Wi|]. intros k Hk. destruct (H k Hk) as (A & B & D & Q). split; [exact A|]. split; [exact B|]. split; [exact D|apply cm_shrink; exact Q]. Qed.
End Shrink.

(** ** Roots of the quadratic over the reals *)
Lemma root_nonreal (z s : C) wo : wo <> 0 -> cim z <> 0 -> (s * s = z * z - RtoC (wo * wo)%R)%C -> cim (z + s)%C <> 0 /\ cim (z - s)%C <> 0.
Proof.
  intros W Z Q. assert (P : ((z + s) * (z - s) = RtoC (wo * wo)%R)%C) by (replace ((z + s) * (z - s))%C with (z * z - s * s)%C by ring; rewrite Q; ring).
  assert (A : forall a b : C, (a * b = RtoC (wo * wo)%R)%C -> cim a = 0 -> cim b = 0).
  { intros [a1 a2] [b1 b2] H Ha. pose proof (f_equal cre H) as H1. pose proof (f_equal cim H) as H2. cbn in *. subst a2.
    assert (0 < wo * wo) by (destruct (Rlt_dec 0 wo); nra). assert (a1 <> 0) by (intros ->; lra).
    assert (AB : a1 * b2 = 0) by lra. apply Rmult_integral in AB. tauto. }
  assert (SUM : cim (z + s)%C + cim (z - s)%C = 2 * cim z) by (destruct z, s; cbn; ring).
  split; intros H0.
  - pose proof (A _ _ P H0). lra.
  - replace ((z + s) * (z - s))%C with ((z - s) * (z + s))%C in P by ring. pose proof (A _ _ P H0). lra.
Qed.
Lemma root_imag (z s : C) wo : cim z = 0 -> cre z * cre z < wo * wo -> (s * s = z * z - RtoC (wo * wo)%R)%C -> cre s = 0 /\ cim s <> 0.
Proof.
  intros Z L Q. destruct z as [x y], s as [a b]. pose proof (f_equal cre Q) as H1. pose proof (f_equal cim Q) as H2. cbn in *. subst y.
  assert (B : b <> 0) by (intros ->; nra). split; [|exact B]. assert (AB : a * b = 0) by lra. apply Rmult_integral in AB. tauto.
Qed.
Lemma root_real (z s : C) wo : cim z = 0 -> wo * wo < cre z * cre z -> (s * s = z * z - RtoC (wo * wo)%R)%C -> cim s = 0.
Proof.
  intros Z L Q. destruct z as [x y], s as [a b]. pose proof (f_equal cre Q) as H1. pose proof (f_equal cim Q) as H2. cbn in *. subst y.
  assert (A : a <> 0) by (intros ->; nra). assert (AB : a * b = 0) by lra. apply Rmult_integral in AB. tauto.
Qed.

Lemma cconj_self (c : C) : c = cconj c -> snd c = 0.
Proof. intros Q. apply (f_equal snd) in Q. destruct c as [a b]. cbn in *. lra. Qed.

Section Roots.
Variable I : Type.
Variables pr em : I -> Z.
Variable sz : I -> bool.
Variable E : R.
Hypothesis HE : 0 <= E.
Variable T : I -> Trans spec_float.
Notation NF i := (SFNum (pr i) (em i) (sz i)).
Variable V : I -> Prop.
Hypothesis HT : forall i, V i -> (1 < pr i < em i)%Z -> accurate_trans (pr i) (em i) E (T i).
Hypothesis HS : forall i, V i -> (1 < pr i < em i)%Z -> symmetric_trans (pr i) (em i) (T i).
Variables (l : list C) (lf : I -> list (cplx spec_float)) (m : nat -> nat) (wo : R) (wf : I -> spec_float).
Hypothesis Ml : lmate I pr em V sz l lf m.
Hypothesis Nw : napp I pr em V wo wf.
Hypothesis Pw : 0 < wo.
Hypothesis Hr : forall z, In z l -> cre z < 0.
Hypothesis Hl : forall z, In z l -> (z * z)%C <> RtoC (wo * wo)%R.
Let q (z : C) : C := csub (csquare z) (npow wo 2, 0).
Let qf (i : I) (z : cplx spec_float) : cplx spec_float := @csub _ (NF i) (@csquare _ (NF i) z) (@npow _ (NF i) (wf i) 2, @nzero _ (NF i)).
Let rt (i : I) (z : cplx spec_float) : cplx spec_float := @csqrt _ (NF i) (T i) (qf i z).
Let nf (i : I) (k : nat) : cplx spec_float := nth k (lf i) (@czero _ (NF i)).
Let n : nat := length l.
Lemma q_eq z : q z = (z * z - RtoC (wo * wo)%R)%C.
Proof. unfold q, csquare. f_equal. apply C_ext; cbn; [ring|reflexivity]. Qed.
Lemma Nl0 : lnapp I pr em V sz l lf.
Proof. exact (lmate_lnapp I pr em V sz l lf m Ml). Qed.
Lemma Nq0 k : (k < n)%nat -> cnapp I pr em V (q (nth k l C0)) (fun i => qf i (nf i k)).
Proof. intros Hk. destruct Nl0 as [_ N]. specialize (N k Hk). unfold q, qf. apply cnapp_sub; [apply cnapp_mul; exact N|]. split; [apply (napp_npow I pr em V sz); exact Nw|apply napp_zero]. Qed.
Lemma Hq0 z : In z l -> q z <> C0.
Proof. intros Hz Q. rewrite q_eq in Q. apply (Hl z Hz). apply Csub_eq0. exact Q. Qed.
Lemma cm_q k : (k < n)%nat -> cm I pr em V (q (nth k l C0)) (fun i => qf i (nf i k)) (fun i => qf i (nf i (m k))).
Proof.
  intros Hk. destruct Ml as [_ M]. destruct (M k Hk) as (_ & _ & _ & Q). unfold q, qf. apply (cm_sub I pr em V sz); [apply (cm_mul I pr em V sz); exact Q|]. apply cm_real. apply (napp_npow I pr em V sz). exact Nw.
Qed.
Lemma q_im z : In z l -> cim z <> 0 -> cim (q z) <> 0.
Proof.
  intros Hz N. pose proof (Hr z Hz) as P. rewrite q_eq. destruct z as [x y]. cbn in *. replace (x * y + y * x - 0) with (2 * x * y) by ring.
  apply Rmult_integral_contrapositive_currified; [lra|exact N].
Qed.

(** Real poles: the floats have no imaginary part, and the roots are on an axis. *)
Lemma real_im k : (k < n)%nat -> m k = k -> ev I pr em V (fun i => cfinite (pr i) (em i) (nf i k) /\ fval (cim (nf i k)) = 0 /\ cfinite (pr i) (em i) (qf i (nf i k)) /\ fval (cim (qf i (nf i k))) = 0).
Proof.
  intros Hk Mk. destruct Ml as [_ M]. destruct (M k Hk) as (_ & _ & _ & Q). rewrite Mk in Q. pose proof (cm_q k Hk) as Q'. rewrite Mk in Q'.
  eapply ev_impl; [|exact (ev_and _ _ _ _ _ _ (cm_value _ _ _ _ _ _ _ Q) (cm_value _ _ _ _ _ _ _ Q'))]. cbn beta. intros i _ _ [(F1 & _ & E1) (F2 & _ & E2)].
  split; [exact F1|]. split; [exact (cconj_self _ E1)|]. split; [exact F2|exact (cconj_self _ E2)].
Qed.
Lemma root_axis k : (k < n)%nat -> m k = k -> cim (nth k l C0) = 0 ->
  ev I pr em V (fun i => if Rlt_dec (cre (nth k l C0) * cre (nth k l C0)) (wo * wo) then fval (cre (rt i (nf i k))) = 0 else fval (cim (rt i (nf i k))) = 0).
Proof.
  intros Hk Mk Z. set (z := nth k l C0) in *. assert (Hz : In z l) by (apply nth_In; exact Hk).
  assert (NE : cre z * cre z <> wo * wo) by (intros Q; apply (Hl z Hz); destruct z as [x y]; cbn in *; subst y; apply C_ext; cbn; lra).
  pose proof (real_im k Hk Mk) as RI. pose proof (Nq0 k Hk) as [NQ _]. fold z in NQ.
  assert (RE : fst (q z) = cre z * cre z - wo * wo) by (rewrite q_eq; destruct z as [x y]; cbn in *; subst y; ring). rewrite RE in NQ.
  destruct (Rlt_dec (cre z * cre z) (wo * wo)) as [L|L].
  - assert (LL : cre z * cre z - wo * wo < 0) by lra. pose proof (napp_lt I pr em V _ 0 _ _ LL NQ (napp_zero I pr em V false)) as LT.
    eapply ev_impl; [|exact (ev_and _ _ _ _ _ _ RI LT)]. cbn beta. intros i Vi Hpe [(_ & _ & [F1 F2] & Y) (_ & _ & LT')]. cbn [fval] in LT'.
    unfold rt, csqrt. rewrite (eqb0 I pr em sz i _ Hpe F2), Y. unfold Reqb. destruct (Req_EM_T 0 0) as [_|Q]; [|exfalso; apply Q; reflexivity].
    rewrite (acc_sign _ _ _ _ (HT i Vi Hpe) _ F1) by (unfold cre; lra). unfold Rleb. destruct (Rle_dec 0 (fval (cre (qf i (nf i k))))) as [Q|Q]; [exfalso; unfold cre in Q; lra|]. reflexivity.
  - assert (LL : 0 < cre z * cre z - wo * wo) by lra. pose proof (napp_lt I pr em V 0 _ _ _ LL (napp_zero I pr em V false) NQ) as LT.
    eapply ev_impl; [|exact (ev_and _ _ _ _ _ _ RI LT)]. cbn beta. intros i Vi Hpe [(_ & _ & [F1 F2] & Y) (_ & _ & LT')]. cbn [fval] in LT'.
    unfold rt, csqrt. rewrite (eqb0 I pr em sz i _ Hpe F2), Y. unfold Reqb. destruct (Req_EM_T 0 0) as [_|Q]; [|exfalso; apply Q; reflexivity].
    rewrite (acc_sign _ _ _ _ (HT i Vi Hpe) _ F1) by (unfold cre; lra). unfold Rleb. destruct (Rle_dec 0 (fval (cre (qf i (nf i k))))) as [Q|Q]; [exact Y|exfalso; unfold cre in Q; lra].
Qed.

Section Pattern.
Variable sg : list bool.
Let W (i : I) : Prop := V i /\ pattern I pr em sz T l lf q qf i = sg.
Let SW : forall i, W i -> V i := fun i H => proj1 H.
Let pl : list C := plus_list l q sg.
Let mi : list C := minus_list l q sg.
Let sr (k : nat) : C := signed_root l q sg k.
Let pf (i : I) : list (cplx spec_float) := map (fun z => @cadd _ (NF i) z (rt i z)) (lf i).
Let mf (i : I) : list (cplx spec_float) := map (fun z => @csub _ (NF i) z (rt i z)) (lf i).
Lemma sr_sq k : (k < n)%nat -> (sr k * sr k = nth k l C0 * nth k l C0 - RtoC (wo * wo)%R)%C.
Proof. intros Hk. rewrite <- q_eq. unfold sr, signed_root, signed. destruct (nth k sg true); [apply csqrt_sq|]. transitivity (csqrt (q (nth k l C0)) * csqrt (q (nth k l C0)))%C; [|apply csqrt_sq]. generalize (csqrt (q (nth k l C0))). intros [x y]. apply C_ext; cbn; ring. Qed.
Lemma len_pl : length pl = n /\ length mi = n.
Proof. unfold pl, mi, plus_list, minus_list. rewrite !map_length, seq_length. split; reflexivity. Qed.
Lemma nth_pl k : (k < n)%nat -> nth k pl C0 = cadd (nth k l C0) (sr k) /\ nth k mi C0 = csub (nth k l C0) (sr k).
Proof. intros Hk. unfold pl, mi, plus_list, minus_list. rewrite !P_Savgol.nth_map_seq' by exact Hk. split; reflexivity. Qed.
Lemma nth_pf i k : V i -> (k < n)%nat -> nth k (pf i) (@czero _ (NF i)) = @cadd _ (NF i) (nf i k) (rt i (nf i k)) /\ nth k (mf i) (@czero _ (NF i)) = @csub _ (NF i) (nf i k) (rt i (nf i k)).
Proof.
  intros Vi Hk. destruct Ml as [L _]. specialize (L i Vi). unfold pf, mf. rewrite !(nth_map_in _ _ _ _ (@czero _ (NF i))) by (rewrite L; exact Hk). split; reflexivity.
Qed.
Lemma root_k k : (k < n)%nat -> cnapp I pr em W (sr k) (fun i => rt i (nf i k)).
Proof. intros Hk. exact (root_of I pr em sz E HE T V HT l lf q qf Nq0 Hq0 sg k Hk). Qed.
Lemma pole_k k : (k < n)%nat -> cm I pr em W (nth k l C0) (fun i => nf i k) (fun i => nf i (m k)).
Proof. intros Hk. destruct Ml as [_ M]. destruct (M k Hk) as (_ & _ & _ & Q). exact (cm_shrink I pr em V W SW _ _ _ Q). Qed.
(** Off the real axis. *)
Lemma mates_off k : (k < n)%nat -> (m k < n)%nat -> cim (nth k l C0) <> 0 -> cm I pr em W (sr k) (fun i => rt i (nf i k)) (fun i => rt i (nf i (m k))).
Proof.
  intros Hk Hm Z. apply (cm_csqrt I pr em sz E HE T W) with (c := q (nth k l C0)) (s' := sr (m k)).
  - intros i Wi. apply HT, SW, Wi.
  - intros i Wi. apply HS, SW, Wi.
  - apply q_im; [apply nth_In; exact Hk|exact Z].
  - apply (cm_shrink I pr em V W SW). apply cm_q. exact Hk.
  - apply root_k. exact Hk.
  - apply root_k. exact Hm.
Qed.
(** On the real axis: two real roots, or a conjugate pair. *)
Lemma mates_real k : (k < n)%nat -> m k = k -> cim (nth k l C0) = 0 -> wo * wo < cre (nth k l C0) * cre (nth k l C0) -> cm I pr em W (sr k) (fun i => rt i (nf i k)) (fun i => rt i (nf i k)).
Proof.
  intros Hk Mk Z L. destruct (root_k k Hk) as [N1 N2]. split; [apply sm_self; exact N1|]. split; [exact N2|].
  pose proof (ev_shrink pr em V W _ SW (root_axis k Hk Mk Z)) as RA. eapply ev_impl; [|exact (ev_and _ _ _ _ _ _ (napp_ev I pr em W _ _ N2) RA)]. cbn beta. intros i _ _ [F Q].
  destruct (Rlt_dec _ _) as [L'|_] in Q; [exfalso; lra|]. split; [exact F|]. unfold cim in Q. rewrite Q. ring.
Qed.
Lemma pair_val i (z s : cplx spec_float) : (1 < pr i < em i)%Z -> cfinite (pr i) (em i) z -> cfinite (pr i) (em i) s -> fval (cim z) = 0 -> fval (cre s) = 0 ->
  cfinite (pr i) (em i) (@cadd _ (NF i) z s) -> cfinite (pr i) (em i) (@csub _ (NF i) z s) -> cval (@csub _ (NF i) z s) = cconj (cval (@cadd _ (NF i) z s)).
Proof.
  intros Hpe [Z1 Z2] [S1 S2] Y X [A1 A2] [B1 B2]. assert (Hp : Prec_gt_0 (pr i)) by (unfold Prec_gt_0; lia). assert (He : Prec_lt_emax (pr i) (em i)) by (unfold Prec_lt_emax; lia).
  destruct (fadd_char (pr i) (em i) _ _ _ _ Z1 S1) as [_ C1]. destruct (fadd_char (pr i) (em i) _ _ _ _ Z2 S2) as [_ C2].
  destruct (fsub_char (pr i) (em i) _ _ _ _ Z1 S1) as [_ C3]. destruct (fsub_char (pr i) (em i) _ _ _ _ Z2 S2) as [_ C4].
  specialize (C1 A1). specialize (C2 A2). specialize (C3 B1). specialize (C4 B2). rewrite X in C1, C3. rewrite Y in C2, C4. apply C_ext.
  - etransitivity; [exact C3|]. etransitivity; [|symmetry; exact C1]. f_equal. ring.
  - etransitivity; [exact C4|]. transitivity (- fval (SFadd (pr i) (em i) (cim z) (cim s))); [|reflexivity]. rewrite C2, <- round_NE_opp. f_equal. ring.
Qed.
Lemma mates_pair k : (k < n)%nat -> m k = k -> cim (nth k l C0) = 0 -> cre (nth k l C0) * cre (nth k l C0) < wo * wo ->
  cm I pr em W (cadd (nth k l C0) (sr k)) (fun i => @cadd _ (NF i) (nf i k) (rt i (nf i k))) (fun i => @csub _ (NF i) (nf i k) (rt i (nf i k))) /\
  cm I pr em W (csub (nth k l C0) (sr k)) (fun i => @csub _ (NF i) (nf i k) (rt i (nf i k))) (fun i => @cadd _ (NF i) (nf i k) (rt i (nf i k))).
Proof.
  intros Hk Mk Z L. pose proof (root_k k Hk) as NR. pose proof (cm_cnapp _ _ _ _ _ _ _ (pole_k k Hk)) as NP.
  pose proof (cnapp_add I pr em W sz _ _ _ _ NP NR) as NA. pose proof (cnapp_sub I pr em W sz _ _ _ _ NP NR) as NS.
  pose proof (ev_shrink pr em V W _ SW (root_axis k Hk Mk Z)) as RA. pose proof (ev_shrink pr em V W _ SW (real_im k Hk Mk)) as RI.
  assert (EV : ev I pr em W (fun i => cfinite (pr i) (em i) (@cadd _ (NF i) (nf i k) (rt i (nf i k))) /\ cfinite (pr i) (em i) (@csub _ (NF i) (nf i k) (rt i (nf i k))) /\
     cval (@csub _ (NF i) (nf i k) (rt i (nf i k))) = cconj (cval (@cadd _ (NF i) (nf i k) (rt i (nf i k)))))).
  { destruct NR as [R1 R2], NA as [A1 A2], NS as [S1 S2].
    eapply ev_impl; [|exact (ev_and _ _ _ _ _ _ (ev_and _ _ _ _ _ _ RA RI) (ev_and _ _ _ _ _ _ (ev_and _ _ _ _ _ _ (napp_ev I pr em W _ _ R1) (napp_ev I pr em W _ _ R2))
      (ev_and _ _ _ _ _ _ (ev_and _ _ _ _ _ _ (napp_ev I pr em W _ _ A1) (napp_ev I pr em W _ _ A2)) (ev_and _ _ _ _ _ _ (napp_ev I pr em W _ _ S1) (napp_ev I pr em W _ _ S2)))))].
    cbn beta. intros i _ Hpe [[X (F & Y & _)] [[F1 F2] [[G1 G2] [H1 H2]]]]. destruct (Rlt_dec _ _) as [_|L'] in X; [|exfalso; lra].
    split; [split; assumption|]. split; [split; assumption|]. apply pair_val; try assumption; split; assumption. }
  split.
  - destruct NA as [A1 A2]. split; (split; [assumption|]); (eapply ev_impl; [|exact EV]); cbn beta; intros i _ _ (_ & [F1 F2] & Q); (split; [assumption|]).
    + change (P_FloatSym.sg false) with 1. rewrite Rmult_1_l. exact (f_equal fst Q).
    + replace (P_FloatSym.sg true) with (- (1)) by (unfold P_FloatSym.sg; ring). rewrite Ropp_mult_distr_l_reverse, Rmult_1_l. exact (f_equal snd Q).
  - destruct NS as [A1 A2]. split; (split; [assumption|]); (eapply ev_impl; [|exact EV]); cbn beta; intros i _ _ ([F1 F2] & _ & Q); (split; [assumption|]).
    + change (P_FloatSym.sg false) with 1. rewrite Rmult_1_l. symmetry. exact (f_equal fst Q).
    + replace (P_FloatSym.sg true) with (- (1)) by (unfold P_FloatSym.sg; ring). rewrite Ropp_mult_distr_l_reverse, Rmult_1_l.
      pose proof (f_equal snd Q) as Q'. match type of Q' with _ = ?t => assert (X : t = - fval (cim (@cadd _ (NF i) (nf i k) (rt i (nf i k))))) by reflexivity end. rewrite X in Q'. clear X.
      unfold cim in Q' |- *. rewrite <- (Ropp_involutive (fval (snd (@cadd _ (NF i) (nf i k) (rt i (nf i k)))))). f_equal. symmetry. exact Q'.
Qed.

Definition sw (k : nat) : bool := if Req_EM_T (cim (nth k l C0)) 0 then if Rlt_dec (cre (nth k l C0) * cre (nth k l C0)) (wo * wo) then true else false else false.
Definition mm (j : nat) : nat := if (j <? n)%nat then (if sw j then n + j else m j)%nat else (if sw (j - n) then j - n else n + m (j - n))%nat.
Theorem roots_mate : lmate I pr em W sz (pl ++ mi) (fun i => pf i ++ mf i) mm.
Proof.
  destruct len_pl as [L1 L2]. split.
  { intros i Wi. destruct Ml as [L _]. specialize (L i (SW i Wi)). unfold pf, mf. rewrite !app_length, !map_length, L1, L2, L. reflexivity. }
  rewrite app_length, L1, L2.
  assert (P1 : forall k, (k < n)%nat -> nth k (pl ++ mi) C0 = cadd (nth k l C0) (sr k)) by (intros k Hk; rewrite app_nth1 by lia; apply nth_pl; exact Hk).
  assert (P2 : forall k, (k < n)%nat -> nth (n + k) (pl ++ mi) C0 = csub (nth k l C0) (sr k)) by (intros k Hk; rewrite app_nth2 by lia; rewrite L1; replace (n + k - n)%nat with k by lia; apply nth_pl; exact Hk).
  assert (LF : forall i, W i -> length (pf i) = n) by (intros i Wi; unfold pf; rewrite map_length; destruct Ml as [L _]; apply L, SW, Wi).
  assert (F1 : forall i k, W i -> (k < n)%nat -> nth k (pf i ++ mf i) (@czero _ (NF i)) = @cadd _ (NF i) (nf i k) (rt i (nf i k))) by (intros i k Wi Hk; rewrite app_nth1 by (rewrite LF by exact Wi; exact Hk); apply nth_pf; [apply SW, Wi|exact Hk]).
  assert (F2 : forall i k, W i -> (k < n)%nat -> nth (n + k) (pf i ++ mf i) (@czero _ (NF i)) = @csub _ (NF i) (nf i k) (rt i (nf i k))) by (intros i k Wi Hk; rewrite app_nth2 by (rewrite LF by exact Wi; lia); rewrite LF by exact Wi; replace (n + k - n)%nat with k by lia; apply nth_pf; [apply SW, Wi|exact Hk]).
  assert (KEY : forall k, (k < n)%nat ->
    (sw k = true /\ (cim (cadd (nth k l C0) (sr k)) <> 0 /\ cim (csub (nth k l C0) (sr k)) <> 0) /\
      cm I pr em W (cadd (nth k l C0) (sr k)) (fun i => @cadd _ (NF i) (nf i k) (rt i (nf i k))) (fun i => @csub _ (NF i) (nf i k) (rt i (nf i k))) /\
      cm I pr em W (csub (nth k l C0) (sr k)) (fun i => @csub _ (NF i) (nf i k) (rt i (nf i k))) (fun i => @cadd _ (NF i) (nf i k) (rt i (nf i k)))) \/
    (sw k = false /\ (m k < n)%nat /\ m (m k) = k /\ sw (m k) = false /\ (m k = k \/ (cim (cadd (nth k l C0) (sr k)) <> 0 /\ cim (csub (nth k l C0) (sr k)) <> 0)) /\
      cm I pr em W (cadd (nth k l C0) (sr k)) (fun i => @cadd _ (NF i) (nf i k) (rt i (nf i k))) (fun i => @cadd _ (NF i) (nf i (m k)) (rt i (nf i (m k)))) /\
      cm I pr em W (csub (nth k l C0) (sr k)) (fun i => @csub _ (NF i) (nf i k) (rt i (nf i k))) (fun i => @csub _ (NF i) (nf i (m k)) (rt i (nf i (m k)))))).
  { intros k Hk. pose proof Ml as [_ M]. destruct (M k Hk) as (A & B & D & _). pose proof (sr_sq k Hk) as SQ. assert (Hz : In (nth k l C0) l) by (apply nth_In; exact Hk).
    destruct (Req_EM_T (cim (nth k l C0)) 0) as [Z|Z].
    - assert (Mk : m k = k) by tauto. destruct (Rlt_dec (cre (nth k l C0) * cre (nth k l C0)) (wo * wo)) as [L|L].
      + left. split; [unfold sw; destruct (Req_EM_T _ _); [destruct (Rlt_dec _ _); [reflexivity|contradiction]|contradiction]|]. split; [|exact (mates_pair k Hk Mk Z L)].
        destruct (root_imag _ _ _ Z L SQ) as [_ NI]. cbn [cadd csub cim snd fst nadd nsub RNum]. cbn. rewrite Z. lra.
      + right. assert (S : sw k = false) by (unfold sw; destruct (Req_EM_T _ _); [destruct (Rlt_dec _ _); [contradiction|reflexivity]|reflexivity]).
        assert (L' : wo * wo < cre (nth k l C0) * cre (nth k l C0)).
        { destruct (Req_dec (cre (nth k l C0) * cre (nth k l C0)) (wo * wo)) as [Q|Q]; [|lra]. exfalso. apply (Hl _ Hz). destruct (nth k l C0) as [x y]. cbn in *. subst y. apply C_ext; cbn; lra. }
        split; [exact S|]. rewrite Mk. split; [exact Hk|]. split; [exact Mk|]. split; [exact S|]. split; [left; reflexivity|].
        pose proof (pole_k k Hk) as PK. rewrite Mk in PK. pose proof (mates_real k Hk Mk Z L') as MR. split; [exact (cm_add I pr em W sz _ _ _ _ _ _ PK MR)|exact (cm_sub I pr em W sz _ _ _ _ _ _ PK MR)].
    - right. split; [unfold sw; destruct (Req_EM_T _ _); [contradiction|reflexivity]|]. split; [exact A|]. split; [exact B|]. split.
      { destruct (M (m k) A) as (_ & _ & D' & _). rewrite B in D'. destruct (Nat.eq_dec (m k) k) as [Q|Q].
        - rewrite Q. unfold sw. destruct (Req_EM_T _ _); [contradiction|reflexivity].
        - destruct D' as [D'|D']; [exfalso; apply Q; symmetry; exact D'|]. unfold sw. destruct (Req_EM_T _ _); [contradiction|reflexivity]. }
      split; [right; exact (root_nonreal _ _ wo ltac:(lra) Z SQ)|]. pose proof (mates_off k Hk A Z) as MO. pose proof (pole_k k Hk) as PK.
      split; [exact (cm_add I pr em W sz _ _ _ _ _ _ PK MO)|exact (cm_sub I pr em W sz _ _ _ _ _ _ PK MO)]. }
  intros j Hj. unfold mm. destruct (Nat.ltb_spec j n) as [Lt|Ge].
  - destruct (KEY j Lt) as [(S & [N1 N2] & C1 & C2)|(S & A & B & S' & D & C1 & C2)]; rewrite S.
    + split; [lia|]. destruct (Nat.ltb_spec (n + j) n) as [Q|_]; [lia|]. replace (n + j - n)%nat with j by lia. rewrite S. split; [reflexivity|]. rewrite (P1 j Lt). split; [right; exact N1|].
      eapply cm_ext; [reflexivity| | |exact C1]; cbn beta; intros i Wi; symmetry; [apply F1; assumption|apply F2; assumption].
    + split; [lia|]. destruct (Nat.ltb_spec (m j) n) as [_|Q]; [|lia]. rewrite S'. split; [exact B|]. rewrite (P1 j Lt). split; [tauto|].
      eapply cm_ext; [reflexivity| | |exact C1]; cbn beta; intros i Wi; symmetry; apply F1; assumption.
  - assert (Hk : (j - n < n)%nat) by lia. set (k := (j - n)%nat) in *. assert (Ej : j = (n + k)%nat) by (unfold k; lia). clearbody k. subst j.
    destruct (KEY k Hk) as [(S & [N1 N2] & C1 & C2)|(S & A & B & S' & D & C1 & C2)]; rewrite S.
    + split; [lia|]. destruct (Nat.ltb_spec k n) as [_|Q]; [|lia]. rewrite S. split; [reflexivity|]. rewrite (P2 k Hk). split; [right; exact N2|].
      eapply cm_ext; [reflexivity| | |exact C2]; cbn beta; intros i Wi; symmetry; [apply F2; assumption|apply F1; assumption].
    + split; [lia|]. destruct (Nat.ltb_spec (n + m k) n) as [Q|_]; [lia|]. replace (n + m k - n)%nat with (m k) by lia. rewrite S'. split; [lia|]. rewrite (P2 k Hk). split; [destruct D as [D|D]; [left; lia|right; apply D]|].
      eapply cm_ext; [reflexivity| | |exact C2]; cbn beta; intros i Wi; symmetry; apply F2; assumption.
Qed.
End Pattern.
End Roots.

(** ** Anti-conjugate pairs: the real parts are opposite, the imaginary parts equal *)
Section Anti.
Variable I : Type.
Variables pr em : I -> Z.
Variable sz : I -> bool.
Variable V : I -> Prop.
Notation NF i := (SFNum (pr i) (em i) (sz i)).
Notation sm := (sm I pr em V).
Notation cm := (cm I pr em V).
Definition am (c : C) (f f' : I -> cplx spec_float) : Prop :=
  sm true (fst c) (fun i => fst (f i)) (fun i => fst (f' i)) /\ sm false (snd c) (fun i => snd (f i)) (fun i => snd (f' i)).
Lemma am_imag c f s : napp I pr em V c f -> am (0, c) (fun i => (S754_zero s, f i)) (fun i => (S754_zero s, f i)).
Proof. intros H. split; [apply sm_zero|apply sm_self; exact H]. Qed.
Lemma am_mul c d f g f' g' : am c f f' -> am d g g' -> cm (cmul c d) (fun i => @cmul _ (NF i) (f i) (g i)) (fun i => @cmul _ (NF i) (f' i) (g' i)).
Proof.
  intros [A B] [A' B']. split.
  - exact (sm_sub I pr em V _ _ _ _ _ _ _ (sm_mul I pr em V _ _ _ _ _ _ _ _ A A') (sm_mul I pr em V _ _ _ _ _ _ _ _ B B')).
  - exact (sm_add I pr em V _ _ _ _ _ _ _ (sm_mul I pr em V _ _ _ _ _ _ _ _ A B') (sm_mul I pr em V _ _ _ _ _ _ _ _ B A')).
Qed.
Lemma am_div c d f g f' g' : d <> C0 -> am c f f' -> cm d g g' -> am (cdiv c d) (fun i => @cdiv _ (NF i) (f i) (g i)) (fun i => @cdiv _ (NF i) (f' i) (g' i)).
Proof.
  intros N [A B] [A' B'].
  assert (N0 : fst d * fst d + snd d * snd d <> 0). { intros Q. apply N. destruct (Rplus_sqr_eq_0 _ _ Q) as [Q1 Q2]. apply C_ext; assumption. }
  pose proof (sm_add I pr em V _ _ _ _ _ _ _ (sm_mul I pr em V _ _ _ _ _ _ _ _ A' A') (sm_mul I pr em V _ _ _ _ _ _ _ _ B' B')) as S. cbn [xorb] in S. split.
  - exact (sm_div I pr em V _ _ _ _ _ _ _ _ N0 (sm_add I pr em V _ _ _ _ _ _ _ (sm_mul I pr em V _ _ _ _ _ _ _ _ A A') (sm_mul I pr em V _ _ _ _ _ _ _ _ B B')) S).
  - exact (sm_div I pr em V _ _ _ _ _ _ _ _ N0 (sm_sub I pr em V _ _ _ _ _ _ _ (sm_mul I pr em V _ _ _ _ _ _ _ _ B A') (sm_mul I pr em V _ _ _ _ _ _ _ _ A B')) S).
Qed.
(** Zeros on the imaginary axis. *)
Lemma nth_rep {A} (a d : A) n k : (k < n)%nat -> nth k (repeat a n) d = a.
Proof. revert k. induction n as [|n IH]; intros k Hk; [lia|]. destruct k; [reflexivity|]. apply IH. lia. Qed.
Lemma lmate_axis wo wf n : 0 < wo -> napp I pr em V wo wf ->
  lmate I pr em V sz (repeat (0, 1 * wo) n ++ repeat (0, -1 * wo) n)
    (fun i => repeat (@nzero _ (NF i), @nmul _ (NF i) (@none _ (NF i)) (wf i)) n ++ repeat (@nzero _ (NF i), @nmul _ (NF i) (@nofZ _ (NF i) (-1)) (wf i)) n)
    (fun k => if (k <? n)%nat then (n + k)%nat else (k - n)%nat).
Proof.
  intros Pw Nw. pose proof (sm_mul I pr em V _ _ _ _ _ _ _ _ (sm_int I pr em V sz 1) (sm_self I pr em V _ _ Nw)) as M. cbn [xorb] in M. change (- (1))%Z with (-1)%Z in M.
  assert (C1 : cm (0, 1 * wo) (fun i => (@nzero _ (NF i), @nmul _ (NF i) (@none _ (NF i)) (wf i))) (fun i => (@nzero _ (NF i), @nmul _ (NF i) (@nofZ _ (NF i) (-1)) (wf i)))) by (split; [apply sm_zero|exact M]).
  pose proof (cm_sym I pr em V _ _ _ C1) as C2. split; [intros i _; rewrite !app_length, !repeat_length; reflexivity|].
  rewrite app_length, !repeat_length. intros k Hk. destruct (Nat.ltb_spec k n) as [L|L].
  - split; [lia|]. destruct (Nat.ltb_spec (n + k) n) as [Q|_]; [lia|]. split; [lia|]. rewrite app_nth1 by (rewrite repeat_length; exact L). rewrite nth_rep by exact L. split; [right; cbn; lra|].
    eapply cm_ext; [reflexivity| | |exact C1]; cbn beta; intros i _; symmetry.
    + rewrite app_nth1 by (rewrite repeat_length; exact L). apply nth_rep. exact L.
    + rewrite app_nth2 by (rewrite repeat_length; lia). rewrite repeat_length. apply nth_rep. lia.
  - split; [lia|]. destruct (Nat.ltb_spec (k - n) n) as [_|Q]; [|lia]. split; [lia|]. rewrite app_nth2 by (rewrite repeat_length; exact L). rewrite repeat_length, nth_rep by lia. split; [right; cbn; lra|].
    eapply cm_ext; [| | |exact C2]; [apply C_ext; cbn; ring| |]; cbn beta; intros i _; symmetry.
    + rewrite app_nth2 by (rewrite repeat_length; exact L). rewrite repeat_length. apply nth_rep. lia.
    + rewrite app_nth1 by (rewrite repeat_length; lia). apply nth_rep. lia.
Qed.
End Anti.

(** ** The stages *)
Section Stage.
Variable I : Type.
Variables pr em : I -> Z.
Variable sz : I -> bool.
Variable E : R.
Hypothesis HE : 0 <= E.
Variable T : I -> Trans spec_float.
Variable V : I -> Prop.
Hypothesis HT : forall i, V i -> (1 < pr i < em i)%Z -> accurate_trans (pr i) (em i) E (T i).
Hypothesis HS : forall i, V i -> (1 < pr i < em i)%Z -> symmetric_trans (pr i) (em i) (T i).
Notation NF i := (SFNum (pr i) (em i) (sz i)).
Notation napp := (napp I pr em V).
Lemma roots_stage_mate l lf m wo wf (Ml : lmate I pr em V sz l lf m) (Nw : napp wo wf) (Pw : 0 < wo) (Hr : forall z, In z l -> cre z < 0) (Hl : forall z, In z l -> (z * z)%C <> RtoC (wo * wo)%R) :
  let q := fun z => csub (csquare z) (npow wo 2, 0) in
  let qf := fun i z => @csub _ (NF i) (@csquare _ (NF i) z) (@npow _ (NF i) (wf i) 2, @nzero _ (NF i)) in
  exists pat : I -> list bool, (forall i, length (pat i) = length l) /\ forall sg, exists l' m',
    Permutation l' (map (fun z => cadd z (csqrt (q z))) l ++ map (fun z => csub z (csqrt (q z))) l) /\
    lmate I pr em (fun i => V i /\ pat i = sg) sz l'
      (fun i => map (fun z => @cadd _ (NF i) z (@csqrt _ (NF i) (T i) (qf i z))) (lf i) ++ map (fun z => @csub _ (NF i) z (@csqrt _ (NF i) (T i) (qf i z))) (lf i)) m'.
Proof.
  intros q qf. exists (pattern I pr em sz T l lf q qf). split; [apply pattern_length|]. intros sg.
  exists (plus_list l q sg ++ minus_list l q sg), (mm l m wo). split; [apply signed_perm|].
  exact (roots_mate I pr em sz E HE T V HT HS l lf m wo wf Ml Nw Pw Hr Hl sg).
Qed.

Variables (g : @ZpkFormatFilter R) (gf : I -> @ZpkFormatFilter spec_float).
Hypothesis Hg : znapp I pr em V sz g gf.
Hypothesis Mg : zmate I pr em V sz g gf.
Hypothesis Gz : zk_z g = [].
Hypothesis Gp : Forall (fun p => cre p < 0) (zk_p g).
Variables (W0 W1 : R) (w0 w1 : I -> spec_float).
Hypothesis N0 : napp W0 w0.
Hypothesis N1 : napp W1 w1.
Hypothesis P0 : 0 < W0.
Hypothesis P1 : W0 < W1.
Let wo : R := sqrt (W0 * W1).
Let wf (i : I) : spec_float := @nsqrt _ (NF i) (@nmul _ (NF i) (w0 i) (w1 i)).
Let bw : R := W1 - W0.
Let bf (i : I) : spec_float := @nsub _ (NF i) (w1 i) (w0 i).
Definition mstaged (real : res (@ZpkFormatFilter R)) (float : I -> res (@ZpkFormatFilter spec_float)) (ok : @ZpkFormatFilter R -> Prop) : Prop :=
  exists (pat : I -> list bool) (n : nat) h0 hf, (forall i, length (pat i) = n) /\ real = Ok h0 /\ (forall i, V i -> float i = Ok (hf i)) /\ ok h0 /\
  forall sg, exists h, same_perm h h0 /\ P_FloatDesign.znapp I pr em (fun i => V i /\ pat i = sg) sz h hf /\ zmate I pr em (fun i => V i /\ pat i = sg) sz h hf.

Lemma mate_lp2bp : no_double Bandpass (zk_p g) W0 W1 -> mstaged (lp2bp_zpk_dyn g (Some wo) (Some bw)) (fun i => @lp2bp_zpk_dyn _ (NF i) (T i) (gf i) (Some (wf i)) (Some (bf i))) good.
Proof.
  intros ND. pose proof Hg as [_ [NP NK]]. destruct Mg as [_ [mp MP]]. pose proof (napp_wo I pr em sz V W0 W1 w0 w1 N0 N1 P0 P1) as NW. fold wo wf in NW. pose proof (napp_bw I pr em sz V W0 W1 w0 w1 N0 N1) as NB. fold bw bf in NB.
  pose proof (wo_pos W0 W1 P0 P1) as PW. fold wo in PW. assert (PB : 0 < bw) by (unfold bw; lra).
  set (hp := fun zi : C => cmul zi (bw / 2, 0)). set (hpf := fun i zi => @cmul _ (NF i) zi (@ndiv _ (NF i) (bf i) (@two _ (NF i)), @nzero _ (NF i))).
  assert (NB2 : napp (bw / 2) (fun i => @ndiv _ (NF i) (bf i) (@two _ (NF i)))) by (apply napp_div; [apply IZR_neq; lia|exact NB|exact (napp_intZ I pr em V sz 2)]).
  assert (Ml : lmate I pr em V sz (map hp (zk_p g)) (fun i => map (hpf i) (zk_p (gf i))) mp).
  { apply (lmate_map I pr em V sz _ _ _ hp hpf MP).
    - intros k _. apply im_scale. lra.
    - intros k f f' Hk Q. apply (cm_mul I pr em V sz); [exact Q|]. apply cm_real. exact NB2. }
  assert (Hl : forall z, In z (map hp (zk_p g)) -> (z * z)%C <> RtoC (wo * wo)%R).
  { intros z Hz. apply in_map_iff in Hz. destruct Hz as [p [<- Hp]]. unfold wo. rewrite (wo_sq W0 W1 P0 P1). exact (ND p Hp). }
  assert (Hr : forall z, In z (map hp (zk_p g)) -> cre z < 0).
  { intros z Hz. apply in_map_iff in Hz. destruct Hz as [p [<- Hp]]. rewrite Forall_forall in Gp. apply scale_stable; [lra|apply Gp, Hp]. }
  destruct (roots_stage_mate _ _ _ _ _ Ml NW PW Hr Hl) as [pat [Lp H]]. set (n := length (zk_p g)).
  set (root := fun z : C => csqrt (csub (csquare z) (npow wo 2, 0))) in *.
  set (rootf := fun i (z : cplx spec_float) => @csqrt _ (NF i) (T i) (@csub _ (NF i) (@csquare _ (NF i) z) (@npow _ (NF i) (wf i) 2, @nzero _ (NF i)))).
  exists pat, (length (map hp (zk_p g))).
  exists (mkZpk (repeat C0 n) (map (fun z => cadd z (root z)) (map hp (zk_p g)) ++ map (fun z => csub z (root z)) (map hp (zk_p g))) (zk_k g * npow bw n)).
  exists (fun i => mkZpk (repeat (@czero _ (NF i)) n) (map (fun z => @cadd _ (NF i) z (rootf i z)) (map (hpf i) (zk_p (gf i))) ++ map (fun z => @csub _ (NF i) z (rootf i z)) (map (hpf i) (zk_p (gf i)))) (@nmul _ (NF i) (zk_k (gf i)) (@npow _ (NF i) (bf i) n))).
  assert (EQ : lp2bp_zpk_dyn g (Some wo) (Some bw) = Ok (mkZpk (repeat C0 n) (map (fun z => cadd z (root z)) (map hp (zk_p g)) ++ map (fun z => csub z (root z)) (map hp (zk_p g))) (zk_k g * npow bw n))).
  { unfold lp2bp_zpk_dyn, relative_degree_dyn. rewrite Gz. cbn [length Nat.ltb Nat.leb bind map app]. rewrite !map_map. unfold n. rewrite Nat.sub_0_r. reflexivity. }
  split; [exact Lp|]. split; [exact EQ|]. split; [|split].
  - intros i Vi. destruct (gf_len I pr em sz V g gf Hg Gz i Vi) as [Z L]. unfold lp2bp_zpk_dyn, relative_degree_dyn. rewrite Z. cbn [length Nat.ltb Nat.leb bind map app]. rewrite !map_map, L, Nat.sub_0_r. reflexivity.
  - destruct (lp2bp_eq g wo bw _ EQ) as [_ [Ez [Ep _]]]. split; [|split].
    + cbn [zk_z]. apply Forall_forall. intros z Hz. apply repeat_spec in Hz. subst z. reflexivity.
    + rewrite Ep. apply quad_Forall; [lra|]. apply Forall_forall. exact Hr.
    + cbn [zk_z zk_p]. rewrite app_length, !map_length, repeat_length. fold n. lia.
  - intros sg. destruct (H sg) as (l' & m' & Pm & Mm). exists (mkZpk (repeat C0 n) l' (zk_k g * npow bw n)). split; [apply same_upto_perm; split; [reflexivity|split; [exact Pm|reflexivity]]|]. split.
    + split; [|split]; cbn [zk_z zk_p zk_k].
      * apply lnapp_repeat. apply cnapp_zero.
      * exact (lmate_lnapp _ _ _ _ _ _ _ _ Mm).
      * apply (napp_shrink pr em V); [intros i [Vi _]; exact Vi|]. apply napp_mul; [exact NK|]. apply (napp_npow I pr em V sz). exact NB.
    + split; cbn [zk_z zk_p]; [|exists m'; exact Mm]. exists (fun k => k). apply (lmate_repeat_real I pr em _ sz 0 (fun _ => S754_zero false) false n). apply napp_zero.
Qed.

Lemma mate_lp2bs : conj_closed (zk_p g) -> no_double Bandstop (zk_p g) W0 W1 -> mstaged (lp2bs_zpk_dyn g (Some wo) (Some bw)) (fun i => @lp2bs_zpk_dyn _ (NF i) (T i) (gf i) (Some (wf i)) (Some (bf i))) good.
Proof.
  intros CC ND. pose proof Hg as [_ [NP NK]]. destruct Mg as [_ [mp MP]]. pose proof (napp_wo I pr em sz V W0 W1 w0 w1 N0 N1 P0 P1) as NW. fold wo wf in NW. pose proof (napp_bw I pr em sz V W0 W1 w0 w1 N0 N1) as NB. fold bw bf in NB.
  pose proof (wo_pos W0 W1 P0 P1) as PW. fold wo in PW. assert (PB : 0 < bw) by (unfold bw; lra).
  assert (Gp0 : forall p, In p (zk_p g) -> p <> C0) by (rewrite Forall_forall in Gp; intros p Hp ->; apply Gp in Hp; cbn in Hp; lra).
  assert (NI0 : ~ In C0 (zk_p g)) by (intros Q; apply (Gp0 _ Q); reflexivity).
  assert (N1' : napp (-1) (fun i => @nofZ _ (NF i) (-1))) by apply (napp_intZ I pr em V sz).
  set (hp := fun zi : C => cmul (cdiv (0, bw / 2) zi) (0, -1)). set (hpf := fun i zi => @cmul _ (NF i) (@cdiv _ (NF i) (@nzero _ (NF i), @ndiv _ (NF i) (bf i) (@two _ (NF i))) zi) (@nzero _ (NF i), @nofZ _ (NF i) (-1))).
  assert (NB2 : napp (bw / 2) (fun i => @ndiv _ (NF i) (bf i) (@two _ (NF i)))) by (apply napp_div; [apply IZR_neq; lia|exact NB|exact (napp_intZ I pr em V sz 2)]).
  assert (HPE : forall p, hp p = (RtoC (bw / 2)%R / p)%C) by (intros r; unfold hp; apply C_ext; cbn; unfold Rdiv; ring).
  assert (Ml : lmate I pr em V sz (map hp (zk_p g)) (fun i => map (hpf i) (zk_p (gf i))) mp).
  { apply (lmate_map I pr em V sz _ _ _ hp hpf MP).
    - intros k _. rewrite HPE. apply (im_recip (bw / 2)). lra.
    - intros k f f' Hk Q. apply (am_mul I pr em sz V); [|apply am_imag; exact N1']. apply (am_div I pr em sz V); [apply Gp0, nth_In, Hk|apply am_imag; exact NB2|exact Q]. }
  assert (Hl : forall z, In z (map hp (zk_p g)) -> (z * z)%C <> RtoC (wo * wo)%R).
  { intros z Hz. apply in_map_iff in Hz. destruct Hz as [p [<- Hp]]. unfold wo. rewrite (wo_sq W0 W1 P0 P1), HPE. exact (ND p Hp). }
  assert (Hr : forall z, In z (map hp (zk_p g)) -> cre z < 0).
  { intros z Hz. apply in_map_iff in Hz. destruct Hz as [p [<- Hp]]. rewrite HPE. rewrite Forall_forall in Gp. apply inv_stable; [lra|apply Gp, Hp]. }
  destruct (roots_stage_mate _ _ _ _ _ Ml NW PW Hr Hl) as [pat [Lp H]]. set (n := length (zk_p g)).
  set (root := fun z : C => csqrt (csub (csquare z) (npow wo 2, 0))) in *.
  set (rootf := fun i (z : cplx spec_float) => @csqrt _ (NF i) (T i) (@csub _ (NF i) (@csquare _ (NF i) z) (@npow _ (NF i) (wf i) 2, @nzero _ (NF i)))).
  set (zs := repeat (0, 1 * wo) n ++ repeat (0, -1 * wo) n).
  set (den := cprod (map (fun pi => cmul (-1, 0) pi) (zk_p g))).
  exists pat, (length (map hp (zk_p g))).
  exists (mkZpk zs (map (fun z => cadd z (root z)) (map hp (zk_p g)) ++ map (fun z => csub z (root z)) (map hp (zk_p g))) (zk_k g * (1 / cre den))).
  exists (fun i => mkZpk (repeat (@nzero _ (NF i), @nmul _ (NF i) (@none _ (NF i)) (wf i)) n ++ repeat (@nzero _ (NF i), @nmul _ (NF i) (@nofZ _ (NF i) (-1)) (wf i)) n)
     (map (fun z => @cadd _ (NF i) z (rootf i z)) (map (hpf i) (zk_p (gf i))) ++ map (fun z => @csub _ (NF i) z (rootf i z)) (map (hpf i) (zk_p (gf i))))
     (@nmul _ (NF i) (zk_k (gf i)) (@ndiv _ (NF i) (@none _ (NF i)) (cre (@cprod _ (NF i) (map (fun pi => @cmul _ (NF i) (@nofZ _ (NF i) (-1), @nzero _ (NF i)) pi) (zk_p (gf i)))))))).
  assert (EQ : lp2bs_zpk_dyn g (Some wo) (Some bw) = Ok (mkZpk zs (map (fun z => cadd z (root z)) (map hp (zk_p g)) ++ map (fun z => csub z (root z)) (map hp (zk_p g))) (zk_k g * (1 / cre den)))).
  { unfold lp2bs_zpk_dyn, relative_degree_dyn. rewrite Gz. cbn [length Nat.ltb Nat.leb bind map app fold_left]. rewrite !map_map. unfold zs, n. rewrite Nat.sub_0_r. reflexivity. }
  assert (D0 : cre den <> 0).
  { assert (Hd : hom (zk_p g) C0 C1 <> C0) by (rewrite hom_1; apply root_product_neq0, NI0).
    assert (Im : cim (hom (zk_p g) C0 C1) = 0) by apply (hom_real _ 0 1), CC.
    unfold den. rewrite (map_ext_in (fun pi => cmul (-1, 0) pi) cneg) by (intros; apply C_ext; cbn; ring). rewrite !cprod_cpl, cpl_map_neg. intros Q. apply Hd. apply C_ext; assumption. }
  split; [exact Lp|]. split; [exact EQ|]. split; [|split].
  - intros i Vi. destruct (gf_len I pr em sz V g gf Hg Gz i Vi) as [Z L]. unfold lp2bs_zpk_dyn, relative_degree_dyn. rewrite Z. cbn [length Nat.ltb Nat.leb bind map app fold_left]. rewrite !map_map, L, Nat.sub_0_r. reflexivity.
  - destruct (lp2bs_eq g wo bw Gz NI0 CC) as [f' [EQ' [Ez [Ep _]]]]. rewrite EQ in EQ'. injection EQ' as <-. split; [|split].
    + cbn [zk_z]. apply Forall_forall. intros z Hz. unfold zs in Hz. apply in_app_or in Hz. destruct Hz as [Hz|Hz]; apply repeat_spec in Hz; subst z; reflexivity.
    + rewrite Ep. apply quad_Forall; [lra|]. apply Forall_forall. intros z Hz. apply in_map_iff in Hz. destruct Hz as [p [<- Hp]].
      rewrite Forall_forall in Gp. apply inv_stable; [unfold bw; lra|apply Gp, Hp].
    + cbn [zk_z zk_p]. unfold zs. rewrite !app_length, !map_length, !repeat_length. fold n. lia.
  - intros sg. destruct (H sg) as (l' & m' & Pm & Mm). exists (mkZpk zs l' (zk_k g * (1 / cre den))). split; [apply same_upto_perm; split; [reflexivity|split; [exact Pm|reflexivity]]|].
    assert (SH : forall i, V i /\ pat i = sg -> V i) by (intros i [Vi _]; exact Vi).
    pose proof (lmate_axis I pr em sz (fun i => V i /\ pat i = sg) wo wf n PW (napp_shrink pr em V _ _ _ SH NW)) as MZ. split.
    + split; [|split]; cbn [zk_z zk_p zk_k].
      * exact (lmate_lnapp _ _ _ _ _ _ _ _ MZ).
      * exact (lmate_lnapp _ _ _ _ _ _ _ _ Mm).
      * apply (napp_shrink pr em V _ _ _ SH). apply napp_mul; [exact NK|]. apply napp_div; [exact D0|apply napp_one|].
        refine (proj1 (cnapp_prod I pr em V sz _ _ _ _ _ (cnapp_one I pr em V sz))).
        apply (lnapp_map I pr em V sz _ _ (fun pi => cmul (-1, 0) pi) (fun i pi => @cmul _ (NF i) (@nofZ _ (NF i) (-1), @nzero _ (NF i)) pi)); [|exact NP].
        intros k Hk Nk. apply cnapp_mul; [|exact Nk]. split; [exact N1'|apply napp_zero].
    + split; cbn [zk_z zk_p]; [eexists; exact MZ|exists m'; exact Mm].
Qed.

Lemma mate_band2 bt : (bt = Bandpass \/ bt = Bandstop) -> conj_closed (zk_p g) -> no_double bt (zk_p g) W0 W1 ->
  mstaged (band2 bt g W0 W1) (fun i => @band2 _ (NF i) (T i) bt (gf i) (w0 i) (w1 i)) good.
Proof. intros [-> | ->] CC ND; [apply mate_lp2bp; exact ND|apply mate_lp2bs; assumption]. Qed.
End Stage.
