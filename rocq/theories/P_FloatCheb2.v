(** Rounding in the Chebyshev II prototype and in the low-pass designs made from it. *)
From Coq Require Import Reals Ratan ZArith SpecFloat List Lia Lra Bool Permutation.
From Flocq Require Import Core BinarySingleNaN.
From Verif Require Import Base Num Trans M_Complex M_Filter M_Design Cx S_Design S_Filter S_Float S_FloatFft S_FloatZpk S_FloatTrans S_FloatBand S_FloatSos
  P_Float P_FloatStats P_Poly P_Lp P_Proto P_Cheb P_FloatMed P_FloatI0 P_FloatZi P_FloatPoly T_FloatPoly P_FloatDesign P_FloatSqrt T_FloatDesign P_FloatBand P_FloatBandStage T_FloatBand P_FloatSym P_FloatMate.
Import ListNotations.
Local Open Scope R_scope.

Section Near.
Variable I : Type.
Variables pr em : I -> Z.
Variable V : I -> Prop.
Variable sz : I -> bool.
Notation NF i := (SFNum (pr i) (em i) (sz i)).
Notation napp := (napp I pr em V).
Notation lnapp := (lnapp I pr em V sz).
Notation cnapp := (cnapp I pr em V).
Notation znapp := (znapp I pr em V sz).
Variable E : R.
Hypothesis HE : 0 <= E.
Variable T : I -> Trans spec_float.
Hypothesis HT : forall i, V i -> (1 < pr i < em i)%Z -> accurate_trans (pr i) (em i) E (T i).

Lemma zm_range n m : (0 < n)%nat -> In m (zm n) -> (Z.abs m < Z.of_nat n)%Z /\ m <> 0%Z.
Proof.
  intros Hn Hm. unfold zm in Hm. cbv zeta in Hm.
  destruct (Nat.odd n) eqn:Od.
  - apply in_app_iff in Hm. unfold step2 in Hm. destruct Hm as [Hm|Hm]; apply in_map_iff in Hm; destruct Hm as [k [<- Hk]]; apply in_seq in Hk.
    + assert (Q : (Z.of_nat k < (0 - (- Z.of_nat n + 1) + 1) / 2)%Z) by lia. apply Nat.odd_spec in Od. destruct Od as [j Ej].
      assert (Z.of_nat k < Z.of_nat j)%Z; [|lia]. eapply Z.lt_le_trans; [exact Q|]. replace (0 - (- Z.of_nat n + 1) + 1)%Z with (Z.of_nat j * 2 + 1)%Z by lia. rewrite Z.div_add_l by lia. change (1 / 2)%Z with 0%Z. lia.
    + assert (Q : (Z.of_nat k < (Z.of_nat n - 2 + 1) / 2)%Z) by lia. apply Nat.odd_spec in Od. destruct Od as [j Ej].
      assert (Z.of_nat k < Z.of_nat j)%Z; [|lia]. eapply Z.lt_le_trans; [exact Q|]. replace (Z.of_nat n - 2 + 1)%Z with (Z.of_nat j * 2)%Z by lia. rewrite Z.div_mul by lia. lia.
  - split; [apply step2_range; exact Hm|]. unfold step2 in Hm. apply in_map_iff in Hm. destruct Hm as [k [<- _]].
    assert (Ev : Nat.even n = true) by (rewrite <- Nat.negb_odd, Od; reflexivity). apply Nat.even_spec in Ev. destruct Ev as [j Ej]. lia.
Qed.
Lemma sin_angle n m : (Z.abs m < n)%Z -> m <> 0%Z -> sin (IZR m * (PI / (2 * IZR n))) <> 0.
Proof.
  intros Ha H0. pose proof PI_RGT_0 as P. assert (N0 : 0 < IZR n) by (apply IZR_lt; lia).
  assert (B : Rabs (IZR m * (PI / (2 * IZR n))) < PI / 2).
  { rewrite Rabs_mult, (Rabs_right (PI / (2 * IZR n))) by (apply Rle_ge; left; apply Rdiv_lt_0_compat; lra). rewrite <- abs_IZR.
    apply (Rmult_lt_reg_r (2 * IZR n / PI)); [apply Rdiv_lt_0_compat; lra|]. replace (IZR (Z.abs m) * (PI / (2 * IZR n)) * (2 * IZR n / PI)) with (IZR (Z.abs m)) by (field; lra).
    replace (PI / 2 * (2 * IZR n / PI)) with (IZR n) by (field; lra). apply IZR_lt. exact Ha. }
  apply Rabs_def2 in B. intros S. assert (Z : IZR m * (PI / (2 * IZR n)) = 0).
  { destruct (Rtotal_order (IZR m * (PI / (2 * IZR n))) 0) as [L|[L|L]]; [|exact L|].
    - assert (0 < sin (- (IZR m * (PI / (2 * IZR n))))) by (apply sin_gt_0; lra). rewrite sin_neg in H. lra.
    - assert (0 < sin (IZR m * (PI / (2 * IZR n)))) by (apply sin_gt_0; lra). lra. }
  apply Rmult_integral in Z. destruct Z as [Z|Z]; [apply eq_IZR in Z; lia|]. assert (0 < PI / (2 * IZR n)) by (apply Rdiv_lt_0_compat; lra). lra.
Qed.

Lemma stage_cheb2ap n rs rf : 0 < rs -> napp rs rf -> znapp (@cheb2ap_dyn R RNum RTrans n rs) (fun i => @cheb2ap_dyn _ (NF i) (T i) n (rf i)).
Proof.
  intros Hr NR. pose proof (napp_intZ I pr em V sz 10) as N10. destruct n as [|n'].
  { unfold cheb2ap_dyn. split; [apply lnapp_nil|]. split; [apply lnapp_nil|]. apply napp_one. }
  set (n := S n'). unfold cheb2ap_dyn. fold n. cbv zeta. change (match n with 0%nat => ?a | S _ => ?b end) with b.
  set (nz := Z.of_nat n). assert (Hnz : (0 < nz)%Z) by (unfold nz, n; lia). assert (Hn : (0 < n)%nat) by (unfold n; lia).
  fold (zm n).
  set (de := @ndiv R RNum none (sqrt (Rpower 10 (1 / 10 * rs) - 1))).
  set (df := fun i => @ndiv _ (NF i) (@none _ (NF i)) (@nsqrt _ (NF i) (@nsub _ (NF i) (@tpowf _ (T i) (@nofZ _ (NF i) 10) (@nmul _ (NF i) (@ndiv _ (NF i) (@none _ (NF i)) (@nofZ _ (NF i) 10)) (rf i))) (@none _ (NF i))))).
  assert (P1 : 0 < Rpower 10 (1 / 10 * rs) - 1).
  { assert (1 < Rpower 10 (1 / 10 * rs)); [|lra]. apply Rle_lt_trans with (Rpower 10 0); [rewrite Rpower_O; lra|apply Rpower_lt; lra]. }
  assert (E0 : 0 < de) by (change (0 < 1 / sqrt (Rpower 10 (1 / 10 * rs) - 1)); apply Rdiv_lt_0_compat; [lra|apply sqrt_lt_R0; exact P1]).
  assert (NE : napp de df).
  { apply napp_div; [apply Rgt_not_eq, sqrt_lt_R0; exact P1|apply napp_one|]. apply napp_sqrt; [exact P1|]. apply napp_sub; [|apply napp_one]. apply (napp_powf I pr em V sz E HE T HT). apply napp_mul; [|exact NR]. apply napp_div; [lra|apply napp_one|exact N10]. }
  set (mu := arcsinh (1 / de) / IZR nz). set (muf := fun i => @ndiv _ (NF i) (@tasinh _ (T i) (@ndiv _ (NF i) (@none _ (NF i)) (df i))) (@nofZ _ (NF i) nz)).
  assert (NM : napp mu muf).
  { apply napp_div; [apply IZR_neq; lia| |apply napp_intZ]. apply (napp_asinh I pr em V E HE T HT). apply napp_div; [lra|apply napp_one|exact NE]. }
  pose proof (napp_intZ I pr em V sz 2) as N2.
  set (zr := fun m => cneg (cconj (cdiv (0, 1) (sin (IZR m * (PI / (2 * IZR nz))), 0)))).
  set (zf := fun i m => @cneg _ (NF i) (@cconj _ (NF i) (@cdiv _ (NF i) (@nzero _ (NF i), @none _ (NF i)) (@tsin _ (T i) (@nmul _ (NF i) (@nofZ _ (NF i) m) (@ndiv _ (NF i) (@tpi _ (T i)) (@nmul _ (NF i) (@two _ (NF i)) (@nofZ _ (NF i) nz)))), @nzero _ (NF i))))).
  assert (NZ : lnapp (map zr (zm n)) (fun i => map (zf i) (zm n))).
  { apply (lnapp_of I pr em V sz (zm n) zr zf). intros m Hm. destruct (zm_range n m Hn Hm) as [Ha H0]. fold nz in Ha.
    assert (B : Rabs (IZR m * (PI / (2 * IZR nz))) < 2).
    { replace (IZR m * (PI / (2 * IZR nz))) with (PI * IZR m / IZR (2 * nz)) by (rewrite mult_IZR; field; apply IZR_neq; lia). apply angle_small. exact Ha. }
    assert (NA : napp (IZR m * (PI / (2 * IZR nz))) (fun i => @nmul _ (NF i) (@nofZ _ (NF i) m) (@ndiv _ (NF i) (@tpi _ (T i)) (@nmul _ (NF i) (@two _ (NF i)) (@nofZ _ (NF i) nz))))).
    { apply napp_mul; [apply napp_intZ|]. apply napp_div; [apply Rmult_integral_contrapositive_currified; apply IZR_neq; lia|apply (napp_pi I pr em V E HE T HT)|apply napp_mul; [exact N2|apply napp_intZ]]. }
    apply cnapp_neg.
    assert (NC : cnapp (cdiv (0, 1) (sin (IZR m * (PI / (2 * IZR nz))), 0)) (fun i => @cdiv _ (NF i) (@nzero _ (NF i), @none _ (NF i)) (@tsin _ (T i) (@nmul _ (NF i) (@nofZ _ (NF i) m) (@ndiv _ (NF i) (@tpi _ (T i)) (@nmul _ (NF i) (@two _ (NF i)) (@nofZ _ (NF i) nz)))), @nzero _ (NF i)))).
    { apply cnapp_div.
      - intros Q. apply (f_equal fst) in Q. cbn [fst] in Q. exact (sin_angle nz m Ha H0 Q).
      - split; [apply napp_zero|apply napp_one].
      - split; [|apply napp_zero]. apply (napp_sin I pr em V E HE T HT); [exact B|exact NA]. }
    destruct NC as [NC1 NC2]. split; [exact NC1|]. apply (napp_opp I pr em V). exact NC2. }
  set (er := fun x => cneg (cexp (0, PI * IZR x / (2 * IZR nz)))).
  set (ef := fun i x => @cneg _ (NF i) (@cexp _ (NF i) (T i) (@nzero _ (NF i), @ndiv _ (NF i) (@nmul _ (NF i) (@tpi _ (T i)) (@nofZ _ (NF i) x)) (@nmul _ (NF i) (@two _ (NF i)) (@nofZ _ (NF i) nz))))).
  set (pl := fun x => cdiv cone (sinh mu * cre (er x), cosh mu * cim (er x))).
  set (pf := fun i x => @cdiv _ (NF i) (@cone _ (NF i)) (@nmul _ (NF i) (@tsinh _ (T i) (muf i)) (cre (ef i x)), @nmul _ (NF i) (@tcosh _ (T i) (muf i)) (cim (ef i x)))).
  assert (NP : lnapp (map pl (step2 (- nz + 1) nz)) (fun i => map (pf i) (step2 (- nz + 1) nz))).
  { apply (lnapp_of I pr em V sz (step2 (- nz + 1) nz) pl pf). intros m Hm. apply step2_range in Hm. pose proof (angle_small _ _ Hm) as Ha.
    assert (B : Rabs (PI * IZR m / (2 * IZR nz)) < 2) by (rewrite <- mult_IZR; exact Ha).
    assert (NA : napp (PI * IZR m / (2 * IZR nz)) (fun i => @ndiv _ (NF i) (@nmul _ (NF i) (@tpi _ (T i)) (@nofZ _ (NF i) m)) (@nmul _ (NF i) (@two _ (NF i)) (@nofZ _ (NF i) nz)))).
    { apply napp_div; [apply Rmult_integral_contrapositive_currified; apply IZR_neq; lia|apply napp_mul; [apply (napp_pi I pr em V E HE T HT)|apply napp_intZ]|apply napp_mul; [exact N2|apply napp_intZ]]. }
    assert (NEr : cnapp (er m) (fun i => ef i m)).
    { apply cnapp_neg. split; (apply napp_mul; [apply (napp_exp I pr em V E HE T HT), napp_zero|]); [apply (napp_cos I pr em V E HE T HT)|apply (napp_sin I pr em V E HE T HT)]; assumption. }
    apply cnapp_div.
    - intros Q. pose proof (f_equal fst Q) as Q1. cbn [fst] in Q1. change (sinh mu * cre (er m) = 0) in Q1. apply Rmult_integral in Q1.
      assert (M0 : 0 < mu). { unfold mu. apply Rdiv_lt_0_compat; [|apply IZR_lt; lia]. rewrite <- arcsinh_0. apply arcsinh_lt. apply Rdiv_lt_0_compat; lra. }
      destruct Q1 as [Q1|Q1].
      + assert (0 < sinh mu) by (rewrite <- sinh_0; apply sinh_lt; exact M0). lra.
      + change (- (exp 0 * cos (PI * IZR m / (2 * IZR nz))) = 0) in Q1. rewrite exp_0 in Q1.
        assert (0 < cos (PI * IZR m / (2 * IZR nz))); [|lra].
        assert (Bn : Rabs (PI * IZR m / (2 * IZR nz)) < PI / 2).
        { pose proof PI_RGT_0 as P. assert (N0 : 0 < IZR nz) by (apply IZR_lt; lia).
          replace (PI * IZR m / (2 * IZR nz)) with (IZR m * (PI / (2 * IZR nz))) by (field; lra). rewrite Rabs_mult, (Rabs_right (PI / (2 * IZR nz))) by (apply Rle_ge; left; apply Rdiv_lt_0_compat; lra). rewrite <- abs_IZR.
          apply (Rmult_lt_reg_r (2 * IZR nz / PI)); [apply Rdiv_lt_0_compat; lra|]. replace (IZR (Z.abs m) * (PI / (2 * IZR nz)) * (2 * IZR nz / PI)) with (IZR (Z.abs m)) by (field; lra).
          replace (PI / 2 * (2 * IZR nz / PI)) with (IZR nz) by (field; lra). apply IZR_lt. exact Hm. }
        apply Rabs_def2 in Bn. apply cos_gt_0; lra.
    - apply cnapp_one.
    - destruct NEr as [NE1 NE2]. split; (apply napp_mul; [first [apply (napp_sinh I pr em V E HE T HT)|apply (napp_cosh I pr em V E HE T HT)]; exact NM|]); [exact NE1|exact NE2]. }
  split; [exact NZ|]. split; [exact NP|]. cbn [zk_k].
  assert (MN : forall l lf, lnapp l lf -> cnapp (cprod (map cneg l)) (fun i => @cprod _ (NF i) (map (@cneg _ (NF i)) (lf i)))).
  { intros l lf N. apply (cnapp_prod I pr em V sz _ _ _ _); [|apply cnapp_one]. apply (lnapp_map I pr em V sz l lf cneg (fun i => @cneg _ (NF i))); [|exact N]. intros k Hk Nk. apply cnapp_neg. exact Nk. }
  refine (proj1 (cnapp_div I pr em V sz _ _ _ _ _ (MN _ _ NP) (MN _ _ NZ))).
  apply nz_all. intros c Hc. apply in_map_iff in Hc. destruct Hc as [m [<- Hm]]. destruct (zm_range n m Hn Hm) as [Ha H0]. pose proof (sin_angle nz m Ha H0) as S. unfold zr. intros Q. set (s := sin (IZR m * (PI / (2 * IZR nz)))) in *.
  apply (f_equal snd) in Q. change (- - - ((1 * s - 0 * 0) / (s * s + 0 * 0)) = 0) in Q. replace (- - - ((1 * s - 0 * 0) / (s * s + 0 * 0))) with (- (1 / s)) in Q by (field; exact S). assert (1 / s <> 0) by (unfold Rdiv; rewrite Rmult_1_l; apply Rinv_neq_0_compat, S). lra.
Qed.

(** ** Mates *)
Hypothesis HS : forall i, V i -> (1 < pr i < em i)%Z -> symmetric_trans (pr i) (em i) (T i).
Notation sm := (sm I pr em V).
Notation cm := (cm I pr em V).
Notation lmate := (lmate I pr em V sz).
Notation zmate := (zmate I pr em V sz).
Lemma lmate_sym (l : list Z) (h : Z -> C) (hf : I -> Z -> cplx spec_float) :
  (forall k, (k < length l)%nat -> nth (length l - 1 - k) l 0%Z = (- nth k l 0)%Z) ->
  (forall m, In m l -> cm (h m) (fun i => hf i m) (fun i => hf i (- m)%Z) /\ cim (h m) <> 0) ->
  lmate (map h l) (fun i => map (hf i) l) (fun k => (length l - 1 - k)%nat).
Proof.
  intros S H. split; [intros i _; rewrite !map_length; reflexivity|]. rewrite map_length. intros k Hk.
  destruct (H (nth k l 0%Z) (nth_In l 0%Z Hk)) as [Q N]. split; [lia|]. split; [lia|]. rewrite (nth_map_in h l k C0 0%Z Hk). split; [right; exact N|].
  eapply cm_ext; [reflexivity| | |exact Q]; cbn beta; intros i Vi.
  - symmetry. apply nth_map_in. exact Hk.
  - rewrite (nth_map_in (hf i) l (length l - 1 - k) _ 0%Z) by lia. rewrite S by exact Hk. reflexivity.
Qed.
Lemma zm_sym n k : (k < length (zm n))%nat -> nth (length (zm n) - 1 - k) (zm n) 0%Z = (- nth k (zm n) 0)%Z.
Proof.
  unfold zm. cbv zeta. destruct (Nat.odd n) eqn:Od.
  - apply Nat.odd_spec in Od. destruct Od as [j Ej].
    assert (L1 : step2 (- Z.of_nat n + 1) 0 = map (fun k => (2 * Z.of_nat k - 2 * Z.of_nat j)%Z) (seq 0 j)).
    { unfold step2. replace (Z.to_nat _) with j; [apply map_ext; intros; lia|].
      replace (0 - (- Z.of_nat n + 1) + 1)%Z with (Z.of_nat j * 2 + 1)%Z by lia.
      rewrite Z.div_add_l by lia. change (1 / 2)%Z with 0%Z. lia. }
    assert (L2 : step2 2 (Z.of_nat n) = map (fun k => (2 * Z.of_nat k + 2)%Z) (seq 0 j)).
    { unfold step2. replace (Z.to_nat _) with j; [apply map_ext; intros; lia|].
      replace (Z.of_nat n - 2 + 1)%Z with (Z.of_nat j * 2)%Z by lia. rewrite Z.div_mul by lia. lia. }
    rewrite L1, L2. rewrite app_length, !map_length, !seq_length. intros Hk.
    assert (Q : forall f q, (q < j)%nat -> nth q (map f (seq 0 j)) 0%Z = f q).
    { intros f q Hq. rewrite (nth_map_in f (seq 0 j) q 0%Z 0%nat) by (rewrite seq_length; exact Hq). rewrite seq_nth by exact Hq. reflexivity. }
    destruct (Nat.lt_ge_cases k j) as [A|A].
    + rewrite (app_nth2 (map _ _)) by (rewrite map_length, seq_length; lia). rewrite (app_nth1 (map _ _)) by (rewrite map_length, seq_length; lia). rewrite map_length, seq_length, !Q by lia. lia.
    + rewrite (app_nth1 (map _ _)) by (rewrite map_length, seq_length; lia). rewrite (app_nth2 (map _ _)) by (rewrite map_length, seq_length; lia). rewrite map_length, seq_length, !Q by lia. lia.
  - rewrite step2_seq, map_length, seq_length. intros Hk.
    assert (Q : forall f q, (q < n)%nat -> nth q (map f (seq 0 n)) 0%Z = f q).
    { intros f q Hq. rewrite (nth_map_in f (seq 0 n) q 0%Z 0%nat) by (rewrite seq_length; exact Hq). rewrite seq_nth by exact Hq. reflexivity. }
    rewrite !Q by lia. lia.
Qed.
Lemma mate_cheb2ap n rs rf : 0 < rs -> napp rs rf -> zmate (@cheb2ap_dyn R RNum RTrans n rs) (fun i => @cheb2ap_dyn _ (NF i) (T i) n (rf i)).
Proof.
  intros Hr NR. pose proof (napp_intZ I pr em V sz 10) as N10. destruct n as [|n'].
  { split; eexists; apply lmate_nil. }
  set (n := S n'). unfold cheb2ap_dyn. fold n. cbv zeta. change (match n with 0%nat => ?a | S _ => ?b end) with b.
  set (nz := Z.of_nat n). assert (Hnz : (0 < nz)%Z) by (unfold nz, n; lia). assert (Hn : (0 < n)%nat) by (unfold n; lia).
  fold (zm n).
  set (de := @ndiv R RNum none (sqrt (Rpower 10 (1 / 10 * rs) - 1))).
  set (df := fun i => @ndiv _ (NF i) (@none _ (NF i)) (@nsqrt _ (NF i) (@nsub _ (NF i) (@tpowf _ (T i) (@nofZ _ (NF i) 10) (@nmul _ (NF i) (@ndiv _ (NF i) (@none _ (NF i)) (@nofZ _ (NF i) 10)) (rf i))) (@none _ (NF i))))).
  assert (P1 : 0 < Rpower 10 (1 / 10 * rs) - 1).
  { assert (1 < Rpower 10 (1 / 10 * rs)); [|lra]. apply Rle_lt_trans with (Rpower 10 0); [rewrite Rpower_O; lra|apply Rpower_lt; lra]. }
  assert (E0 : 0 < de) by (change (0 < 1 / sqrt (Rpower 10 (1 / 10 * rs) - 1)); apply Rdiv_lt_0_compat; [lra|apply sqrt_lt_R0; exact P1]).
  assert (NE : napp de df).
  { apply napp_div; [apply Rgt_not_eq, sqrt_lt_R0; exact P1|apply napp_one|]. apply napp_sqrt; [exact P1|]. apply napp_sub; [|apply napp_one]. apply (napp_powf I pr em V sz E HE T HT). apply napp_mul; [|exact NR]. apply napp_div; [lra|apply napp_one|exact N10]. }
  set (mu := arcsinh (1 / de) / IZR nz). set (muf := fun i => @ndiv _ (NF i) (@tasinh _ (T i) (@ndiv _ (NF i) (@none _ (NF i)) (df i))) (@nofZ _ (NF i) nz)).
  assert (NM : napp mu muf).
  { apply napp_div; [apply IZR_neq; lia| |apply napp_intZ]. apply (napp_asinh I pr em V E HE T HT). apply napp_div; [lra|apply napp_one|exact NE]. }
  assert (M0 : 0 < mu). { unfold mu. apply Rdiv_lt_0_compat; [|apply IZR_lt; lia]. rewrite <- arcsinh_0. apply arcsinh_lt. apply Rdiv_lt_0_compat; lra. }
  pose proof (napp_intZ I pr em V sz 2) as N2. split; cbn [zk_z zk_p].
  - exists (fun k => (length (zm n) - 1 - k)%nat).
    apply (lmate_sym (zm n) (fun m => cneg (cconj (cdiv (0, 1) (sin (IZR m * (PI / (2 * IZR nz))), 0))))
      (fun i m => @cneg _ (NF i) (@cconj _ (NF i) (@cdiv _ (NF i) (@nzero _ (NF i), @none _ (NF i)) (@tsin _ (T i) (@nmul _ (NF i) (@nofZ _ (NF i) m) (@ndiv _ (NF i) (@tpi _ (T i)) (@nmul _ (NF i) (@two _ (NF i)) (@nofZ _ (NF i) nz)))), @nzero _ (NF i)))))); [intros k Hk; apply zm_sym; exact Hk|].
    intros m Hm. destruct (zm_range n m Hn Hm) as [Ha H0]. fold nz in Ha.
    assert (B : Rabs (IZR m * (PI / (2 * IZR nz))) < 2).
    { replace (IZR m * (PI / (2 * IZR nz))) with (PI * IZR m / IZR (2 * nz)) by (rewrite mult_IZR; field; apply IZR_neq; lia). apply angle_small. exact Ha. }
    assert (NA : sm true (IZR m * (PI / (2 * IZR nz))) (fun i => @nmul _ (NF i) (@nofZ _ (NF i) m) (@ndiv _ (NF i) (@tpi _ (T i)) (@nmul _ (NF i) (@two _ (NF i)) (@nofZ _ (NF i) nz))))
       (fun i => @nmul _ (NF i) (@nofZ _ (NF i) (- m)) (@ndiv _ (NF i) (@tpi _ (T i)) (@nmul _ (NF i) (@two _ (NF i)) (@nofZ _ (NF i) nz))))).
    { refine (sm_mul I pr em V true false _ _ _ _ _ _ _ _); [apply sm_int|]. apply sm_self. apply napp_div; [apply Rmult_integral_contrapositive_currified; apply IZR_neq; lia|apply (napp_pi I pr em V E HE T HT)|apply napp_mul; [exact N2|apply napp_intZ]]. }
    pose proof (sm_sin I pr em V E HE T HT HS _ _ _ B NA) as SN. pose proof (sin_angle nz m Ha H0) as S0. set (s := sin (IZR m * (PI / (2 * IZR nz)))) in *.
    set (sf := fun i => @tsin _ (T i) (@nmul _ (NF i) (@nofZ _ (NF i) m) (@ndiv _ (NF i) (@tpi _ (T i)) (@nmul _ (NF i) (@two _ (NF i)) (@nofZ _ (NF i) nz))))) in *.
    set (sf' := fun i => @tsin _ (T i) (@nmul _ (NF i) (@nofZ _ (NF i) (- m)) (@ndiv _ (NF i) (@tpi _ (T i)) (@nmul _ (NF i) (@two _ (NF i)) (@nofZ _ (NF i) nz))))) in *.
    split.
    + apply cm_neg.
      pose proof (sm_self I pr em V 1 _ (napp_one I pr em V)) as O1.
      pose proof (sm_add I pr em V false _ _ _ _ _ _ (sm_mul I pr em V true true _ _ _ _ _ _ SN SN) (sm_mul I pr em V false false _ _ _ _ _ _ (sm_zero I pr em V false false) (sm_zero I pr em V false false))) as DN. cbn [xorb] in DN.
      assert (D0 : s * s + 0 * 0 <> 0) by nra.
      split.
      * exact (sm_div I pr em V false false _ _ _ _ _ _ D0 (sm_add I pr em V false _ _ _ _ _ _ (sm_mul I pr em V true true _ _ _ _ _ _ (sm_zero I pr em V true false) SN) (sm_mul I pr em V false false _ _ _ _ _ _ O1 (sm_zero I pr em V false false))) DN).
      * apply (sm_opp I pr em V true).
        exact (sm_div I pr em V true false _ _ _ _ _ _ D0 (sm_sub I pr em V true _ _ _ _ _ _ (sm_mul I pr em V false true _ _ _ _ _ _ O1 SN) (sm_mul I pr em V true false _ _ _ _ _ _ (sm_zero I pr em V true false) (sm_zero I pr em V false false))) DN).
    + change (- - ((1 * s - 0 * 0) / (s * s + 0 * 0)) <> 0). replace (- - ((1 * s - 0 * 0) / (s * s + 0 * 0))) with (1 / s) by (field; exact S0). unfold Rdiv. rewrite Rmult_1_l. apply Rinv_neq_0_compat, S0.
  - exists (fun k => (n - 1 - k)%nat).
    apply (lmate_step2 I pr em V sz n (fun x => cdiv cone (sinh mu * cre (cneg (cexp (0, PI * IZR x / (2 * IZR nz)))), cosh mu * cim (cneg (cexp (0, PI * IZR x / (2 * IZR nz))))))
      (fun i x => @cdiv _ (NF i) (@cone _ (NF i)) (@nmul _ (NF i) (@tsinh _ (T i) (muf i)) (cre (@cneg _ (NF i) (@cexp _ (NF i) (T i) (@nzero _ (NF i), @ndiv _ (NF i) (@nmul _ (NF i) (@tpi _ (T i)) (@nofZ _ (NF i) x)) (@nmul _ (NF i) (@two _ (NF i)) (@nofZ _ (NF i) nz)))))),
         @nmul _ (NF i) (@tcosh _ (T i) (muf i)) (cim (@cneg _ (NF i) (@cexp _ (NF i) (T i) (@nzero _ (NF i), @ndiv _ (NF i) (@nmul _ (NF i) (@tpi _ (T i)) (@nofZ _ (NF i) x)) (@nmul _ (NF i) (@two _ (NF i)) (@nofZ _ (NF i) nz))))))))).
    intros m Hm. fold nz in Hm. pose proof (angle_small _ _ Hm) as Ha.
    assert (B : Rabs (PI * IZR m / (2 * IZR nz)) < 2) by (rewrite <- mult_IZR; exact Ha).
    assert (NA : sm true (PI * IZR m / (2 * IZR nz)) (fun i => @ndiv _ (NF i) (@nmul _ (NF i) (@tpi _ (T i)) (@nofZ _ (NF i) m)) (@nmul _ (NF i) (@two _ (NF i)) (@nofZ _ (NF i) nz)))
      (fun i => @ndiv _ (NF i) (@nmul _ (NF i) (@tpi _ (T i)) (@nofZ _ (NF i) (- m))) (@nmul _ (NF i) (@two _ (NF i)) (@nofZ _ (NF i) nz)))).
    { refine (sm_div I pr em V true false _ _ _ _ _ _ _ _ _); [apply Rmult_integral_contrapositive_currified; apply IZR_neq; lia| |apply sm_self, napp_mul; [exact N2|apply napp_intZ]].
      refine (sm_mul I pr em V false true _ _ _ _ _ _ _ _); [apply sm_self; exact (napp_pi I pr em V E HE T HT)|apply sm_int]. }
    assert (NX : napp (exp 0) (fun i => @texp _ (T i) (@nzero _ (NF i)))) by (apply (napp_exp I pr em V E HE T HT), napp_zero).
    pose proof (sm_opp I pr em V _ _ _ _ (sm_mul I pr em V false false _ _ _ _ _ _ (sm_self I pr em V _ _ NX) (sm_cos I pr em V E HE T HT HS _ _ _ B NA))) as RE. cbn [xorb] in RE.
    pose proof (sm_opp I pr em V _ _ _ _ (sm_mul I pr em V false true _ _ _ _ _ _ (sm_self I pr em V _ _ NX) (sm_sin I pr em V E HE T HT HS _ _ _ B NA))) as IM. cbn [xorb] in IM.
    set (a := PI * IZR m / (2 * IZR nz)) in *.
    assert (CP : 0 < cos a).
    { assert (Bn : Rabs a < PI / 2).
      { unfold a. pose proof PI_RGT_0 as P. assert (N0 : 0 < IZR nz) by (apply IZR_lt; lia).
        replace (PI * IZR m / (2 * IZR nz)) with (IZR m * (PI / (2 * IZR nz))) by (field; lra). rewrite Rabs_mult, (Rabs_right (PI / (2 * IZR nz))) by (apply Rle_ge; left; apply Rdiv_lt_0_compat; lra). rewrite <- abs_IZR.
        apply (Rmult_lt_reg_r (2 * IZR nz / PI)); [apply Rdiv_lt_0_compat; lra|]. replace (IZR (Z.abs m) * (PI / (2 * IZR nz)) * (2 * IZR nz / PI)) with (IZR (Z.abs m)) by (field; lra).
        replace (PI / 2 * (2 * IZR nz / PI)) with (IZR nz) by (field; lra). apply IZR_lt. exact Hm. }
      apply Rabs_def2 in Bn. apply cos_gt_0; lra. }
    assert (SP : 0 < sinh mu) by (rewrite <- sinh_0; apply sinh_lt; exact M0).
    assert (HP : 0 < cosh mu) by (unfold cosh; pose proof (exp_pos mu); pose proof (exp_pos (- mu)); lra).
    assert (NZ : ((sinh mu * - (exp 0 * cos a), cosh mu * - (exp 0 * sin a)) : C) <> C0).
    { intros Q. apply (f_equal fst) in Q. cbn [fst] in Q. change (sinh mu * - (exp 0 * cos a) = 0) in Q. rewrite exp_0 in Q. assert (0 < sinh mu * cos a) by (apply Rmult_lt_0_compat; assumption). nra. }
    split.
    + refine (cm_div I pr em V sz _ _ _ _ _ _ NZ _ _).
      * split; [apply sm_self, napp_one|apply sm_zero].
      * split; [refine (sm_mul I pr em V false false _ _ _ _ _ _ _ RE); apply sm_self; apply (napp_sinh I pr em V E HE T HT); exact NM|refine (sm_mul I pr em V false true _ _ _ _ _ _ _ IM); apply sm_self; apply (napp_cosh I pr em V E HE T HT); exact NM].
    + intros Z0. refine (im_recip 1 _ ltac:(lra) _). change (cosh mu * - (exp 0 * sin a) <> 0). rewrite exp_0.
      assert (A0 : a <> 0). { unfold a. pose proof PI_RGT_0. assert (IZR m <> 0) by (apply IZR_neq; exact Z0). assert (0 < IZR nz) by (apply IZR_lt; lia).
        apply Rmult_integral_contrapositive_currified; [apply Rmult_integral_contrapositive_currified; lra|apply Rinv_neq_0_compat; lra]. }
      pose proof (sin_small_nz a A0 B) as S0. apply Rmult_integral_contrapositive_currified; lra.
Qed.
End Near.
