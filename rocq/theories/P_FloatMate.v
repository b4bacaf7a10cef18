(** Designs in floats have exactly conjugate roots, when the library of functions is
    symmetric: prototypes, the two one-edge transforms and the bilinear map. *)
From Coq Require Import Reals Ratan ZArith SpecFloat List Lia Lra Bool Permutation.
From Flocq Require Import Core BinarySingleNaN.
From Verif Require Import Base Num Trans M_Complex M_Filter M_Design Cx S_Design S_Filter S_Float S_FloatFft S_FloatZpk S_FloatTrans S_FloatSos
  P_Float P_FloatStats P_Sqrt P_Poly P_Lp P_Proto P_Stable P_Zi P_FloatI0 P_FloatZi P_FloatPoly T_FloatPoly P_FloatDesign P_FloatSym.
Import ListNotations.
Local Open Scope R_scope.

(** Nonreal numbers stay nonreal. *)
Lemma im_scale w z : w <> 0 -> cim z <> 0 -> cim (cmul z (w, 0)) <> 0.
Proof. intros W Z. destruct z as [x y]. cbn in *. replace (x * 0 + y * w) with (y * w) by ring. apply Rmult_integral_contrapositive_currified; assumption. Qed.
Lemma im_recip w z : w <> 0 -> cim z <> 0 -> cim (cdiv (w, 0) z) <> 0.
Proof.
  intros W Z. destruct z as [x y]. cbn in *. assert (N : x * x + y * y <> 0) by nra.
  replace ((0 * x - w * y) / (x * x + y * y)) with (- (w * y) / (x * x + y * y)) by (f_equal; ring).
  intros Q. apply (f_equal (fun t => t * (x * x + y * y))) in Q. unfold Rdiv in Q. rewrite Rmult_assoc, Rinv_l, Rmult_0_l in Q by exact N.
  assert (w * y = 0) by lra. apply Rmult_integral in H. tauto.
Qed.
Lemma im_bilinear a z : a <> 0 -> cim z <> 0 -> cim (cdiv (cadd (a, 0) z) (csub (a, 0) z)) <> 0.
Proof.
  intros W Z. destruct z as [x y]. cbn in *. set (d := (a - x) * (a - x) + (0 - y) * (0 - y)). assert (N : d <> 0) by (intros Q; destruct (Rplus_sqr_eq_0 _ _ Q); lra).
  replace (((0 + y) * (a - x) - (a + x) * (0 - y)) / d) with (2 * a * y / d) by (f_equal; ring).
  intros Q. apply (f_equal (fun t => t * d)) in Q. unfold Rdiv in Q. rewrite Rmult_assoc, Rinv_l, Rmult_0_l in Q by exact N.
  assert (a * y = 0) by lra. apply Rmult_integral in H. tauto.
Qed.

Section Mate.
Variable I : Type.
Variables pr em : I -> Z.
Variable V : I -> Prop.
Variable sz : I -> bool.
Notation napp := (napp I pr em V).
Notation NF i := (SFNum (pr i) (em i) (sz i)).
Notation cnapp := (cnapp I pr em V).
Notation lnapp := (lnapp I pr em V sz).
Notation ev := (ev I pr em V).
Notation sm := (sm I pr em V).
Notation cm := (cm I pr em V).
Notation lmate := (lmate I pr em V sz).

Definition zmate (g : @ZpkFormatFilter R) (gf : I -> @ZpkFormatFilter spec_float) : Prop :=
  (exists m, lmate (zk_z g) (fun i => zk_z (gf i)) m) /\ (exists m, lmate (zk_p g) (fun i => zk_p (gf i)) m).
Lemma lmate_ext l l' f f' m : l = l' -> (forall i, V i -> f i = f' i) -> lmate l f m -> lmate l' f' m.
Proof.
  intros <- E [L H]. split; [intros i Vi; rewrite <- E by exact Vi; apply L; exact Vi|]. intros k Hk. destruct (H k Hk) as (A & B & D & Q).
  split; [exact A|]. split; [exact B|]. split; [exact D|]. eapply cm_ext; [reflexivity| | |exact Q]; cbn beta; intros i Vi; rewrite E by exact Vi; reflexivity.
Qed.
Lemma lmate_nil : lmate [] (fun _ => []) (fun k => k).
Proof. split; [intros; reflexivity|]. intros k Hk. cbn in Hk. lia. Qed.

Section Stages.
Variables (g h : @ZpkFormatFilter R) (gf hf : I -> @ZpkFormatFilter spec_float).
Hypothesis Hg : zmate g gf.
Hypothesis Hd : (length (zk_z g) <= length (zk_p g))%nat.
Lemma mdegs i : V i -> length (zk_z (gf i)) = length (zk_z g) /\ length (zk_p (gf i)) = length (zk_p g).
Proof. intros Vi. destruct Hg as [[m [L1 _]] [m' [L2 _]]]. split; [apply L1|apply L2]; exact Vi. Qed.

Lemma mate_lp2lp wo wf : wo <> 0 -> napp wo wf -> lp2lp_zpk_dyn g (Some wo) = Ok h -> (forall i, V i -> @lp2lp_zpk_dyn _ (NF i) (gf i) (Some (wf i)) = Ok (hf i)) -> zmate h hf.
Proof.
  intros W NW. unfold lp2lp_zpk_dyn, relative_degree_dyn. destruct (Nat.ltb_spec (length (zk_p g)) (length (zk_z g))); [lia|]. intros Eh Ef. injection Eh as <-.
  assert (M : forall l lf m, lmate l lf m -> lmate (map (fun zi => cmul zi (wo, 0)) l) (fun i => map (fun zi => @cmul _ (NF i) zi (wf i, @nzero _ (NF i))) (lf i)) m).
  { intros l lf m Hl. apply (lmate_map I pr em V sz l lf m (fun zi => cmul zi (wo, 0)) (fun i zi => @cmul _ (NF i) zi (wf i, @nzero _ (NF i))) Hl).
    - intros k _. apply im_scale. exact W.
    - intros k f f' _ Q. apply (cm_mul I pr em V sz); [exact Q|]. apply cm_real. exact NW. }
  destruct Hg as [[m1 M1] [m2 M2]]. split.
  - exists m1. eapply lmate_ext; [| |exact (M _ _ _ M1)]; [reflexivity|]. intros i Vi. specialize (Ef i Vi). destruct (mdegs i Vi) as [D1 D2]. rewrite D1, D2 in Ef.
    destruct (Nat.ltb_spec (length (zk_p g)) (length (zk_z g))); [lia|]. cbn in Ef. injection Ef as <-. reflexivity.
  - exists m2. eapply lmate_ext; [| |exact (M _ _ _ M2)]; [reflexivity|]. intros i Vi. specialize (Ef i Vi). destruct (mdegs i Vi) as [D1 D2]. rewrite D1, D2 in Ef.
    destruct (Nat.ltb_spec (length (zk_p g)) (length (zk_z g))); [lia|]. cbn in Ef. injection Ef as <-. reflexivity.
Qed.

Lemma mate_lp2hp wo wf : wo <> 0 -> zk_z g = [] -> Forall (fun c => c <> C0) (zk_p g) -> napp wo wf -> lp2hp_zpk_dyn g (Some wo) = Ok h ->
  (forall i, V i -> @lp2hp_zpk_dyn _ (NF i) (gf i) (Some (wf i)) = Ok (hf i)) -> zmate h hf.
Proof.
  intros W Z0 NZ NW. rewrite Forall_forall in NZ. unfold lp2hp_zpk_dyn, relative_degree_dyn. destruct (Nat.ltb_spec (length (zk_p g)) (length (zk_z g))); [lia|]. intros Eh Ef. injection Eh as <-.
  assert (HF : forall i, V i -> zk_z (hf i) = repeat (@czero _ (NF i)) (length (zk_p g)) /\ zk_p (hf i) = map (fun zi => @cdiv _ (NF i) (wf i, @nzero _ (NF i)) zi) (zk_p (gf i))).
  { intros i Vi. specialize (Ef i Vi). destruct (mdegs i Vi) as [D1 D2]. rewrite D1, D2, Z0 in Ef. destruct (zk_z (gf i)) eqn:Ez; [|rewrite Z0 in D1; discriminate].
    destruct (Nat.ltb_spec (length (zk_p g)) (length (@nil C))) as [Q|Q]; [cbn in Q; lia|]. rewrite Nat.sub_0_r in Ef. cbn [bind map app] in Ef. injection Ef as <-. split; reflexivity. }
  destruct Hg as [_ [m2 M2]]. split.
  - exists (fun k => k). eapply lmate_ext; [| |exact (lmate_repeat_real I pr em V sz 0 (fun _ => S754_zero false) false (length (zk_p g)) (napp_zero I pr em V false))].
    + cbn [zk_z]. rewrite Z0. cbn [map app length]. rewrite Nat.sub_0_r. reflexivity.
    + intros i Vi. symmetry. exact (proj1 (HF i Vi)).
  - exists m2. eapply lmate_ext; [| |apply (lmate_map I pr em V sz _ _ _ (fun zi => cdiv (wo, 0) zi) (fun i zi => @cdiv _ (NF i) (wf i, @nzero _ (NF i)) zi) M2)]; [reflexivity| | |].
    + intros i Vi. symmetry. exact (proj2 (HF i Vi)).
    + intros k _. apply im_recip. exact W.
    + intros k f f' Hk Q. apply (cm_div I pr em V sz); [apply NZ, nth_In, Hk|apply cm_real; exact NW|exact Q].
Qed.

Lemma mate_bilinear fs ff : 0 < fs -> Forall (fun c => c <> (2 * fs, 0)) (zk_p g) -> Forall (fun c => c <> (2 * fs, 0)) (zk_z g) -> napp fs ff ->
  bilinear_zpk_dyn g fs = Ok h -> (forall i, V i -> @bilinear_zpk_dyn _ (NF i) (gf i) (ff i) = Ok (hf i)) -> zmate h hf.
Proof.
  intros HF0 HP HZ NF0 Eh Ef. rewrite Forall_forall in HZ, HP.
  assert (N2 : napp (2 * fs) (fun i => @nmul _ (NF i) (@two _ (NF i)) (ff i))).
  { apply napp_mul; [|exact NF0]. exact (napp_intZ I pr em V sz 2). }
  assert (SUB : forall a, a <> (2 * fs, 0) -> csub (2 * fs, 0) a <> C0).
  { intros [x y] Hc E. apply Hc. assert (E1 : 2 * fs - x = 0) by exact (f_equal fst E). assert (E2 : 0 - y = 0) by exact (f_equal snd E). f_equal; lra. }
  pose proof (cm_real I pr em V (2 * fs) _ false N2) as CF.
  assert (M : forall l lf m, (forall c, In c l -> c <> (2 * fs, 0)) -> lmate l lf m -> lmate (map (fun zi => cdiv (cadd (2 * fs, 0) zi) (csub (2 * fs, 0) zi)) l)
     (fun i => map (fun zi => @cdiv _ (NF i) (@cadd _ (NF i) (@nmul _ (NF i) (@two _ (NF i)) (ff i), @nzero _ (NF i)) zi) (@csub _ (NF i) (@nmul _ (NF i) (@two _ (NF i)) (ff i), @nzero _ (NF i)) zi)) (lf i)) m).
  { intros l lf m Hl Nl. apply (lmate_map I pr em V sz l lf m (fun zi => cdiv (cadd (2 * fs, 0) zi) (csub (2 * fs, 0) zi)) (fun i zi => @cdiv _ (NF i) (@cadd _ (NF i) (@nmul _ (NF i) (@two _ (NF i)) (ff i), @nzero _ (NF i)) zi) (@csub _ (NF i) (@nmul _ (NF i) (@two _ (NF i)) (ff i), @nzero _ (NF i)) zi)) Nl).
    - intros k _. apply im_bilinear. lra.
    - intros k f f' Hk Q. apply (cm_div I pr em V sz); [apply SUB, Hl, nth_In, Hk|exact (cm_add I pr em V sz _ _ _ _ _ _ CF Q)|exact (cm_sub I pr em V sz _ _ _ _ _ _ CF Q)]. }
  assert (N1 : napp (- (1)) (fun i => @nneg _ (NF i) (@none _ (NF i)))) by (apply napp_opp, napp_one).
  destruct Hg as [[m1 M1] [m2 M2]]. pose proof (lmate_app I pr em V sz _ _ _ _ _ _ (M _ _ _ HZ M1) (lmate_repeat_real I pr em V sz _ _ false (length (zk_p g) - length (zk_z g)) N1)) as OZ.
  unfold bilinear_zpk_dyn, relative_degree_dyn in Eh. destruct (Nat.ltb_spec (length (zk_p g)) (length (zk_z g))); [lia|]. injection Eh as <-. split.
  - eexists. eapply lmate_ext; [| |exact OZ]; [reflexivity|]. intros i Vi. specialize (Ef i Vi). destruct (mdegs i Vi) as [D1 D2]. unfold bilinear_zpk_dyn, relative_degree_dyn in Ef. rewrite D1, D2 in Ef.
    destruct (Nat.ltb_spec (length (zk_p g)) (length (zk_z g))); [lia|]. cbn [bind] in Ef. injection Ef as <-. reflexivity.
  - eexists. eapply lmate_ext; [| |exact (M _ _ _ HP M2)]; [reflexivity|]. intros i Vi. specialize (Ef i Vi). destruct (mdegs i Vi) as [D1 D2]. unfold bilinear_zpk_dyn, relative_degree_dyn in Ef. rewrite D1, D2 in Ef.
    destruct (Nat.ltb_spec (length (zk_p g)) (length (zk_z g))); [lia|]. cbn [bind] in Ef. injection Ef as <-. reflexivity.
Qed.
End Stages.

(** ** Prototypes *)
Variable E : R.
Hypothesis HE : 0 <= E.
Variable T : I -> Trans spec_float.
Hypothesis HT : forall i, V i -> (1 < pr i < em i)%Z -> accurate_trans (pr i) (em i) E (T i).
Hypothesis HS : forall i, V i -> (1 < pr i < em i)%Z -> symmetric_trans (pr i) (em i) (T i).

Lemma sm_int m : sm true (IZR m) (fun i => @nofZ _ (NF i) m) (fun i => @nofZ _ (NF i) (- m)).
Proof.
  split; [apply napp_intZ|]. eapply ev_impl; [|exact (ev_and _ _ _ _ _ _ (ev_intZ I pr em V sz m) (ev_intZ I pr em V sz (- m)))]. cbn beta.
  intros i _ _ [[_ W] [F W']]. split; [exact F|]. rewrite W, W', opp_IZR. unfold sg. ring.
Qed.
Lemma sm_sin c x x' : Rabs c < 2 -> sm true c x x' -> sm true (sin c) (fun i => @tsin _ (T i) (x i)) (fun i => @tsin _ (T i) (x' i)).
Proof.
  intros Hc S. pose proof (sm_napp I pr em V _ _ _ _ S) as N'. destruct S as [N M].
  assert (Hc' : Rabs (sg true * c) < 2) by (rewrite sg_abs; exact Hc).
  pose proof (napp_sin I pr em V E HE T HT _ _ Hc' N') as N''. split; [apply (napp_sin I pr em V E HE T HT); assumption|].
  eapply ev_impl; [|exact (ev_and _ _ _ _ _ _ (ev_and _ _ _ _ _ _ (napp_ev I pr em V _ _ N) (napp_ev I pr em V _ _ N'')) M)]. cbn beta.
  intros i Vi Hpe [[F1 F2] [F3 M0]]. split; [exact F2|]. rewrite (sym_sin _ _ _ (HS i Vi Hpe) (x i) (x' i)); [unfold sg; ring|exact F1|exact F3|rewrite M0; unfold sg; ring].
Qed.
Lemma sm_cos c x x' : Rabs c < 2 -> sm true c x x' -> sm false (cos c) (fun i => @tcos _ (T i) (x i)) (fun i => @tcos _ (T i) (x' i)).
Proof.
  intros Hc S. pose proof (sm_napp I pr em V _ _ _ _ S) as N'. destruct S as [N M].
  assert (Hc' : Rabs (sg true * c) < 2) by (rewrite sg_abs; exact Hc).
  pose proof (napp_cos I pr em V E HE T HT _ _ Hc' N') as N''. split; [apply (napp_cos I pr em V E HE T HT); assumption|].
  eapply ev_impl; [|exact (ev_and _ _ _ _ _ _ (ev_and _ _ _ _ _ _ (napp_ev I pr em V _ _ N) (napp_ev I pr em V _ _ N'')) M)]. cbn beta.
  intros i Vi Hpe [[F1 F2] [F3 M0]]. split; [exact F2|]. rewrite (sym_cos _ _ _ (HS i Vi Hpe) (x i) (x' i)); [unfold sg; ring|exact F1|exact F3|rewrite M0; unfold sg; ring].
Qed.
Lemma sin_small_nz x : x <> 0 -> Rabs x < 2 -> sin x <> 0.
Proof.
  intros N B. apply Rabs_def2 in B. pose proof PI2_3_2. destruct (Rlt_dec 0 x) as [L|L].
  - pose proof (sin_gt_0 x L). lra.
  - replace x with (- - x) by ring. rewrite sin_neg. pose proof (sin_gt_0 (- x)). lra.
Qed.
(** A family of poles indexed by the odd or even integers below [n]. *)
Lemma lmate_step2 n (h : Z -> C) (hf : I -> Z -> cplx spec_float) :
  (forall m, (Z.abs m < Z.of_nat n)%Z -> cm (h m) (fun i => hf i m) (fun i => hf i (- m)%Z) /\ (m <> 0%Z -> cim (h m) <> 0)) ->
  lmate (map h (step2 (- Z.of_nat n + 1) (Z.of_nat n))) (fun i => map (hf i) (step2 (- Z.of_nat n + 1) (Z.of_nat n))) (fun k => (n - 1 - k)%nat).
Proof.
  intros H. rewrite step2_seq. rewrite map_map. split; [intros i _; rewrite !map_length; reflexivity|]. rewrite map_length, seq_length. intros k Hk.
  split; [lia|]. split; [lia|].
  assert (Eh : forall A (f : Z -> A) d j, (j < n)%nat -> nth j (map f (map (fun k => (1 - Z.of_nat n + 2 * Z.of_nat k)%Z) (seq 0 n))) d = f (1 - Z.of_nat n + 2 * Z.of_nat j)%Z).
  { intros A f d j Hj. rewrite map_map. rewrite (nth_indep _ d (f (1 - Z.of_nat n + 2 * Z.of_nat 0)%Z)) by (rewrite map_length, seq_length; exact Hj).
    rewrite (map_nth (fun k => f (1 - Z.of_nat n + 2 * Z.of_nat k)%Z)). rewrite seq_nth by exact Hj. reflexivity. }
  rewrite <- (map_map (fun k => (1 - Z.of_nat n + 2 * Z.of_nat k)%Z) h), Eh by exact Hk.
  set (m := (1 - Z.of_nat n + 2 * Z.of_nat k)%Z). destruct (H m ltac:(unfold m; lia)) as [Q N]. split.
  - destruct (Z.eq_dec m 0) as [Z0|Z0]; [left; unfold m in Z0; lia|right; apply N; exact Z0].
  - eapply cm_ext; [reflexivity| | |exact Q]; cbn beta; intros i Vi; rewrite Eh by lia; [reflexivity|]. f_equal. unfold m. lia.
Qed.
Lemma mate_buttap order : zmate (@buttap_dyn R RNum RTrans order) (fun i => @buttap_dyn _ (NF i) (T i) order).
Proof.
  unfold buttap_dyn. split; [eexists; apply lmate_nil|]. eexists. cbn [zk_p].
  apply (lmate_step2 order (fun m => cneg (cexp (0, PI * IZR m / IZR (2 * Z.of_nat order))))
    (fun i m => @cneg _ (NF i) (@cexp _ (NF i) (T i) (@nzero _ (NF i), @ndiv _ (NF i) (@nmul _ (NF i) (@tpi _ (T i)) (@nofZ _ (NF i) m)) (@nofZ _ (NF i) (2 * Z.of_nat order)))))).
  intros m Hm. pose proof (angle_small _ _ Hm) as Ha. split.
  - assert (NA : sm true (PI * IZR m / IZR (2 * Z.of_nat order)) (fun i => @ndiv _ (NF i) (@nmul _ (NF i) (@tpi _ (T i)) (@nofZ _ (NF i) m)) (@nofZ _ (NF i) (2 * Z.of_nat order)))
      (fun i => @ndiv _ (NF i) (@nmul _ (NF i) (@tpi _ (T i)) (@nofZ _ (NF i) (- m))) (@nofZ _ (NF i) (2 * Z.of_nat order)))).
    { refine (sm_div I pr em V true false _ _ _ _ _ _ _ _ _); [apply IZR_neq; lia| |apply sm_self, napp_intZ].
      refine (sm_mul I pr em V false true _ _ _ _ _ _ _ _); [apply sm_self; exact (napp_pi I pr em V E HE T HT)|apply sm_int]. }
    assert (NE : napp (exp 0) (fun i => @texp _ (T i) (@nzero _ (NF i)))) by (apply (napp_exp I pr em V E HE T HT), napp_zero).
    apply cm_neg. split.
    + refine (sm_mul I pr em V false false _ _ _ _ _ _ _ _); [apply sm_self; exact NE|apply sm_cos; assumption].
    + refine (sm_mul I pr em V false true _ _ _ _ _ _ _ _); [apply sm_self; exact NE|apply sm_sin; assumption].
  - intros Z0. set (a := PI * IZR m / IZR (2 * Z.of_nat order)) in *. change (- (exp 0 * sin a) <> 0). rewrite exp_0.
    assert (a <> 0). { unfold a. pose proof PI_RGT_0. assert (IZR m <> 0) by (apply IZR_neq; exact Z0). assert (0 < IZR (2 * Z.of_nat order)) by (apply IZR_lt; lia).
      apply Rmult_integral_contrapositive_currified; [apply Rmult_integral_contrapositive_currified; lra|apply Rinv_neq_0_compat; lra]. }
    pose proof (sin_small_nz a H Ha). lra.
Qed.
Lemma mate_cheb1ap n rp rf : 0 < rp -> napp rp rf -> zmate (@cheb1ap_dyn R RNum RTrans n rp) (fun i => @cheb1ap_dyn _ (NF i) (T i) n (rf i)).
Proof.
  intros Hr NR. pose proof (napp_intZ I pr em V sz 10) as N10. destruct n as [|n'].
  { split; eexists; apply lmate_nil. }
  set (n := S n'). unfold cheb1ap_dyn. fold n. cbv zeta. change (match n with 0%nat => ?a | S _ => ?b end) with b.
  set (nz := Z.of_nat n). assert (Hnz : (0 < nz)%Z) by (unfold nz, n; lia).
  set (eps := sqrt (Rpower 10 (rp / 10) - 1)). set (ef := fun i => @nsqrt _ (NF i) (@nsub _ (NF i) (@tpowf _ (T i) (@nofZ _ (NF i) 10) (@ndiv _ (NF i) (rf i) (@nofZ _ (NF i) 10))) (@none _ (NF i)))).
  assert (P1 : 0 < Rpower 10 (rp / 10) - 1).
  { assert (1 < Rpower 10 (rp / 10)); [|lra]. rewrite <- (Rpower_O 10) by lra. apply Rpower_lt; lra. }
  assert (E0 : 0 < eps) by (apply sqrt_lt_R0; exact P1).
  assert (NE : napp eps ef).
  { apply napp_sqrt; [exact P1|]. apply napp_sub; [|apply napp_one]. apply (napp_powf I pr em V sz E HE T HT). apply napp_div; [lra|exact NR|exact N10]. }
  set (mu := arcsinh (1 / eps) / IZR nz). set (muf := fun i => @ndiv _ (NF i) (@tasinh _ (T i) (@ndiv _ (NF i) (@none _ (NF i)) (ef i))) (@nofZ _ (NF i) nz)).
  assert (NM : napp mu muf).
  { apply napp_div; [apply IZR_neq; lia| |apply napp_intZ]. apply (napp_asinh I pr em V E HE T HT). apply napp_div; [lra|apply napp_one|exact NE]. }
  set (th := fun m => PI * (IZR m / IZR (2 * nz))). set (thf := fun i m => @nmul _ (NF i) (@tpi _ (T i)) (@ndiv _ (NF i) (@nofZ _ (NF i) m) (@nofZ _ (NF i) (2 * nz)))).
  split; [eexists; apply lmate_nil|]. cbn [zk_p]. exists (fun k => (n - 1 - k)%nat).
  apply (lmate_ext (map (fun m => cneg (csinh (mu, th m))) (step2 (- nz + 1) nz)) _ (fun i => map (fun m => @cneg _ (NF i) (@csinh _ (NF i) (T i) (muf i, thf i m))) (step2 (- nz + 1) nz))).
  { rewrite map_map. reflexivity. }
  { intros i _. rewrite map_map. reflexivity. }
  apply (lmate_step2 n (fun m => cneg (csinh (mu, th m))) (fun i m => @cneg _ (NF i) (@csinh _ (NF i) (T i) (muf i, thf i m)))).
  intros m Hm. pose proof (angle_small _ _ Hm) as Ha.
  assert (Ha' : Rabs (th m) < 2) by (unfold th; replace (PI * (IZR m / IZR (2 * nz))) with (PI * IZR m / IZR (2 * nz)) by (unfold Rdiv; ring); exact Ha).
  assert (NA : sm true (th m) (fun i => thf i m) (fun i => thf i (- m)%Z)).
  { refine (sm_mul I pr em V false true _ _ _ _ _ _ _ _); [apply sm_self; exact (napp_pi I pr em V E HE T HT)|].
    refine (sm_div I pr em V true false _ _ _ _ _ _ _ _ _); [apply IZR_neq; lia|apply sm_int|apply sm_self, napp_intZ]. }
  split.
  - apply cm_neg. split.
    + refine (sm_mul I pr em V false false _ _ _ _ _ _ _ _); [apply sm_self; apply (napp_sinh I pr em V E HE T HT); exact NM|apply sm_cos; assumption].
    + refine (sm_mul I pr em V false true _ _ _ _ _ _ _ _); [apply sm_self; apply (napp_cosh I pr em V E HE T HT); exact NM|apply sm_sin; assumption].
  - intros Z0. change (- (cosh mu * sin (th m)) <> 0).
    assert (th m <> 0). { unfold th. pose proof PI_RGT_0. assert (IZR m <> 0) by (apply IZR_neq; exact Z0). assert (0 < IZR (2 * nz)) by (apply IZR_lt; lia).
      apply Rmult_integral_contrapositive_currified; [lra|]. apply Rmult_integral_contrapositive_currified; [lra|apply Rinv_neq_0_compat; lra]. }
    pose proof (sin_small_nz (th m) H Ha'). assert (0 < cosh mu) by (unfold cosh; pose proof (exp_pos mu); pose proof (exp_pos (- mu)); lra).
    intros Q. assert (Q' : cosh mu * sin (th m) = 0) by lra. apply Rmult_integral in Q'. destruct Q'; lra.
Qed.
End Mate.
