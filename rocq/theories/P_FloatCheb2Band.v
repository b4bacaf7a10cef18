(** The Chebyshev II prototype through the band-pass transform in floats. *)
From Coq Require Import Reals Ratan ZArith SpecFloat List Lia Lra Bool Permutation.
From Flocq Require Import Core BinarySingleNaN.
From Verif Require Import Base Num Trans M_Complex M_Filter M_Design Cx S_Design S_Filter S_Float S_FloatFft S_FloatZpk S_FloatTrans S_FloatSos
  P_Float P_FloatStats P_Sqrt P_Poly P_Lp P_Proto P_Stable P_Zi P_FloatI0 P_FloatZi P_FloatPoly T_FloatPoly P_FloatDesign P_FloatResponse P_FloatSqrt P_FloatSym P_FloatMate P_FloatBand P_FloatBandStage P_FloatCsqrt P_FloatBandMate P_FloatCheb2 P_FloatAxis P_Cheb.
Import ListNotations.
Local Open Scope R_scope.

Definition on_axis (c : C) : Prop := cre c = 0 /\ cim c <> 0.

Section Stage.
Variable I : Type.
Variables pr em : I -> Z.
Variable sz : I -> bool.
Variable E : R.
Hypothesis HE : 0 <= E.
Variable T : I -> Trans spec_float.
Variable V : I -> Prop.
Hypothesis HT : forall i, V i -> (1 < pr i < em i)%Z -> accurate_trans (pr i) (em i) E (T i).
Notation NF i := (SFNum (pr i) (em i) (sz i)).
Notation napp := (napp I pr em V).

(** The zeros of the prototype, also in floats, have real part zero. *)
Lemma axis_cheb2ap n rs rf k : 0 < rs -> napp rs rf -> (k < length (zk_z (@cheb2ap_dyn R RNum RTrans n rs)))%nat ->
  am I pr em V (nth k (zk_z (@cheb2ap_dyn R RNum RTrans n rs)) C0) (fun i => nth k (zk_z (@cheb2ap_dyn _ (NF i) (T i) n (rf i))) (@czero _ (NF i))) (fun i => nth k (zk_z (@cheb2ap_dyn _ (NF i) (T i) n (rf i))) (@czero _ (NF i))).
Proof.
  intros Hr NR. destruct n as [|n']; [cbn; lia|].
  set (n := S n'). unfold cheb2ap_dyn. fold n. cbv zeta. change (match n with 0%nat => ?a | S _ => ?b end) with b. cbn [zk_z].
  set (nz := Z.of_nat n). assert (Hnz : (0 < nz)%Z) by (unfold nz, n; lia). assert (Hn : (0 < n)%nat) by (unfold n; lia).
  fold (zm n). rewrite map_length. intros Hk.
  set (zr := fun m => cneg (cconj (cdiv (0, 1) (sin (IZR m * (PI / (2 * IZR nz))), 0)))).
  set (zf := fun i m => @cneg _ (NF i) (@cconj _ (NF i) (@cdiv _ (NF i) (@nzero _ (NF i), @none _ (NF i)) (@tsin _ (T i) (@nmul _ (NF i) (@nofZ _ (NF i) m) (@ndiv _ (NF i) (@tpi _ (T i)) (@nmul _ (NF i) (@two _ (NF i)) (@nofZ _ (NF i) nz)))), @nzero _ (NF i))))).
  set (m := nth k (zm n) 0%Z). assert (Hm : In m (zm n)) by (apply nth_In; exact Hk).
  destruct (zm_range n m Hn Hm) as [Ha H0]. fold nz in Ha.
  assert (B : Rabs (IZR m * (PI / (2 * IZR nz))) < 2).
  { replace (IZR m * (PI / (2 * IZR nz))) with (PI * IZR m / IZR (2 * nz)) by (rewrite mult_IZR; field; apply IZR_neq; lia). apply angle_small. exact Ha. }
  assert (NA : napp (IZR m * (PI / (2 * IZR nz))) (fun i => @nmul _ (NF i) (@nofZ _ (NF i) m) (@ndiv _ (NF i) (@tpi _ (T i)) (@nmul _ (NF i) (@two _ (NF i)) (@nofZ _ (NF i) nz))))).
  { apply napp_mul; [apply napp_intZ|]. apply napp_div; [apply Rmult_integral_contrapositive_currified; apply IZR_neq; lia|apply (napp_pi I pr em V E HE T HT)|apply napp_mul; [exact (napp_intZ I pr em V sz 2)|apply napp_intZ]]. }
  assert (A : am I pr em V (zr m) (fun i => zf i m) (fun i => zf i m)).
  { assert (D : am I pr em V (cdiv (0, 1) (sin (IZR m * (PI / (2 * IZR nz))), 0)) (fun i => @cdiv _ (NF i) (@nzero _ (NF i), @none _ (NF i)) (@tsin _ (T i) (@nmul _ (NF i) (@nofZ _ (NF i) m) (@ndiv _ (NF i) (@tpi _ (T i)) (@nmul _ (NF i) (@two _ (NF i)) (@nofZ _ (NF i) nz)))), @nzero _ (NF i)))
      (fun i => @cdiv _ (NF i) (@nzero _ (NF i), @none _ (NF i)) (@tsin _ (T i) (@nmul _ (NF i) (@nofZ _ (NF i) m) (@ndiv _ (NF i) (@tpi _ (T i)) (@nmul _ (NF i) (@two _ (NF i)) (@nofZ _ (NF i) nz)))), @nzero _ (NF i)))).
    { apply (am_div I pr em sz V).
      - intros Q. apply (f_equal fst) in Q. cbn [fst] in Q. exact (sin_angle nz m Ha H0 Q).
      - apply am_imag. apply napp_one.
      - apply cm_real. apply (napp_sin I pr em V E HE T HT); [exact B|exact NA]. }
    destruct D as [D1 D2]. split; [exact (sm_opp I pr em V _ _ _ _ D1)|exact (sm_opp I pr em V _ _ _ _ (sm_opp I pr em V _ _ _ _ D2))]. }
  assert (E1 : nth k (map zr (zm n)) C0 = zr m) by (apply nth_map_in; exact Hk).
  assert (E2 : forall i, nth k (map (zf i) (zm n)) (@czero _ (NF i)) = zf i m) by (intros i; apply nth_map_in; exact Hk).
  destruct A as [A1 A2]. split.
  - eapply sm_ext; [| | |exact A1]; cbn beta; [rewrite <- E1; reflexivity| |]; intros i _; rewrite <- E2; reflexivity.
  - eapply sm_ext; [| | |exact A2]; cbn beta; [rewrite <- E1; reflexivity| |]; intros i _; rewrite <- E2; reflexivity.
Qed.
Lemma cheb2_axis n rs : Forall on_axis (zk_z (@cheb2ap_dyn R RNum RTrans n rs)).
Proof.
  destruct n as [|n']; [constructor|]. set (n := S n'). unfold cheb2ap_dyn. fold n. cbv zeta. change (match n with 0%nat => ?a | S _ => ?b end) with b. cbn [zk_z].
  set (nz := Z.of_nat n). assert (Hn : (0 < n)%nat) by (unfold n; lia). fold (zm n). apply Forall_forall. intros c Hc. apply in_map_iff in Hc. destruct Hc as [m [<- Hm]].
  destruct (zm_range n m Hn Hm) as [Ha H0]. pose proof (sin_angle nz m Ha H0) as S. set (s := sin (IZR m * (PI / (2 * IZR nz)))) in *.
  split; [change (- ((0 * s + 1 * 0) / (s * s + 0 * 0)) = 0); field; exact S|].
  change (- - ((1 * s - 0 * 0) / (s * s + 0 * 0)) <> 0). replace (- - ((1 * s - 0 * 0) / (s * s + 0 * 0))) with (1 / s) by (field; exact S). unfold Rdiv. rewrite Rmult_1_l. apply Rinv_neq_0_compat, S.
Qed.

(** Zeros and poles transformed, each in the order rounding gives. *)
Variables (g : @ZpkFormatFilter R) (gf : I -> @ZpkFormatFilter spec_float).
Hypothesis Hg : znapp I pr em V sz g gf.
Hypothesis Gz : Forall on_axis (zk_z g).
Hypothesis Ga : forall k, (k < length (zk_z g))%nat -> am I pr em V (nth k (zk_z g) C0) (fun i => nth k (zk_z (gf i)) (@czero _ (NF i))) (fun i => nth k (zk_z (gf i)) (@czero _ (NF i))).
Hypothesis Gp : Forall (fun p => cre p < 0) (zk_p g).
Hypothesis Gl : (length (zk_z g) <= length (zk_p g))%nat.
Variables (W0 W1 : R) (w0 w1 : I -> spec_float).
Hypothesis N0 : napp W0 w0.
Hypothesis N1 : napp W1 w1.
Hypothesis P0 : 0 < W0.
Hypothesis P1 : W0 < W1.
Hypothesis ND : no_double Bandpass (zk_p g) W0 W1.
Let wo : R := sqrt (W0 * W1).
Let wf (i : I) : spec_float := @nsqrt _ (NF i) (@nmul _ (NF i) (w0 i) (w1 i)).
Let bw : R := W1 - W0.
Let bf (i : I) : spec_float := @nsub _ (NF i) (w1 i) (w0 i).
Let NW : napp wo wf := napp_wo I pr em sz V W0 W1 w0 w1 N0 N1 P0 P1.
Let NB : napp bw bf := napp_bw I pr em sz V W0 W1 w0 w1 N0 N1.
Let PW : 0 < wo := wo_pos W0 W1 P0 P1.
Let hp (zi : C) : C := cmul zi (bw / 2, 0).
Let hpf (i : I) (zi : cplx spec_float) : cplx spec_float := @cmul _ (NF i) zi (@ndiv _ (NF i) (bf i) (@two _ (NF i)), @nzero _ (NF i)).
Let root (z : C) : C := csqrt (csub (csquare z) (npow wo 2, 0)).
Let rootf (i : I) (z : cplx spec_float) : cplx spec_float := @csqrt _ (NF i) (T i) (@csub _ (NF i) (@csquare _ (NF i) z) (@npow _ (NF i) (wf i) 2, @nzero _ (NF i))).
Let two_of (l : list C) : list C := map (fun z => cadd z (root z)) (map hp l) ++ map (fun z => csub z (root z)) (map hp l).
Let two_off (i : I) (l : list (cplx spec_float)) : list (cplx spec_float) := map (fun z => @cadd _ (NF i) z (rootf i z)) (map (hpf i) l) ++ map (fun z => @csub _ (NF i) z (rootf i z)) (map (hpf i) l).
Lemma NB2 : napp (bw / 2) (fun i => @ndiv _ (NF i) (bf i) (@two _ (NF i))).
Proof. apply napp_div; [apply IZR_neq; lia|exact NB|exact (napp_intZ I pr em V sz 2)]. Qed.

Section Join.
Variable P : (I -> Prop) -> list C -> (I -> list (cplx spec_float)) -> Prop.
Hypothesis P_shrink : forall V1 V2 : I -> Prop, (forall i, V2 i -> V1 i) -> forall l lf, P V1 l lf -> P V2 l lf.
Hypothesis P_app : forall V1 l lf l' lf', P V1 l lf -> P V1 l' lf' -> P V1 (l ++ l') (fun i => lf i ++ lf' i).
Hypothesis P_zero : forall V1 n, P V1 (repeat C0 n) (fun i => repeat (@czero _ (NF i)) n).
Hypothesis P_napp : forall V1 l lf, P V1 l lf -> lnapp I pr em V1 sz l lf.
Definition joined : Prop :=
  exists (pat : I -> list bool) (n : nat) h0 hf, (forall i, length (pat i) = n) /\ lp2bp_zpk_dyn g (Some wo) (Some bw) = Ok h0 /\
  (forall i, V i -> @lp2bp_zpk_dyn _ (NF i) (T i) (gf i) (Some (wf i)) (Some (bf i)) = Ok (hf i)) /\ good h0 /\
  forall sg, exists h, same_perm h h0 /\ znapp I pr em (fun i => V i /\ pat i = sg) sz h hf /\ P (fun i => V i /\ pat i = sg) (zk_z h) (fun i => zk_z (hf i)) /\ P (fun i => V i /\ pat i = sg) (zk_p h) (fun i => zk_p (hf i)).
Definition transformed (l : list C) (lf : I -> list (cplx spec_float)) : Prop :=
  exists pat : I -> list bool, (forall i, length (pat i) = length l) /\ forall sg, exists l', Permutation l' (two_of l) /\ P (fun i => V i /\ pat i = sg) l' (fun i => two_off i (lf i)).
Lemma join : transformed (zk_z g) (fun i => zk_z (gf i)) -> transformed (zk_p g) (fun i => zk_p (gf i)) -> joined.
Proof.
  intros (pz & Lz & Hz) (pp & Lp & Hp). pose proof Hg as ([LZ _] & [LP _] & NK). set (d := (length (zk_p g) - length (zk_z g))%nat).
  exists (fun i => pz i ++ pp i), (length (zk_z g) + length (zk_p g))%nat.
  exists (mkZpk (two_of (zk_z g) ++ repeat C0 d) (two_of (zk_p g)) (zk_k g * npow bw d)).
  exists (fun i => mkZpk (two_off i (zk_z (gf i)) ++ repeat (@czero _ (NF i)) d) (two_off i (zk_p (gf i))) (@nmul _ (NF i) (zk_k (gf i)) (@npow _ (NF i) (bf i) d))).
  assert (EQ : lp2bp_zpk_dyn g (Some wo) (Some bw) = Ok (mkZpk (two_of (zk_z g) ++ repeat C0 d) (two_of (zk_p g)) (zk_k g * npow bw d))).
  { unfold lp2bp_zpk_dyn, relative_degree_dyn. destruct (Nat.ltb_spec (length (zk_p g)) (length (zk_z g))) as [Q|_]; [lia|]. cbn [bind unwrap_or]. unfold two_of. rewrite !map_map. reflexivity. }
  split; [intros i; rewrite app_length, Lz, Lp; reflexivity|]. split; [exact EQ|]. split; [|split].
  - intros i Vi. specialize (LZ i Vi). specialize (LP i Vi). unfold lp2bp_zpk_dyn, relative_degree_dyn. rewrite LZ, LP. destruct (Nat.ltb_spec (length (zk_p g)) (length (zk_z g))) as [Q|_]; [lia|]. cbn [bind unwrap_or]. unfold two_off. rewrite !map_map. reflexivity.
  - destruct (lp2bp_eq g wo bw _ EQ) as [_ [Ez [Ep _]]]. rewrite Forall_forall in Gz. split; [|split].
    + cbn [zk_z]. apply Forall_app. split; [|apply Forall_forall; intros z Q; apply repeat_spec in Q; subst z; reflexivity].
      assert (X : forall z, In z (map hp (zk_z g)) -> cre (cadd z (root z)) = 0 /\ cre (csub z (root z)) = 0).
      { intros z Q. apply in_map_iff in Q. destruct Q as [p [<- Hi]]. destruct (Gz p Hi) as [X _]. assert (XH : cre (hp p) = 0) by (unfold hp; destruct p as [x y]; cbn in *; subst x; ring).
        assert (SQ : (root (hp p) * root (hp p) = hp p * hp p - RtoC (wo * wo)%R)%C) by (unfold root; rewrite csqrt_sq; apply (q_eq wo)).
        destruct (root_on_axis _ _ _ PW XH SQ) as [XR _]. generalize dependent (root (hp p)). generalize dependent (hp p). intros [a b] XH [c e] _ XR. cbn in *. subst a c. split; ring. }
      unfold two_of. apply Forall_app. split; apply Forall_forall; intros z Q; apply in_map_iff in Q; destruct Q as [y [<- Hy]]; apply (X y Hy).
    + rewrite Ep. apply quad_Forall; [lra|]. apply Forall_forall. intros z Q. apply in_map_iff in Q. destruct Q as [p [<- Hi]]. rewrite Forall_forall in Gp. apply scale_stable; [unfold bw; lra|apply Gp, Hi].
    + cbn [zk_z zk_p]. unfold two_of. rewrite !app_length, !map_length, repeat_length. unfold d. lia.
  - intros sg. destruct (Hz (firstn (length (zk_z g)) sg)) as (lz & Pz & Mz). destruct (Hp (skipn (length (zk_z g)) sg)) as (lp & Pp & Mp).
    assert (SZ : forall i, V i /\ pz i ++ pp i = sg -> V i /\ pz i = firstn (length (zk_z g)) sg).
    { intros i [Vi Q]. split; [exact Vi|]. rewrite <- Q, firstn_app, <- (Lz i), firstn_all, Nat.sub_diag. cbn. symmetry. apply app_nil_r. }
    assert (SP : forall i, V i /\ pz i ++ pp i = sg -> V i /\ pp i = skipn (length (zk_z g)) sg).
    { intros i [Vi Q]. split; [exact Vi|]. rewrite <- Q, skipn_app, <- (Lz i), skipn_all, Nat.sub_diag. reflexivity. }
    pose proof (P_app _ _ _ _ _ (P_shrink _ _ SZ _ _ Mz) (P_zero (fun i => V i /\ pz i ++ pp i = sg) d)) as QZ. pose proof (P_shrink _ _ SP _ _ Mp) as QP.
    exists (mkZpk (lz ++ repeat C0 d) lp (zk_k g * npow bw d)). split; [|split].
    + split; [|split]; cbn [zk_z zk_p zk_k]; [apply Permutation_app_tail; exact Pz|exact Pp|reflexivity].
    + split; [|split]; cbn [zk_z zk_p zk_k]; [exact (P_napp _ _ _ QZ)|exact (P_napp _ _ _ QP)|].
      apply (napp_shrink pr em V); [intros i [Vi _]; exact Vi|]. apply napp_mul; [exact NK|]. apply (napp_npow I pr em V sz). exact NB.
    + split; [exact QZ|exact QP].
Qed.
End Join.

Lemma hp_p z : In z (map hp (zk_p g)) -> (z * z)%C <> RtoC (wo * wo)%R.
Proof. intros Hz. apply in_map_iff in Hz. destruct Hz as [p [<- Hp]]. unfold wo. rewrite (wo_sq W0 W1 P0 P1). exact (ND p Hp). Qed.
Lemma hp_z z : In z (map hp (zk_z g)) -> on_axis z.
Proof.
  intros Hz. apply in_map_iff in Hz. destruct Hz as [p [<- Hp]]. rewrite Forall_forall in Gz. destruct (Gz p Hp) as [X Y]. unfold hp. destruct p as [x y]. cbn in X, Y. subst x.
  split; [cbn; ring|]. change (0 * 0 + y * (bw / 2) <> 0). replace (0 * 0 + y * (bw / 2)) with (y * (bw / 2)) by ring. apply Rmult_integral_contrapositive_currified; [exact Y|unfold bw; lra].
Qed.
Lemma hp_axis_sq z : In z (map hp (zk_z g)) -> (z * z)%C <> RtoC (wo * wo)%R.
Proof. exact (axis_sq (map hp (zk_z g)) wo hp_z z). Qed.

Lemma stage_axis : joined (fun W l lf => lnapp I pr em W sz l lf).
Proof.
  assert (NS : forall l lf, lnapp I pr em V sz l lf -> (forall z, In z (map hp l) -> (z * z)%C <> RtoC (wo * wo)%R) -> transformed (fun W l lf => lnapp I pr em W sz l lf) l lf).
  { intros l lf N Hl. assert (Nl : lnapp I pr em V sz (map hp l) (fun i => map (hpf i) (lf i))).
    { apply (lnapp_map I pr em V sz _ _ hp hpf); [|exact N]. intros k Hk Nk. apply cnapp_mul; [exact Nk|]. split; [exact NB2|apply napp_zero]. }
    destruct (roots_stage I pr em sz E HE T V HT _ _ _ _ Nl NW Hl) as (pat & Lp & H). exists pat. split; [intros i; rewrite Lp, map_length; reflexivity|exact H]. }
  destruct Hg as (NZ & NP & _). apply join.
  - intros V1 V2 S l lf [A B]. split; [intros i Vi; apply A, S, Vi|]. intros k Hk. destruct (B k Hk) as [X Y]. split; [exact (napp_shrink pr em V1 V2 _ _ S X)|exact (napp_shrink pr em V1 V2 _ _ S Y)].
  - intros V1 l lf l' lf' A B. apply lnapp_app; assumption.
  - intros V1 n. apply lnapp_repeat. apply cnapp_zero.
  - intros V1 l lf A. exact A.
  - exact (NS _ _ NZ hp_axis_sq).
  - exact (NS _ _ NP hp_p).
Qed.

Hypothesis HS : forall i, V i -> (1 < pr i < em i)%Z -> symmetric_trans (pr i) (em i) (T i).
Hypothesis Mg : zmate I pr em V sz g gf.
Lemma mate_axis : mstaged I pr em sz V (lp2bp_zpk_dyn g (Some wo) (Some bw)) (fun i => @lp2bp_zpk_dyn _ (NF i) (T i) (gf i) (Some (wf i)) (Some (bf i))) good.
Proof.
  destruct Mg as [[mz MZ] [mp MP]].
  assert (MM : forall l lf m, lmate I pr em V sz l lf m -> lmate I pr em V sz (map hp l) (fun i => map (hpf i) (lf i)) m).
  { intros l lf m M. apply (lmate_map I pr em V sz _ _ _ hp hpf M).
    - intros k _. apply im_scale. unfold bw. lra.
    - intros k f f' Hk Q. apply (cm_mul I pr em V sz); [exact Q|]. apply cm_real. exact NB2. }
  assert (J : joined (fun W l lf => exists m, lmate I pr em W sz l lf m)).
  { apply join.
    - intros V1 V2 S l lf [m M]. exists m. exact (lmate_shrink I pr em sz V1 V2 S _ _ _ M).
    - intros V1 l lf l' lf' [m M] [m' M']. eexists. apply (lmate_app I pr em V1 sz _ _ _ _ _ _ M M').
    - intros V1 n. exists (fun k => k). apply (lmate_repeat_real I pr em V1 sz 0 (fun _ => S754_zero false) false n). apply napp_zero.
    - intros V1 l lf [m M]. exact (lmate_lnapp _ _ _ _ _ _ _ _ M).
    - destruct (axis_stage_mate I pr em sz E HE T V HT (map hp (zk_z g)) (fun i => map (hpf i) (zk_z (gf i))) mz wo wf (MM _ _ _ MZ) NW PW hp_z) as (pat & Lp & H).
      + rewrite map_length. intros k Hk. pose proof (am_scale I pr em sz V _ _ _ _ _ _ (Ga k Hk) (cm_real I pr em V _ _ false NB2)) as [A1 A2].
        assert (E1 : nth k (map hp (zk_z g)) C0 = hp (nth k (zk_z g) C0)) by (apply nth_map_in; exact Hk).
        assert (E2 : forall i, V i -> nth k (map (hpf i) (zk_z (gf i))) (@czero _ (NF i)) = hpf i (nth k (zk_z (gf i)) (@czero _ (NF i)))).
        { intros i Vi. apply nth_map_in. destruct Hg as ([LZ _] & _). rewrite (LZ i Vi). exact Hk. }
        split.
        * eapply sm_ext; [| | |exact A1]; cbn beta; [rewrite E1; reflexivity| |]; intros i Vi; rewrite (E2 i Vi); reflexivity.
        * eapply sm_ext; [| | |exact A2]; cbn beta; [rewrite E1; reflexivity| |]; intros i Vi; rewrite (E2 i Vi); reflexivity.
      + exists pat. split; [intros i; rewrite Lp, map_length; reflexivity|]. intros sg. destruct (H sg) as (l' & m' & A & B). exists l'. split; [exact A|exists m'; exact B].
    - assert (Hr : forall z, In z (map hp (zk_p g)) -> cre z < 0).
      { intros z Q. apply in_map_iff in Q. destruct Q as [p [<- Hi]]. rewrite Forall_forall in Gp. apply scale_stable; [unfold bw; lra|apply Gp, Hi]. }
      destruct (roots_stage_mate I pr em sz E HE T V HT HS _ _ _ _ _ (MM _ _ _ MP) NW PW Hr hp_p) as (pat & Lp & H).
      exists pat. split; [intros i; rewrite Lp, map_length; reflexivity|]. intros sg. destruct (H sg) as (l' & m' & A & B). exists l'. split; [exact A|exists m'; exact B]. }
  destruct J as (pat & n & h0 & hf & A & B & D & G & H). exists pat, n, h0, hf. split; [exact A|]. split; [exact B|]. split; [exact D|]. split; [exact G|].
  intros sg. destruct (H sg) as (h & S & N & MZ' & MP'). exists h. split; [exact S|]. split; [exact N|]. split; [exact MZ'|exact MP'].
Qed.
End Stage.
