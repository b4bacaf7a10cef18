(** Sign symmetry of rounded arithmetic: operations on conjugate complex floats give
    conjugate results, exactly. *)
From Coq Require Import Reals Ratan ZArith SpecFloat List Lia Lra Bool Permutation.
From Flocq Require Import Core BinarySingleNaN.
From Verif Require Import Base Num Trans M_Complex M_Filter M_Design Cx S_Design S_Filter S_Float S_FloatFft S_FloatZpk S_FloatTrans S_FloatSos
  P_Float P_FloatStats P_Sqrt P_Poly P_Lp P_Proto P_Stable P_Zi P_FloatI0 P_FloatZi P_FloatPoly T_FloatPoly P_FloatDesign.
Import ListNotations.
Local Open Scope R_scope.

(** ** One operation *)
Definition sg (b : bool) : R := if b then -1 else 1.
Lemma sg_xor a b : sg (xorb a b) = sg a * sg b.
Proof. destruct a, b; cbn; ring. Qed.
Lemma sg_abs a x : Rabs (sg a * x) = Rabs x.
Proof. destruct a; cbn; [replace (-1 * x) with (- x) by ring; apply Rabs_Ropp|f_equal; ring]. Qed.
Lemma sg_sq a : sg a * sg a = 1.
Proof. destruct a; cbn; ring. Qed.
Lemma sg_div a b x y : y <> 0 -> (sg a * x) / (sg b * y) = sg (xorb a b) * (x / y).
Proof. intros N. destruct a, b; cbn; field; lra. Qed.
Section Ops.
Variables prec emax : Z.
Hypothesis Hp : Prec_gt_0 prec.
Hypothesis He : Prec_lt_emax prec emax.
Notation emin := (SpecFloat.emin prec emax).
Notation rnd := (round radix2 (FLT_exp emin prec) ZnearestE).
Notation fin := (finite prec emax).
Notation top := (bpow radix2 emax).
Lemma rnd_sg a x : rnd (sg a * x) = sg a * rnd x.
Proof.
  destruct a; cbn; [|rewrite !Rmult_1_l; reflexivity]. replace (-1 * x) with (- x) by ring. replace (-1 * rnd x) with (- rnd x) by ring. apply round_NE_opp.
Qed.
Lemma inf_not_fin (b : binary_float prec emax) s : B2SF b = binary_overflow prec emax mode_NE s -> ~ fin (B2SF b).
Proof. intros Q [_ F]. rewrite Q in F. exact F. Qed.
Lemma fadd_char x y : fin x -> fin y -> (fin (SFadd prec emax x y) <-> Rabs (rnd (fval x + fval y)) < top) /\
  (fin (SFadd prec emax x y) -> fval (SFadd prec emax x y) = rnd (fval x + fval y)).
Proof.
  intros Fx Fy. destruct (finite_B prec emax x Fx) as [a [-> [Fa Va]]]. destruct (finite_B prec emax y Fy) as [b [-> [Fb Vb]]].
  rewrite Va, Vb in *. rewrite (add_equiv prec emax Hp He). pose proof (Bplus_correct prec emax Hp He mode_NE a b Fa Fb) as C.
  destruct (Rlt_bool_spec (Rabs (rnd (B2R a + B2R b))) top) as [L|L]; first [rewrite Rlt_bool_true in C by exact L | rewrite Rlt_bool_false in C by exact L].
  - destruct C as [C1 [C2 _]]. destruct (B_finite prec emax _ C2) as [D1 D2]. split; [tauto|]. intros _. rewrite D2. exact C1.
  - destruct C as [C1 _]. apply inf_not_fin in C1. split; [split; [tauto|intros; lra]|tauto].
Qed.
Lemma fsub_char x y : fin x -> fin y -> (fin (SFsub prec emax x y) <-> Rabs (rnd (fval x - fval y)) < top) /\
  (fin (SFsub prec emax x y) -> fval (SFsub prec emax x y) = rnd (fval x - fval y)).
Proof.
  intros Fx Fy. destruct (finite_B prec emax x Fx) as [a [-> [Fa Va]]]. destruct (finite_B prec emax y Fy) as [b [-> [Fb Vb]]].
  rewrite Va, Vb in *. rewrite (sub_equiv prec emax Hp He). pose proof (Bminus_correct prec emax Hp He mode_NE a b Fa Fb) as C.
  destruct (Rlt_bool_spec (Rabs (rnd (B2R a - B2R b))) top) as [L|L]; first [rewrite Rlt_bool_true in C by exact L | rewrite Rlt_bool_false in C by exact L].
  - destruct C as [C1 [C2 _]]. destruct (B_finite prec emax _ C2) as [D1 D2]. split; [tauto|]. intros _. rewrite D2. exact C1.
  - destruct C as [C1 _]. apply inf_not_fin in C1. split; [split; [tauto|intros; lra]|tauto].
Qed.
Lemma fmul_char x y : fin x -> fin y -> (fin (SFmul prec emax x y) <-> Rabs (rnd (fval x * fval y)) < top) /\
  (fin (SFmul prec emax x y) -> fval (SFmul prec emax x y) = rnd (fval x * fval y)).
Proof.
  intros Fx Fy. destruct (finite_B prec emax x Fx) as [a [-> [Fa Va]]]. destruct (finite_B prec emax y Fy) as [b [-> [Fb Vb]]].
  rewrite Va, Vb in *. rewrite (mul_equiv prec emax Hp He). pose proof (Bmult_correct prec emax Hp He mode_NE a b) as C.
  destruct (Rlt_bool_spec (Rabs (rnd (B2R a * B2R b))) top) as [L|L]; first [rewrite Rlt_bool_true in C by exact L | rewrite Rlt_bool_false in C by exact L].
  - destruct C as [C1 [C2 _]]. rewrite Fa, Fb in C2. destruct (B_finite prec emax _ C2) as [D1 D2]. split; [tauto|]. intros _. rewrite D2. exact C1.
  - apply inf_not_fin in C. split; [split; [tauto|intros; lra]|tauto].
Qed.
Lemma fdiv_char x y : fin x -> fin y -> fval y <> 0 -> (fin (SFdiv prec emax x y) <-> Rabs (rnd (fval x / fval y)) < top) /\
  (fin (SFdiv prec emax x y) -> fval (SFdiv prec emax x y) = rnd (fval x / fval y)).
Proof.
  intros Fx Fy N. destruct (finite_B prec emax x Fx) as [a [-> [Fa Va]]]. destruct (finite_B prec emax y Fy) as [b [-> [Fb Vb]]].
  rewrite Va, Vb in *. rewrite (div_equiv prec emax Hp He). pose proof (Bdiv_correct prec emax Hp He mode_NE a b N) as C.
  destruct (Rlt_bool_spec (Rabs (rnd (B2R a / B2R b))) top) as [L|L]; first [rewrite Rlt_bool_true in C by exact L | rewrite Rlt_bool_false in C by exact L].
  - destruct C as [C1 [C2 _]]. rewrite Fa in C2. destruct (B_finite prec emax _ C2) as [D1 D2]. split; [tauto|]. intros _. rewrite D2. exact C1.
  - apply inf_not_fin in C. split; [split; [tauto|intros; lra]|tauto].
Qed.
(** [y] is [x] with the sign changed ([b = true]) or not. *)
Definition mate (b : bool) (x y : spec_float) : Prop := fin y /\ fval y = sg b * fval x.
Lemma fin_opp x : fin x -> fin (SFopp x).
Proof. intros [A B]. destruct x as [s|s| |s m e]; try destruct B; split; try exact Logic.I; try reflexivity. exact A. Qed.
Lemma val_opp x : fval (SFopp x) = - fval x.
Proof. destruct x as [s|s| |s m e]; cbn; try ring. destruct s; cbn; ring. Qed.
Lemma mate_self x : fin x -> mate false x x.
Proof. intros F. split; [exact F|]. cbn. ring. Qed.
Lemma mate_opp b x y : mate b x y -> mate b (SFopp x) (SFopp y).
Proof. intros [F W]. split; [apply fin_opp; exact F|]. rewrite !val_opp, W. ring. Qed.
Lemma mate_add b x y x' y' : fin x -> fin y -> fin (SFadd prec emax x y) -> mate b x x' -> mate b y y' -> mate b (SFadd prec emax x y) (SFadd prec emax x' y').
Proof.
  intros Fx Fy Fz [Fx' Vx] [Fy' Vy]. destruct (fadd_char x y Fx Fy) as [A B]. destruct (fadd_char x' y' Fx' Fy') as [A' B'].
  assert (Q : rnd (fval x' + fval y') = sg b * rnd (fval x + fval y)) by (rewrite Vx, Vy, <- Rmult_plus_distr_l; apply rnd_sg).
  assert (Fz' : fin (SFadd prec emax x' y')) by (apply A'; rewrite Q, sg_abs; apply A; exact Fz). split; [exact Fz'|]. rewrite B', B by assumption. exact Q.
Qed.
Lemma mate_sub b x y x' y' : fin x -> fin y -> fin (SFsub prec emax x y) -> mate b x x' -> mate b y y' -> mate b (SFsub prec emax x y) (SFsub prec emax x' y').
Proof.
  intros Fx Fy Fz [Fx' Vx] [Fy' Vy]. destruct (fsub_char x y Fx Fy) as [A B]. destruct (fsub_char x' y' Fx' Fy') as [A' B'].
  assert (Q : rnd (fval x' - fval y') = sg b * rnd (fval x - fval y)) by (rewrite Vx, Vy, <- Rmult_minus_distr_l; apply rnd_sg).
  assert (Fz' : fin (SFsub prec emax x' y')) by (apply A'; rewrite Q, sg_abs; apply A; exact Fz). split; [exact Fz'|]. rewrite B', B by assumption. exact Q.
Qed.
Lemma mate_mul a b x y x' y' : fin x -> fin y -> fin (SFmul prec emax x y) -> mate a x x' -> mate b y y' -> mate (xorb a b) (SFmul prec emax x y) (SFmul prec emax x' y').
Proof.
  intros Fx Fy Fz [Fx' Vx] [Fy' Vy]. destruct (fmul_char x y Fx Fy) as [A B]. destruct (fmul_char x' y' Fx' Fy') as [A' B'].
  assert (Q : rnd (fval x' * fval y') = sg (xorb a b) * rnd (fval x * fval y)).
  { rewrite <- rnd_sg, Vx, Vy, sg_xor. f_equal. ring. }
  assert (Fz' : fin (SFmul prec emax x' y')) by (apply A'; rewrite Q, sg_abs; apply A; exact Fz). split; [exact Fz'|]. rewrite B', B by assumption. exact Q.
Qed.
Lemma mate_div a b x y x' y' : fin x -> fin y -> fval y <> 0 -> fin (SFdiv prec emax x y) -> mate a x x' -> mate b y y' -> mate (xorb a b) (SFdiv prec emax x y) (SFdiv prec emax x' y').
Proof.
  intros Fx Fy N Fz [Fx' Vx] [Fy' Vy]. destruct (fdiv_char x y Fx Fy N) as [A B].
  assert (N' : fval y' <> 0). { rewrite Vy. intros Q. apply N. destruct b; cbn in Q; lra. }
  destruct (fdiv_char x' y' Fx' Fy' N') as [A' B'].
  assert (Q : rnd (fval x' / fval y') = sg (xorb a b) * rnd (fval x / fval y)).
  { rewrite <- rnd_sg, Vx, Vy. f_equal. apply sg_div. exact N. }
  assert (Fz' : fin (SFdiv prec emax x' y')) by (apply A'; rewrite Q, sg_abs; apply A; exact Fz). split; [exact Fz'|]. rewrite B', B by assumption. exact Q.
Qed.
Lemma fabs_val x : fin x -> fin (SFabs x) /\ fval (SFabs x) = Rabs (fval x).
Proof.
  intros [A B]. destruct x as [s|s| |s m e]; try destruct B; (split; [split; [exact A|exact Logic.I]|]); cbn; [rewrite Rabs_R0; reflexivity|].
  assert (P : 0 < powerRZ 2 e) by (apply powerRZ_lt; lra). assert (Q : 0 < IZR (Zpos m)) by (apply IZR_lt; reflexivity).
  rewrite !Rabs_mult, (Rabs_right (powerRZ 2 e)), (Rabs_right (IZR (Zpos m))) by lra. f_equal. f_equal. destruct s; [rewrite Rabs_left|rewrite Rabs_right]; lra.
Qed.
Lemma mate_sqrt x x' : fin x -> 0 <= fval x -> mate false x x' -> mate false (SFsqrt prec emax x) (SFsqrt prec emax x').
Proof.
  intros Fx P [Fx' Vx]. cbn in Vx. rewrite Rmult_1_l in Vx. destruct (fsqrt_ok prec emax Hp He x Fx P) as [_ B]. destruct (fsqrt_ok prec emax Hp He x' Fx') as [A' B']; [lra|].
  split; [exact A'|]. rewrite B', B, Vx. cbn. ring.
Qed.
End Ops.

(** ** Families *)
Section Fam.
Variable I : Type.
Variables pr em : I -> Z.
Variable V : I -> Prop.
Variable sz : I -> bool.
Notation napp := (napp I pr em V).
Notation NF i := (SFNum (pr i) (em i) (sz i)).
Notation cnapp := (cnapp I pr em V).
Notation lnapp := (lnapp I pr em V sz).
Notation ev := (ev I pr em V).
Ltac pq := unfold Prec_gt_0, Prec_lt_emax; lia.

(** [f] tends to [c], and [f'] is [f], or its opposite, in every format fine enough. *)
Definition sm (b : bool) (c : R) (f f' : I -> spec_float) : Prop := napp c f /\ ev (fun i => mate (pr i) (em i) b (f i) (f' i)).
Lemma napp_ev c f : napp c f -> ev (fun i => finite (pr i) (em i) (f i)).
Proof. intros [K [HK H]]. exists K. split; [exact HK|]. intros i Hi. apply H. exact Hi. Qed.
Lemma sm_napp b c f f' : sm b c f f' -> napp (sg b * c) f'.
Proof.
  intros [[K [HK H]] [L [HL G]]]. exists (K + L). split; [lra|]. intros i Hi. destruct (H i (fmt_mono I pr em V _ K i Hi ltac:(lra))) as [_ E].
  destruct (G i (fmt_mono I pr em V _ L i Hi ltac:(lra))) as [F W]. split; [exact F|]. rewrite W, <- Rmult_minus_distr_l, sg_abs.
  destruct Hi as (_ & Hpe & _). destruct (u_half (pr i) ltac:(lia)) as [U0 _]. eapply Rle_trans; [exact E|]. apply Rmult_le_compat_r; lra.
Qed.
Lemma sm_self c f : napp c f -> sm false c f f.
Proof. intros H. split; [exact H|]. eapply ev_impl; [|exact (napp_ev c f H)]. intros i _ _ F. apply mate_self. exact F. Qed.
Lemma sm_zero b s : sm b 0 (fun _ => S754_zero s) (fun _ => S754_zero s).
Proof. split; [apply napp_zero|]. apply ev_all. intros i _ _. split; [split; [reflexivity|exact Logic.I]|]. cbn. ring. Qed.
Lemma sm_opp b c f f' : sm b c f f' -> sm b (- c) (fun i => SFopp (f i)) (fun i => SFopp (f' i)).
Proof. intros [A B]. split; [apply napp_opp; exact A|]. eapply ev_impl; [|exact B]. intros i _ _ M. apply mate_opp. exact M. Qed.
Lemma sm_add b c d f g f' g' : sm b c f f' -> sm b d g g' -> sm b (c + d) (fun i => SFadd (pr i) (em i) (f i) (g i)) (fun i => SFadd (pr i) (em i) (f' i) (g' i)).
Proof.
  intros [A B] [A' B']. pose proof (napp_add _ _ _ _ _ _ _ _ A A') as S. split; [exact S|].
  eapply ev_impl; [|exact (ev_and _ _ _ _ _ _ (ev_and _ _ _ _ _ _ (napp_ev _ _ A) (napp_ev _ _ A')) (ev_and _ _ _ _ _ _ (napp_ev _ _ S) (ev_and _ _ _ _ _ _ B B')))].
  cbn beta. intros i _ Hpe [[F1 F2] [F3 [M1 M2]]]. apply mate_add; assumption || pq.
Qed.
Lemma sm_sub b c d f g f' g' : sm b c f f' -> sm b d g g' -> sm b (c - d) (fun i => SFsub (pr i) (em i) (f i) (g i)) (fun i => SFsub (pr i) (em i) (f' i) (g' i)).
Proof.
  intros [A B] [A' B']. pose proof (napp_sub _ _ _ _ _ _ _ _ A A') as S. split; [exact S|].
  eapply ev_impl; [|exact (ev_and _ _ _ _ _ _ (ev_and _ _ _ _ _ _ (napp_ev _ _ A) (napp_ev _ _ A')) (ev_and _ _ _ _ _ _ (napp_ev _ _ S) (ev_and _ _ _ _ _ _ B B')))].
  cbn beta. intros i _ Hpe [[F1 F2] [F3 [M1 M2]]]. apply mate_sub; assumption || pq.
Qed.
Lemma sm_mul a b c d f g f' g' : sm a c f f' -> sm b d g g' -> sm (xorb a b) (c * d) (fun i => SFmul (pr i) (em i) (f i) (g i)) (fun i => SFmul (pr i) (em i) (f' i) (g' i)).
Proof.
  intros [A B] [A' B']. pose proof (napp_mul _ _ _ _ _ _ _ _ A A') as S. split; [exact S|].
  eapply ev_impl; [|exact (ev_and _ _ _ _ _ _ (ev_and _ _ _ _ _ _ (napp_ev _ _ A) (napp_ev _ _ A')) (ev_and _ _ _ _ _ _ (napp_ev _ _ S) (ev_and _ _ _ _ _ _ B B')))].
  cbn beta. intros i _ Hpe [[F1 F2] [F3 [M1 M2]]]. apply mate_mul; assumption || pq.
Qed.
Lemma napp_nz c f : c <> 0 -> napp c f -> ev (fun i => fval (f i) <> 0).
Proof.
  intros N A. destruct (Rlt_dec c 0) as [L|L].
  - eapply ev_impl; [|exact (napp_lt I pr em V c 0 f _ L A (napp_zero I pr em V false))]. cbn beta. intros i _ _ (_ & _ & Q). cbn in Q. lra.
  - eapply ev_impl; [|exact (napp_lt I pr em V 0 c _ f ltac:(lra) (napp_zero I pr em V false) A)]. cbn beta. intros i _ _ (_ & _ & Q). cbn in Q. lra.
Qed.
Lemma sm_div a b c d f g f' g' : d <> 0 -> sm a c f f' -> sm b d g g' -> sm (xorb a b) (c / d) (fun i => SFdiv (pr i) (em i) (f i) (g i)) (fun i => SFdiv (pr i) (em i) (f' i) (g' i)).
Proof.
  intros N [A B] [A' B']. pose proof (napp_div _ _ _ _ _ _ _ _ N A A') as S. split; [exact S|].
  eapply ev_impl; [|exact (ev_and _ _ _ _ _ _ (ev_and _ _ _ _ _ _ (napp_ev _ _ A) (napp_ev _ _ A')) (ev_and _ _ _ _ _ _ (napp_ev _ _ S) (ev_and _ _ _ _ _ _ (napp_nz _ _ N A') (ev_and _ _ _ _ _ _ B B'))))].
  cbn beta. intros i _ Hpe [[F1 F2] [F3 [N' [M1 M2]]]]. apply mate_div; assumption || pq.
Qed.
Lemma sm_ext b c c' f f' g g' : c = c' -> (forall i, V i -> f i = g i) -> (forall i, V i -> f' i = g' i) -> sm b c f f' -> sm b c' g g'.
Proof.
  intros -> E1 E2 [A B]. split; [eapply napp_ext; [reflexivity| |exact A]; intros i Vi _; apply E1; exact Vi|].
  eapply ev_impl; [|exact B]. cbn beta. intros i Vi _ M. rewrite <- E1, <- E2 by exact Vi. exact M.
Qed.
(** Converse pairs. *)
Lemma sm_sym b c f f' : sm b c f f' -> sm b (sg b * c) f' f.
Proof.
  intros H. split; [exact (sm_napp _ _ _ _ H)|]. destruct H as [A B]. eapply ev_impl; [|exact (ev_and _ _ _ _ _ _ (napp_ev _ _ A) B)]. cbn beta. intros i _ _ [F [_ M]]. split; [exact F|].
  rewrite M, <- Rmult_assoc, sg_sq. ring.
Qed.

(** ** Conjugate pairs *)
Definition cm (c : C) (f f' : I -> cplx spec_float) : Prop :=
  sm false (fst c) (fun i => fst (f i)) (fun i => fst (f' i)) /\ sm true (snd c) (fun i => snd (f i)) (fun i => snd (f' i)).
Lemma cm_cnapp c f f' : cm c f f' -> cnapp c f.
Proof. intros [[A _] [B _]]. split; assumption. Qed.
Lemma cm_sym c f f' : cm c f f' -> cm (cconj c) f' f.
Proof.
  intros [A B]. apply sm_sym in A. apply sm_sym in B. split.
  - replace (fst (cconj c)) with (sg false * fst c) by (unfold cconj, cre, sg; cbn; ring). exact A.
  - replace (snd (cconj c)) with (sg true * snd c) by (unfold cconj, cim, sg; cbn; ring). exact B.
Qed.
Lemma cm_conj c f f' : cm c f f' -> cnapp (cconj c) f'.
Proof. intros H. exact (cm_cnapp _ _ _ (cm_sym _ _ _ H)). Qed.
Lemma cm_add c d f g f' g' : cm c f f' -> cm d g g' -> cm (cadd c d) (fun i => @cadd _ (NF i) (f i) (g i)) (fun i => @cadd _ (NF i) (f' i) (g' i)).
Proof. intros [A B] [A' B']. split; [exact (sm_add _ _ _ _ _ _ _ A A')|exact (sm_add _ _ _ _ _ _ _ B B')]. Qed.
Lemma cm_sub c d f g f' g' : cm c f f' -> cm d g g' -> cm (csub c d) (fun i => @csub _ (NF i) (f i) (g i)) (fun i => @csub _ (NF i) (f' i) (g' i)).
Proof. intros [A B] [A' B']. split; [exact (sm_sub _ _ _ _ _ _ _ A A')|exact (sm_sub _ _ _ _ _ _ _ B B')]. Qed.
Lemma cm_neg c f f' : cm c f f' -> cm (cneg c) (fun i => @cneg _ (NF i) (f i)) (fun i => @cneg _ (NF i) (f' i)).
Proof. intros [A B]. split; [exact (sm_opp _ _ _ _ A)|exact (sm_opp _ _ _ _ B)]. Qed.
Lemma cm_mul c d f g f' g' : cm c f f' -> cm d g g' -> cm (cmul c d) (fun i => @cmul _ (NF i) (f i) (g i)) (fun i => @cmul _ (NF i) (f' i) (g' i)).
Proof.
  intros [A B] [A' B']. split.
  - exact (sm_sub _ _ _ _ _ _ _ (sm_mul _ _ _ _ _ _ _ _ A A') (sm_mul _ _ _ _ _ _ _ _ B B')).
  - exact (sm_add _ _ _ _ _ _ _ (sm_mul _ _ _ _ _ _ _ _ A B') (sm_mul _ _ _ _ _ _ _ _ B A')).
Qed.
Lemma cm_div c d f g f' g' : d <> C0 -> cm c f f' -> cm d g g' -> cm (cdiv c d) (fun i => @cdiv _ (NF i) (f i) (g i)) (fun i => @cdiv _ (NF i) (f' i) (g' i)).
Proof.
  intros N [A B] [A' B'].
  assert (N0 : fst d * fst d + snd d * snd d <> 0). { intros Q. apply N. destruct (Rplus_sqr_eq_0 _ _ Q) as [Q1 Q2]. apply C_ext; assumption. }
  pose proof (sm_add _ _ _ _ _ _ _ (sm_mul _ _ _ _ _ _ _ _ A' A') (sm_mul _ _ _ _ _ _ _ _ B' B')) as S. cbn [xorb] in S. split.
  - exact (sm_div _ _ _ _ _ _ _ _ N0 (sm_add _ _ _ _ _ _ _ (sm_mul _ _ _ _ _ _ _ _ A A') (sm_mul _ _ _ _ _ _ _ _ B B')) S).
  - exact (sm_div _ _ _ _ _ _ _ _ N0 (sm_sub _ _ _ _ _ _ _ (sm_mul _ _ _ _ _ _ _ _ B A') (sm_mul _ _ _ _ _ _ _ _ A B')) S).
Qed.
Lemma cm_real c f s : napp c f -> cm (c, 0) (fun i => (f i, S754_zero s)) (fun i => (f i, S754_zero s)).
Proof. intros H. split; [apply sm_self; exact H|apply sm_zero]. Qed.
Lemma cm_ext c c' f f' g g' : c = c' -> (forall i, V i -> f i = g i) -> (forall i, V i -> f' i = g' i) -> cm c f f' -> cm c' g g'.
Proof. intros -> E1 E2 [A B]. split; (eapply sm_ext; [reflexivity| | |eassumption]); cbn beta; intros i Vi; rewrite ?E1, ?E2 by exact Vi; reflexivity. Qed.
Lemma cm_value c f f' : cm c f f' -> ev (fun i => cfinite (pr i) (em i) (f i) /\ cfinite (pr i) (em i) (f' i) /\ cval (f' i) = cconj (cval (f i))).
Proof.
  intros [[A B] [A' B']]. eapply ev_impl; [|exact (ev_and _ _ _ _ _ _ (ev_and _ _ _ _ _ _ (napp_ev _ _ A) (napp_ev _ _ A')) (ev_and _ _ _ _ _ _ B B'))].
  cbn beta. intros i _ _ [[F1 F2] [[F3 M1] [F4 M2]]]. split; [split; assumption|]. split; [split; assumption|]. apply C_ext; [transitivity (sg false * fval (fst (f i))); [exact M1|unfold cconj, cval, cre, sg; cbn; ring]|transitivity (sg true * fval (snd (f i))); [exact M2|unfold cconj, cval, cim, sg; cbn; ring]].
Qed.

(** ** Lists closed under conjugation *)
Definition lmate (l : list C) (lf : I -> list (cplx spec_float)) (m : nat -> nat) : Prop :=
  (forall i, V i -> length (lf i) = length l) /\
  forall k, (k < length l)%nat -> (m k < length l)%nat /\ m (m k) = k /\ (m k = k \/ cim (nth k l C0) <> 0) /\
    cm (nth k l C0) (fun i => nth k (lf i) (@czero _ (NF i))) (fun i => nth (m k) (lf i) (@czero _ (NF i))).
Lemma lmate_lnapp l lf m : lmate l lf m -> lnapp l lf.
Proof. intros [L H]. split; [exact L|]. intros k Hk. destruct (H k Hk) as (_ & _ & _ & Q). exact (cm_cnapp _ _ _ Q). Qed.
Lemma nth_map_in {A B} (f : A -> B) (l : list A) k d d' : (k < length l)%nat -> nth k (map f l) d = f (nth k l d').
Proof. intros Hk. rewrite (nth_indep (map f l) d (f d')) by (rewrite map_length; exact Hk). apply map_nth. Qed.
Lemma lmate_map l lf m (h : C -> C) (hf : I -> cplx spec_float -> cplx spec_float) : lmate l lf m ->
  (forall k, (k < length l)%nat -> cim (nth k l C0) <> 0 -> cim (h (nth k l C0)) <> 0) ->
  (forall k f f', (k < length l)%nat -> cm (nth k l C0) f f' -> cm (h (nth k l C0)) (fun i => hf i (f i)) (fun i => hf i (f' i))) ->
  lmate (map h l) (fun i => map (hf i) (lf i)) m.
Proof.
  intros [L H] Hi Hh. split; [intros i Vi; rewrite !map_length; apply L; exact Vi|]. rewrite map_length. intros k Hk. destruct (H k Hk) as (A & B & D & Q).
  split; [exact A|]. split; [exact B|]. rewrite (nth_map_in h l k C0 C0 Hk). split; [destruct D as [D|D]; [left; exact D|right; apply Hi; assumption]|].
  eapply cm_ext; [reflexivity| | |exact (Hh k _ _ Hk Q)]; cbn beta; intros i Vi; symmetry; apply nth_map_in; rewrite L by exact Vi; assumption.
Qed.
Lemma lmate_repeat_real c f s n : napp c f -> lmate (repeat (c, 0) n) (fun i => repeat (f i, S754_zero s) n) (fun k => k).
Proof.
  intros N. split; [intros i _; rewrite !repeat_length; reflexivity|]. rewrite repeat_length. intros k Hk. split; [exact Hk|]. split; [reflexivity|]. split; [left; reflexivity|].
  assert (R : forall A (a d : A), nth k (repeat a n) d = a).
  { intros A a d. clear N. revert k Hk. induction n as [|n' IH]; intros k Hk; [lia|]. destruct k; [reflexivity|]. apply IH. lia. }
  rewrite R. eapply cm_ext; [reflexivity| | |exact (cm_real c f s N)]; cbn beta; intros i _; rewrite R; reflexivity.
Qed.
Lemma lmate_app l lf m l' lf' m' : lmate l lf m -> lmate l' lf' m' ->
  lmate (l ++ l') (fun i => lf i ++ lf' i) (fun k => if (k <? length l)%nat then m k else (length l + m' (k - length l))%nat).
Proof.
  intros [L H] [L' H']. split; [intros i Vi; rewrite !app_length, L, L' by exact Vi; reflexivity|]. rewrite app_length. intros k Hk.
  destruct (Nat.ltb_spec k (length l)) as [Q|Q].
  - destruct (H k Q) as (A & B & D & M). destruct (Nat.ltb_spec (m k) (length l)); [|lia]. split; [lia|]. split; [exact B|]. rewrite (app_nth1 l l' _ Q). split; [exact D|].
    eapply cm_ext; [reflexivity| | |exact M]; cbn beta; intros i Vi; rewrite app_nth1 by (rewrite L by exact Vi; assumption); reflexivity.
  - destruct (H' (k - length l)%nat ltac:(lia)) as (A & B & D & M). destruct (Nat.ltb_spec (length l + m' (k - length l))%nat (length l)); [lia|].
    split; [lia|]. replace (length l + m' (k - length l) - length l)%nat with (m' (k - length l)%nat) by lia. split; [lia|]. rewrite (app_nth2 l l' _ Q). split; [destruct D; [left; lia|right; assumption]|].
    eapply cm_ext; [reflexivity| | |exact M]; cbn beta; intros i Vi; rewrite app_nth2 by (rewrite L by exact Vi; lia); rewrite L by exact Vi; [reflexivity|].
    f_equal. lia.
Qed.
End Fam.
