(** A calculus of rounding errors: [apx k x X A A'] says that the finite float x stands for the
    real X, |X| <= A, with |x - X| <= (1 + u)^k A' - A.  It composes under the float
    operations. *)
From Coq Require Import Reals ZArith SpecFloat List Lia Lra Psatz Bool.
From Flocq Require Import Core BinarySingleNaN.
From Verif Require Import Base Num S_Stats S_Float P_Stats P_Float P_FloatStats P_FloatFilt.
Import ListNotations.
Local Open Scope R_scope.

Section Apx.
Variables prec emax : Z.
Hypothesis Hpe : (1 < prec < emax)%Z.
Local Instance Hpa : Prec_gt_0 prec.
Proof. unfold Prec_gt_0. lia. Qed.
Local Instance Hea : Prec_lt_emax prec emax.
Proof. unfold Prec_lt_emax. lia. Qed.
Notation u := (uround prec).
Notation FM := (fmax prec emax).
Notation tn := (ftiny prec emax).
Notation fin := (finite prec emax).
Notation "a ⊕ b" := (SFadd prec emax a b) (at level 50, left associativity).
Notation "a ⊖ b" := (SFsub prec emax a b) (at level 50, left associativity).
Notation "a ⊗ b" := (SFmul prec emax a b) (at level 40, left associativity).
Notation G k := ((1 + u) ^ k).

Definition apx (k : nat) (x : spec_float) (X A A' : R) : Prop :=
  fin x /\ Rabs X <= A /\ A <= A' /\ Rabs (fval x - X) <= G k * A' - A.

Lemma G_le k l : (k <= l)%nat -> G k <= G l.
Proof. intros H. apply Rle_pow; [pose proof (u_pos prec); lra|exact H]. Qed.
Lemma apx_abs k x X A A' : apx k x X A A' -> Rabs (fval x) <= G k * A'.
Proof.
  intros [_ [H1 [_ H2]]]. replace (fval x) with (X + (fval x - X)) by ring. eapply Rle_trans; [apply Rabs_triang|]. lra.
Qed.
Lemma apx_pos k x X A A' : apx k x X A A' -> 0 <= A /\ 0 <= A'.
Proof. intros [_ [H1 [H2 _]]]. pose proof (Rabs_pos X). lra. Qed.
Lemma apx_exact x A : fin x -> Rabs (fval x) <= A -> apx 0 x (fval x) A A.
Proof. intros F H. split; [exact F|]. split; [exact H|]. split; [lra|]. rewrite Rminus_diag_eq, Rabs_R0 by reflexivity. cbn [pow]. lra. Qed.
Lemma apx_weak k l x X A A' B' : (k <= l)%nat -> A' <= B' -> apx k x X A A' -> apx l x X A B'.
Proof.
  intros Hk HB Q. pose proof (apx_pos _ _ _ _ _ Q) as [P1 P2]. destruct Q as [F [H1 [H2 H3]]]. split; [exact F|]. split; [exact H1|]. split; [lra|].
  assert (G k * A' <= G l * B'); [|lra]. apply Rmult_le_compat; [pose proof (G1 prec k); lra|lra|apply G_le, Hk|exact HB].
Qed.
(** a bound on the exact value may be relaxed together with A' *)
Lemma apx_shift k x X A A' D : 0 <= D -> apx k x X A A' -> apx k x X (A + D) (A' + D).
Proof.
  intros HD [F [H1 [H2 H3]]]. split; [exact F|]. split; [lra|]. split; [lra|]. pose proof (G1 prec k).
  assert (D <= G k * D) by (rewrite <- (Rmult_1_l D) at 1; apply Rmult_le_compat_r; lra). lra.
Qed.
Lemma apx_add k x y X Y A B A' B' : apx k x X A A' -> apx k y Y B B' -> G (k + 1) * (A' + B') <= FM ->
  apx (k + 1) (x ⊕ y) (X + Y) (A + B) (A' + B').
Proof.
  intros Qx Qy HM. pose proof (apx_abs _ _ _ _ _ Qx) as Ax. pose proof (apx_abs _ _ _ _ _ Qy) as Ay.
  pose proof (apx_pos _ _ _ _ _ Qx). pose proof (apx_pos _ _ _ _ _ Qy). destruct Qx as [Fx [X1 [X2 X3]]], Qy as [Fy [Y1 [Y2 Y3]]].
  rewrite pow_add, pow_1 in HM. pose proof (u_pos prec) as U. pose proof (G1 prec k) as Gk.
  assert (GS : 0 <= G k * (A' + B')) by (apply Rmult_le_pos; lra).
  destruct (add_step prec emax Hpe x y Fx Fy) as [F [E _]]; [nra|]. split; [exact F|]. split; [eapply Rle_trans; [apply Rabs_triang|]; lra|]. split; [lra|].
  replace (fval (x ⊕ y) - (X + Y)) with ((fval (x ⊕ y) - (fval x + fval y)) + ((fval x - X) + (fval y - Y))) by ring.
  eapply Rle_trans; [apply Rabs_triang|]. pose proof (Rabs_triang (fval x - X) (fval y - Y)) as T.
  assert (u * (Rabs (fval x) + Rabs (fval y)) <= u * (G k * A' + G k * B')) by (apply Rmult_le_compat_l; lra). rewrite pow_add, pow_1. nra.
Qed.
Lemma apx_sub k x y X Y A B A' B' : apx k x X A A' -> apx k y Y B B' -> G (k + 1) * (A' + B') <= FM ->
  apx (k + 1) (x ⊖ y) (X - Y) (A + B) (A' + B').
Proof.
  intros Qx Qy HM. pose proof (apx_abs _ _ _ _ _ Qx) as Ax. pose proof (apx_abs _ _ _ _ _ Qy) as Ay.
  pose proof (apx_pos _ _ _ _ _ Qx). pose proof (apx_pos _ _ _ _ _ Qy). destruct Qx as [Fx [X1 [X2 X3]]], Qy as [Fy [Y1 [Y2 Y3]]].
  rewrite pow_add, pow_1 in HM. pose proof (u_pos prec) as U. pose proof (G1 prec k) as Gk.
  assert (GS : 0 <= G k * (A' + B')) by (apply Rmult_le_pos; lra).
  destruct (sub_step prec emax Hpe x y Fx Fy) as [F E]; [nra|]. split; [exact F|].
  split; [unfold Rminus; eapply Rle_trans; [apply Rabs_triang|]; rewrite Rabs_Ropp; lra|]. split; [lra|].
  replace (fval (x ⊖ y) - (X - Y)) with ((fval (x ⊖ y) - (fval x - fval y)) + ((fval x - X) + - (fval y - Y))) by ring.
  eapply Rle_trans; [apply Rabs_triang|]. pose proof (Rabs_triang (fval x - X) (- (fval y - Y))) as T. rewrite Rabs_Ropp in T.
  assert (u * (Rabs (fval x) + Rabs (fval y)) <= u * (G k * A' + G k * B')) by (apply Rmult_le_compat_l; lra). rewrite pow_add, pow_1. nra.
Qed.
Lemma apx_mul k l x y X Y A B A' B' : apx k x X A A' -> apx l y Y B B' -> G (k + l + 1) * (A' * B' + tn) <= FM ->
  apx (k + l + 1) (x ⊗ y) (X * Y) (A * B) (A' * B' + tn).
Proof.
  intros Qx Qy HM. pose proof (apx_abs _ _ _ _ _ Qx) as Ax. pose proof (apx_abs _ _ _ _ _ Qy) as Ay.
  pose proof (apx_pos _ _ _ _ _ Qx) as [PA PA']. pose proof (apx_pos _ _ _ _ _ Qy) as [PB PB']. destruct Qx as [Fx [X1 [X2 X3]]], Qy as [Fy [Y1 [Y2 Y3]]].
  pose proof (u_pos prec) as U. pose proof (tiny_pos prec emax) as T0. pose proof (G1 prec k) as Gk. pose proof (G1 prec l) as Gl.
  rewrite !pow_add, pow_1 in HM. set (g := G k) in *. set (h := G l) in *.
  assert (gh : 1 <= g * h) by nra. assert (AB : 0 <= A' * B') by (apply Rmult_le_pos; lra).
  assert (S : 0 <= (g * A') * (h * B')) by (apply Rmult_le_pos; apply Rmult_le_pos; lra).
  assert (HM1 : (g * A') * (h * B') <= FM).
  { eapply Rle_trans; [|exact HM]. replace ((g * A') * (h * B')) with (g * h * (A' * B')) by ring. apply Rmult_le_compat; nra. }
  destruct (mul_step prec emax Hpe x y (g * A') (h * B') Fx Fy Ax Ay HM1) as [F E]. split; [exact F|].
  split; [rewrite Rabs_mult; apply Rmult_le_compat; try apply Rabs_pos; assumption|]. split; [assert (A * B <= A' * B') by (apply Rmult_le_compat; lra); lra|].
  replace (fval (x ⊗ y) - X * Y) with ((fval (x ⊗ y) - fval x * fval y) + (fval x * (fval y - Y) + Y * (fval x - X))) by ring.
  eapply Rle_trans; [apply Rabs_triang|]. pose proof (Rabs_triang (fval x * (fval y - Y)) (Y * (fval x - X))) as T. rewrite !Rabs_mult in T.
  assert (E1 : Rabs (fval x) * Rabs (fval y - Y) <= g * A' * (h * B' - B)) by (apply Rmult_le_compat; try apply Rabs_pos; assumption).
  assert (E2 : Rabs Y * Rabs (fval x - X) <= B * (g * A' - A)) by (apply Rmult_le_compat; try apply Rabs_pos; assumption).
  assert (E3 : tn <= g * h * (1 + u) * tn) by (rewrite <- (Rmult_1_l tn) at 1; apply Rmult_le_compat_r; nra). rewrite !pow_add, pow_1. fold g h.
  replace (g * h * (1 + u) * (A' * B' + tn) - A * B) with ((1 + u) * ((g * A') * (h * B')) + g * h * (1 + u) * tn - A * B) by ring. nra.
Qed.
Lemma apx_div k x y X A A' : apx k x X A A' -> fin y -> fval y <> 0 -> G (k + 1) * (A' / Rabs (fval y) + tn) <= FM ->
  apx (k + 1) (SFdiv prec emax x y) (X / fval y) (A / Rabs (fval y)) (A' / Rabs (fval y) + tn).
Proof.
  intros Qx Fy Hy HM. pose proof (apx_abs _ _ _ _ _ Qx) as Ax. pose proof (apx_pos _ _ _ _ _ Qx) as [PA PA']. destruct Qx as [Fx [X1 [X2 X3]]].
  pose proof (u_pos prec) as U. pose proof (tiny_pos prec emax) as T0. pose proof (G1 prec k) as Gk.
  rewrite pow_add, pow_1 in HM. set (g := G k) in *. set (i := Rabs (fval y)) in *.
  assert (I0 : 0 < / i) by (apply Rinv_0_lt_compat, Rabs_pos_lt, Hy).
  assert (AI : forall z, Rabs (z / fval y) = Rabs z * / i) by (intros z; unfold Rdiv; rewrite Rabs_mult, Rabs_inv; reflexivity).
  assert (S : Rabs (fval x / fval y) <= g * (A' / i)) by (rewrite AI; unfold Rdiv; rewrite <- Rmult_assoc; apply Rmult_le_compat_r; lra).
  assert (P : 0 <= A' / i) by (apply Rmult_le_pos; lra).
  assert (gP : 0 <= g * (A' / i)) by (apply Rmult_le_pos; lra).
  destruct (fdiv_ok prec emax Hpa Hea x y Fx Fy Hy) as [F V].
  { eapply Rle_trans; [exact S|]. eapply Rle_trans; [|exact HM]. assert (0 <= g * tn) by (apply Rmult_le_pos; lra). nra. }
  split; [exact F|].
  split; [rewrite AI; unfold Rdiv; apply Rmult_le_compat_r; lra|]. split; [assert (A / i <= A' / i) by (unfold Rdiv; apply Rmult_le_compat_r; lra); lra|].
  pose proof (rnd_err prec emax Hpa (fval x / fval y)) as E. rewrite <- V in E.
  replace (fval (SFdiv prec emax x y) - X / fval y) with ((fval (SFdiv prec emax x y) - fval x / fval y) + (fval x - X) / fval y) by (field; exact Hy).
  eapply Rle_trans; [apply Rabs_triang|]. rewrite AI.
  assert (E2 : Rabs (fval x - X) * / i <= (g * A' - A) * / i) by (apply Rmult_le_compat_r; lra).
  assert (E3 : tn <= g * (1 + u) * tn) by (rewrite <- (Rmult_1_l tn) at 1; apply Rmult_le_compat_r; nra). rewrite pow_add, pow_1. fold g.
  unfold Rdiv in *. nra.
Qed.
(** sums as the code computes them *)
Lemma apx_fold {T} (f : T -> spec_float) (X A A' : T -> R) l : forall k acc V B B', apx k acc V B B' -> (forall t, In t l -> apx k (f t) (X t) (A t) (A' t)) ->
  G (k + length l) * (B' + Rsum (map A' l)) <= FM ->
  apx (k + length l) (fold_left (SFadd prec emax) (map f l) acc) (V + Rsum (map X l)) (B + Rsum (map A l)) (B' + Rsum (map A' l)).
Proof.
  induction l as [|t l IH]; intros k acc V B B' Qa Ql HM.
  - cbn [length map fold_left Rsum fold_right] in *. rewrite Nat.add_0_r, !Rplus_0_r. exact Qa.
  - cbn [length map fold_left] in *. change (Rsum (X t :: map X l)) with (X t + Rsum (map X l)). change (Rsum (A t :: map A l)) with (A t + Rsum (map A l)).
    change (Rsum (A' t :: map A' l)) with (A' t + Rsum (map A' l)) in *. rewrite <- !Rplus_assoc in *. rewrite <- Nat.add_succ_comm in *.
    pose proof (Ql t (or_introl eq_refl)) as Qt. pose proof (apx_pos _ _ _ _ _ Qt) as [_ P1]. pose proof (apx_pos _ _ _ _ _ Qa) as [_ P2].
    assert (P3 : 0 <= Rsum (map A' l)).
    { assert (Z : forall t0, In t0 l -> 0 <= A' t0) by (intros t0 H0; exact (proj2 (apx_pos _ _ _ _ _ (Ql t0 (or_intror H0))))).
      clear - Z. induction l as [|a l IH]; [cbn; lra|]. cbn [map]. change (Rsum (A' a :: map A' l)) with (A' a + Rsum (map A' l)).
      pose proof (Z a (or_introl eq_refl)). specialize (IH (fun t0 H0 => Z t0 (or_intror H0))). lra. }
    apply IH.
    + rewrite <- Nat.add_1_r. apply apx_add; [exact Qa|exact Qt|]. eapply Rle_trans; [|exact HM]. rewrite Nat.add_1_r.
      apply Rmult_le_compat; [pose proof (G1 prec (S k)); lra|lra|apply G_le; lia|lra].
    + intros t' Ht. apply (apx_weak k (S k) _ _ _ (A' t')); [lia|lra|]. apply Ql. right. exact Ht.
    + exact HM.
Qed.
Lemma apx_sum sz {T} (f : T -> spec_float) (X A A' : T -> R) l k : (forall t, In t l -> apx k (f t) (X t) (A t) (A' t)) ->
  G (k + length l) * Rsum (map A' l) <= FM ->
  apx (k + length l) (@nsum _ (SFNum prec emax sz) (map f l)) (Rsum (map X l)) (Rsum (map A l)) (Rsum (map A' l)).
Proof.
  intros Ql HM. rewrite <- (Rplus_0_l (Rsum (map X l))), <- (Rplus_0_l (Rsum (map A l))), <- (Rplus_0_l (Rsum (map A' l))).
  apply (apx_fold f X A A' l k (S754_zero sz) 0 0 0).
  - apply (apx_weak 0 k _ _ _ 0); [lia|lra|]. change 0 with (fval (S754_zero sz)) at 1. apply apx_exact; [split; [reflexivity|exact I]|]. cbn. rewrite Rabs_R0. lra.
  - exact Ql.
  - rewrite Rplus_0_l. exact HM.
Qed.
End Apx.
