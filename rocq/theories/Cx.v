(** Complex numbers over the reals: field, unit circle, finite sums. *)
From Coq Require Import List Arith ZArith Znumtheory Reals Lra Lia Field Ring.
From Verif Require Import Base Num Trans M_Complex RSum.
Import ListNotations.
Local Open Scope R_scope.

Notation C := (cplx R).
Declare Scope C_scope.
Delimit Scope C_scope with C.
Infix "+" := (@cadd R RNum) : C_scope.
Infix "-" := (@csub R RNum) : C_scope.
Infix "*" := (@cmul R RNum) : C_scope.
Infix "/" := (@cdiv R RNum) : C_scope.
Notation "- x" := (@cneg R RNum x) : C_scope.
Notation C0 := (@czero R RNum).
Notation C1 := (@cone R RNum).
Notation RtoC := (@cofre R RNum).
Definition Cinv (z : C) : C := cdiv cone z.
Definition Ci : C := (0, 1).

Lemma C_ext (z w : C) : cre z = cre w -> cim z = cim w -> z = w.
Proof. destruct z, w; cbn. congruence. Qed.

Ltac cx := intros; apply C_ext; cbn; try ring.

Lemma C_ring : ring_theory C0 C1 cadd cmul csub cneg eq.
Proof. constructor; cx. Qed.
Lemma C10 : C1 <> C0.
Proof. intros H. apply (f_equal fst) in H. cbn in H. lra. Qed.
Lemma cnorm_sqr_zero (z : C) : cnorm_sqr z = 0 -> z = C0.
Proof. destruct z as [a b]. cbn. intros H. apply C_ext; cbn; nra. Qed.
Lemma cnorm_sqr_pos (z : C) : z <> C0 -> 0 < cnorm_sqr z.
Proof.
  intros H. destruct (Rle_lt_or_eq_dec 0 (cnorm_sqr z)) as [P|P].
  - destruct z. cbn. nra.
  - exact P.
  - exfalso. apply H, cnorm_sqr_zero. symmetry. exact P.
Qed.
Lemma Cdiv_mul_inv (z w : C) : (z / w = z * Cinv w)%C.
Proof. unfold Cinv, cdiv. apply C_ext; cbn; unfold Rdiv; ring. Qed.
Lemma C_field : field_theory C0 C1 cadd cmul csub cneg cdiv Cinv eq.
Proof.
  constructor; [exact C_ring|exact C10|exact Cdiv_mul_inv|].
  intros z Hz. pose proof (cnorm_sqr_pos z Hz) as P. destruct z as [a b]. cbn in P.
  apply C_ext; cbn; field; lra.
Qed.
Add Field C_Field : C_field.

Lemma RtoC_add a b : RtoC (a + b) = (RtoC a + RtoC b)%C.
Proof. cx. Qed.
Lemma RtoC_sub a b : RtoC (a - b) = (RtoC a - RtoC b)%C.
Proof. cx. Qed.
Lemma RtoC_mul a b : RtoC (a * b) = (RtoC a * RtoC b)%C.
Proof. cx. Qed.
Lemma RtoC_opp a : RtoC (- a) = (- RtoC a)%C.
Proof. cx. Qed.
Lemma RtoC_inj a b : RtoC a = RtoC b -> a = b.
Proof. intros H. apply (f_equal fst) in H. exact H. Qed.
Lemma RtoC_neq0 a : a <> 0 -> RtoC a <> C0.
Proof. intros H E. apply H. apply RtoC_inj. exact E. Qed.
Lemma RtoC_div a b : b <> 0 -> RtoC (a / b) = (RtoC a / RtoC b)%C.
Proof. intros H. apply C_ext; cbn; field; exact H. Qed.
Lemma cdivr_div (z : C) x : x <> 0 -> cdivr z x = (z / RtoC x)%C.
Proof. intros H. apply C_ext; cbn; field; exact H. Qed.

Lemma Cmul_eq0 (z w : C) : (z * w = C0)%C -> z = C0 \/ w = C0.
Proof.
  intros H. assert (N : cnorm_sqr z * cnorm_sqr w = 0).
  { replace (cnorm_sqr z * cnorm_sqr w) with (cnorm_sqr (z * w)%C) by (destruct z, w; cbn; ring).
    rewrite H. cbn. ring. }
  apply Rmult_integral in N. destruct N as [N|N]; [left|right]; apply cnorm_sqr_zero; exact N.
Qed.
Lemma Cmul_neq0 (z w : C) : z <> C0 -> w <> C0 -> (z * w)%C <> C0.
Proof. intros H1 H2 H. apply Cmul_eq0 in H. tauto. Qed.
Lemma Csub_eq0 (z w : C) : (z - w = C0)%C -> z = w.
Proof. intros H. replace z with ((z - w) + w)%C by ring. rewrite H. ring. Qed.

(** Powers *)
Fixpoint cpow (z : C) (n : nat) : C := match n with O => C1 | S k => (z * cpow z k)%C end.
Lemma cpow_add z n m : cpow z (n + m) = (cpow z n * cpow z m)%C.
Proof. induction n as [|n IH]; cbn [cpow Nat.add]; [ring|]. rewrite IH. ring. Qed.
Lemma cpow_neq0 z n : z <> C0 -> cpow z n <> C0.
Proof. intros H. induction n as [|n IH]; cbn [cpow]; [exact C10|]. apply Cmul_neq0; assumption. Qed.

(** Unit circle *)
Definition E (a : R) : C := (cos a, sin a).
Lemma E_add a b : E (a + b) = (E a * E b)%C.
Proof. apply C_ext; cbn; [rewrite cos_plus|rewrite sin_plus]; ring. Qed.
Lemma E_0 : E 0 = C1.
Proof. apply C_ext; cbn; [apply cos_0|apply sin_0]. Qed.
Lemma E_opp a : E (- a) = cconj (E a).
Proof. apply C_ext; cbn; [apply cos_neg|apply sin_neg]. Qed.
Lemma E_2PI_Z (k : Z) : E (2 * PI * IZR k) = C1.
Proof.
  assert (P : forall n : nat, E (2 * PI * INR n) = C1).
  { induction n as [|n IH]; [cbn [INR]; rewrite Rmult_0_r; apply E_0|].
    rewrite S_INR, Rmult_plus_distr_l, E_add, IH, Rmult_1_r.
    apply C_ext; cbn; rewrite cos_2PI, sin_2PI; ring. }
  destruct (Z.le_gt_cases 0 k) as [H|H].
  - rewrite <- (Z2Nat.id k H), <- INR_IZR_INZ. apply P.
  - replace (2 * PI * IZR k) with (- (2 * PI * INR (Z.to_nat (- k)))).
    + rewrite E_opp, P. apply C_ext; cbn; ring.
    + rewrite INR_IZR_INZ, Z2Nat.id, opp_IZR by lia. ring.
Qed.
Lemma E_eq_1 a : E a = C1 -> exists k : Z, a = 2 * PI * IZR k.
Proof.
  intros H. apply (f_equal fst) in H. cbn in H.
  assert (S0 : sin (a / 2) = 0).
  { replace a with (2 * (a / 2)) in H by field. rewrite cos_2a_sin in H. nra. }
  apply sin_eq_0_0 in S0. destruct S0 as [k Hk]. exists k. lra.
Qed.

(** Finite sums *)
Fixpoint csum (n : nat) (f : nat -> C) : C := match n with O => C0 | S k => (csum k f + f k)%C end.
Lemma csum_ext n f g : (forall i, (i < n)%nat -> f i = g i) -> csum n f = csum n g.
Proof. induction n as [|n IH]; intros H; cbn [csum]; [reflexivity|]. rewrite IH, H by auto. reflexivity. Qed.
Lemma csum_plus n f g : csum n (fun i => f i + g i)%C = (csum n f + csum n g)%C.
Proof. induction n as [|n IH]; cbn [csum]; [ring|]. rewrite IH. ring. Qed.
Lemma csum_minus n f g : csum n (fun i => f i - g i)%C = (csum n f - csum n g)%C.
Proof. induction n as [|n IH]; cbn [csum]; [ring|]. rewrite IH. ring. Qed.
Lemma csum_scale n c f : csum n (fun i => c * f i)%C = (c * csum n f)%C.
Proof. induction n as [|n IH]; cbn [csum]; [ring|]. rewrite IH. ring. Qed.
Lemma csum_scale_r n c f : csum n (fun i => f i * c)%C = (csum n f * c)%C.
Proof. induction n as [|n IH]; cbn [csum]; [ring|]. rewrite IH. ring. Qed.
Lemma csum_zero n f : (forall i, (i < n)%nat -> f i = C0) -> csum n f = C0.
Proof. induction n as [|n IH]; intros H; cbn [csum]; [reflexivity|]. rewrite IH, H by auto. ring. Qed.
Lemma csum_const n c : csum n (fun _ => c) = (RtoC (INR n) * c)%C.
Proof.
  induction n as [|n IH]; cbn [csum]; [apply C_ext; cbn; ring|]. rewrite IH, S_INR, RtoC_add.
  change (RtoC 1) with C1. ring.
Qed.
Lemma csum_first n f : csum (S n) f = (f 0%nat + csum n (fun i => f (S i)))%C.
Proof. induction n as [|n IH]; cbn [csum] in *; [ring|]. rewrite IH. ring. Qed.
Lemma csum_add n m f : csum (n + m) f = (csum n f + csum m (fun i => f (n + i)%nat))%C.
Proof. induction m as [|m IH]; [rewrite Nat.add_0_r; cbn [csum]; ring|]. rewrite Nat.add_succ_r. cbn [csum]. rewrite IH. ring. Qed.
Lemma csum_single n k f : (k < n)%nat -> (forall i, (i < n)%nat -> i <> k -> f i = C0) -> csum n f = f k.
Proof.
  induction n as [|n IH]; intros Hk H; [lia|]. cbn [csum]. destruct (Nat.eq_dec k n) as [->|N].
  - rewrite csum_zero; [ring|]. intros i Hi. apply H; lia.
  - rewrite IH by (try lia; intros; apply H; lia). rewrite (H n) by lia. ring.
Qed.
Lemma csum_swap n m f : csum n (fun i => csum m (fun j => f i j)) = csum m (fun j => csum n (fun i => f i j)).
Proof.
  induction n as [|n IH]; cbn [csum].
  - symmetry. apply csum_zero. reflexivity.
  - rewrite IH, <- csum_plus. reflexivity.
Qed.
Lemma csum_re n f : cre (csum n f) = rsum n (fun i => cre (f i)).
Proof. induction n as [|n IH]; [reflexivity|]. cbn [csum rsum]. rewrite <- IH. reflexivity. Qed.
Lemma csum_RtoC n f : csum n (fun i => RtoC (f i)) = RtoC (rsum n f).
Proof. induction n as [|n IH]; [reflexivity|]. cbn [csum rsum]. rewrite IH, RtoC_add. reflexivity. Qed.

(** Roots of unity: orthogonality. *)
Definition W (N : nat) (m : Z) : C := E (2 * PI * (IZR m / INR N)).
Lemma W_add N a b : W N (a + b) = (W N a * W N b)%C.
Proof. unfold W. rewrite <- E_add. f_equal. rewrite plus_IZR. unfold Rdiv. ring. Qed.
Lemma W_0 N : W N 0 = C1.
Proof. unfold W, Rdiv. rewrite Rmult_0_l, Rmult_0_r. apply E_0. Qed.
Lemma W_N N k : (0 < N)%nat -> W N (Z.of_nat N * k) = C1.
Proof.
  intros H. unfold W. rewrite mult_IZR, <- INR_IZR_INZ.
  replace (INR N * IZR k / INR N) with (IZR k) by (field; apply not_0_INR; lia). apply E_2PI_Z.
Qed.
Lemma W_conj N a : cconj (W N a) = W N (- a).
Proof. unfold W. rewrite <- E_opp. f_equal. rewrite opp_IZR. unfold Rdiv. ring. Qed.
Lemma W_period N a k : (0 < N)%nat -> W N (a + Z.of_nat N * k) = W N a.
Proof. intros H. rewrite W_add, W_N by exact H. ring. Qed.
Lemma W_scale N m a : (0 < N)%nat -> (0 < m)%nat -> W (m * N) (Z.of_nat m * a) = W N a.
Proof.
  intros H1 H2. unfold W. f_equal. f_equal. rewrite mult_IZR, mult_INR, <- INR_IZR_INZ. field.
  split; apply not_0_INR; lia.
Qed.
Lemma W_geom N m n : csum n (fun k => W N (m * Z.of_nat k)) = csum n (fun k => cpow (W N m) k).
Proof.
  apply csum_ext. intros i _. induction i as [|i IH].
  - rewrite Z.mul_0_r, W_0. reflexivity.
  - rewrite Nat2Z.inj_succ. replace (m * Z.succ (Z.of_nat i))%Z with (m + m * Z.of_nat i)%Z by lia.
    rewrite W_add, IH. reflexivity.
Qed.
Lemma geom (z : C) n : ((z - C1) * csum n (fun k => cpow z k) = cpow z n - C1)%C.
Proof.
  induction n as [|n IH]; cbn [csum cpow]; [ring|].
  replace ((z - C1) * (csum n (fun k => cpow z k) + cpow z n))%C with
    ((z - C1) * csum n (fun k => cpow z k) + (z - C1) * cpow z n)%C by ring.
  rewrite IH. ring.
Qed.
Lemma cpow_W N m n : cpow (W N m) n = W N (m * Z.of_nat n).
Proof.
  induction n as [|n IH]; [rewrite Z.mul_0_r, W_0; reflexivity|].
  cbn [cpow]. rewrite IH, <- W_add. f_equal. lia.
Qed.
Lemma W_eq_1 N m : (0 < N)%nat -> W N m = C1 -> (Z.of_nat N | m)%Z.
Proof.
  intros H H1. unfold W in H1. apply E_eq_1 in H1. destruct H1 as [k Hk].
  exists k. apply eq_IZR. rewrite mult_IZR, <- INR_IZR_INZ.
  assert (INR N <> 0) by (apply not_0_INR; lia). pose proof PI_RGT_0.
  assert (Hm : IZR m / INR N = IZR k) by (apply (Rmult_eq_reg_l (2 * PI)); lra).
  rewrite <- Hm. field. assumption.
Qed.
Lemma orthogonality N m : (0 < N)%nat ->
  csum N (fun k => W N (m * Z.of_nat k)) = if Zdivide_dec (Z.of_nat N) m then RtoC (INR N) else C0.
Proof.
  intros H. destruct (Zdivide_dec (Z.of_nat N) m) as [[q ->]|D].
  - rewrite (csum_ext N _ (fun _ => C1)).
    + rewrite csum_const. ring.
    + intros k _. replace (q * Z.of_nat N * Z.of_nat k)%Z with (Z.of_nat N * (q * Z.of_nat k))%Z by ring. apply W_N. exact H.
  - rewrite W_geom. pose proof (geom (W N m) N) as G. rewrite cpow_W in G.
    replace (m * Z.of_nat N)%Z with (Z.of_nat N * m)%Z in G by ring. rewrite W_N in G by exact H.
    replace (C1 - C1)%C with C0 in G by ring. apply Cmul_eq0 in G. destruct G as [G|G]; [|exact G].
    exfalso. apply D. apply W_eq_1; [exact H|]. apply Csub_eq0. exact G.
Qed.
Lemma cnorm_def (z : C) : cnorm z = sqrt (cnorm_sqr z).
Proof. reflexivity. Qed.
