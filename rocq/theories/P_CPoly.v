(** Polynomial functions over the complex numbers: a monic polynomial is the product
    of its roots; roots of unity; Chebyshev polynomials. *)
From Coq Require Import List Arith ZArith Reals Permutation Lra Lia.
From Verif Require Import Base Num Trans M_Complex M_Design RSum Cx S_Design S_Bessel P_Bessel P_Poly P_Lp.
Import ListNotations.
Local Open Scope R_scope.

Fixpoint cpeval (l : list C) (x : C) : C := match l with [] => C0 | a :: m => (a + x * cpeval m x)%C end.
Definition deglt (n : nat) (f : C -> C) : Prop := exists l, (length l <= n)%nat /\ forall x, f x = cpeval l x.
(** f(x) = c x^n + lower terms *)
Definition lead (n : nat) (c : C) (f : C -> C) : Prop := exists g, deglt n g /\ forall x, f x = (c * cpow x n + g x)%C.

Lemma factor l r : exists q, length q = (length l - 1)%nat /\ forall x, cpeval l x = (cpeval l r + (x - r) * cpeval q x)%C.
Proof.
  induction l as [|a l [q [Hq IH]]].
  - exists []. split; [reflexivity|]. intros x. cbn [cpeval]. ring.
  - destruct l as [|b l].
    + exists []. split; [reflexivity|]. intros x. cbn [cpeval]. ring.
    + exists (cpeval (b :: l) r :: q). split; [cbn [length] in *; lia|]. intros x.
      change (cpeval (a :: b :: l) x) with (a + x * cpeval (b :: l) x)%C.
      change (cpeval (a :: b :: l) r) with (a + r * cpeval (b :: l) r)%C.
      change (cpeval (cpeval (b :: l) r :: q) x) with (cpeval (b :: l) r + x * cpeval q x)%C. rewrite (IH x). ring.
Qed.
Lemma zero_poly rs : NoDup rs -> forall l, (length l <= length rs)%nat -> (forall r, In r rs -> cpeval l r = C0) -> forall x, cpeval l x = C0.
Proof.
  induction 1 as [|r rs Hr Hd IH]; intros l Hl Hz x.
  - destruct l; [reflexivity|cbn in Hl; lia].
  - destruct (factor l r) as [q [Lq Hq]]. rewrite Hq, (Hz r) by (left; reflexivity).
    rewrite (IH q); [ring|cbn [length] in Hl; lia|].
    intros s Hs. pose proof (Hq s) as Q. rewrite (Hz s) in Q by (right; exact Hs). rewrite (Hz r) in Q by (left; reflexivity).
    assert (P : ((s - r) * cpeval q s = C0)%C) by (rewrite Q; ring). apply Cmul_eq0 in P. destruct P as [P|P]; [|exact P].
    exfalso. apply Hr. rewrite <- (Csub_eq0 _ _ P). exact Hs.
Qed.

Lemma deglt_ext n f g : (forall x, f x = g x) -> deglt n g -> deglt n f.
Proof. intros Hfg [l [Hl Hg]]. exists l. split; [exact Hl|]. intros x. rewrite Hfg. apply Hg. Qed.
Lemma deglt_mono n m f : (n <= m)%nat -> deglt n f -> deglt m f.
Proof. intros Hnm [l [Hl Hg]]. exists l. split; [lia|exact Hg]. Qed.
Lemma deglt_0 n : deglt n (fun _ => C0).
Proof. exists []. split; [cbn; lia|reflexivity]. Qed.
Lemma deglt_const n c : (0 < n)%nat -> deglt n (fun _ => c).
Proof. intros Hn. exists [c]. split; [cbn; lia|]. intros x. cbn [cpeval]. ring. Qed.
Fixpoint ladd (a b : list C) : list C :=
  match a, b with [], _ => b | _, [] => a | x :: a', y :: b' => (x + y)%C :: ladd a' b' end.
Lemma ladd_eval a b x : cpeval (ladd a b) x = (cpeval a x + cpeval b x)%C.
Proof.
  revert b. induction a as [|c a IH]; intros [|d b]; cbn [ladd]; try (cbn [cpeval]; ring).
  change ((c + d) + x * cpeval (ladd a b) x = (c + x * cpeval a x) + (d + x * cpeval b x))%C. rewrite IH. ring.
Qed.
Lemma ladd_length a b : length (ladd a b) = Nat.max (length a) (length b).
Proof. revert b. induction a as [|c a IH]; intros [|d b]; cbn [ladd length]; try lia. rewrite IH. lia. Qed.
Lemma deglt_add n f g : deglt n f -> deglt n g -> deglt n (fun x => f x + g x)%C.
Proof.
  intros [a [La Ha]] [b [Lb Hb]]. exists (ladd a b). split; [rewrite ladd_length; lia|].
  intros x. rewrite ladd_eval, Ha, Hb. reflexivity.
Qed.
Lemma deglt_scale n c f : deglt n f -> deglt n (fun x => c * f x)%C.
Proof.
  intros [a [La Ha]]. exists (map (cmul c) a). split; [rewrite map_length; exact La|]. intros x. rewrite Ha.
  clear. induction a as [|d a IH]; [cbn; apply C_ext; cbn; ring|].
  change (c * (d + x * cpeval a x) = c * d + x * cpeval (map (cmul c) a) x)%C. rewrite <- IH. ring.
Qed.
Lemma deglt_x n f : deglt n f -> deglt (S n) (fun x => x * f x)%C.
Proof. intros [a [La Ha]]. exists (C0 :: a). split; [cbn; lia|]. intros x. cbn [cpeval]. rewrite Ha. ring. Qed.
Lemma deglt_xn n k f : deglt n f -> deglt (k + n) (fun x => cpow x k * f x)%C.
Proof.
  intros Hf. induction k as [|k IH]; [apply (deglt_ext _ _ f); [intros; cbn [cpow]; ring|exact Hf]|].
  apply (deglt_ext _ _ (fun x => x * (cpow x k * f x))%C); [intros; cbn [cpow]; ring|]. apply deglt_x. exact IH.
Qed.
Lemma deglt_mul n m f g : deglt n f -> deglt m g -> deglt (n + m) (fun x => f x * g x)%C.
Proof.
  intros [a [La Ha]] Hg. apply (deglt_ext _ _ (fun x => cpeval a x * g x)%C); [intros; rewrite Ha; reflexivity|].
  clear f Ha. revert n La. induction a as [|c a IH]; intros n La.
  - apply (deglt_ext _ _ (fun _ => C0)); [intros; cbn [cpeval]; ring|apply deglt_0].
  - cbn [length] in La. destruct n as [|n]; [lia|].
    apply (deglt_ext _ _ (fun x => c * g x + x * (cpeval a x * g x))%C); [intros; cbn [cpeval]; ring|].
    apply deglt_add; [apply deglt_scale, (deglt_mono m); [lia|exact Hg]|]. cbn [Nat.add]. apply deglt_x, IH. lia.
Qed.

Lemma lead_ext n c f g : (forall x, f x = g x) -> lead n c g -> lead n c f.
Proof. intros Hfg [h [Hh Hg]]. exists h. split; [exact Hh|]. intros x. rewrite Hfg. apply Hg. Qed.
Lemma lead_mul n m c d f g : lead n c f -> lead m d g -> lead (n + m) (c * d)%C (fun x => f x * g x)%C.
Proof.
  intros [a [Ha Hf]] [b [Hb Hg]]. exists (fun x => c * (cpow x n * b x) + d * (cpow x m * a x) + a x * b x)%C. split.
  - apply deglt_add; [apply deglt_add; apply deglt_scale|apply deglt_mul; assumption].
    + apply deglt_xn. exact Hb.
    + rewrite Nat.add_comm. apply deglt_xn. exact Ha.
  - intros x. rewrite Hf, Hg, cpow_add. ring.
Qed.
Lemma lead_scale n k c f : lead n c f -> lead n (k * c)%C (fun x => k * f x)%C.
Proof. intros [a [Ha Hf]]. exists (fun x => k * a x)%C. split; [apply deglt_scale, Ha|]. intros x. rewrite Hf. ring. Qed.
Lemma lead_add n c f g : lead n c f -> deglt n g -> lead n c (fun x => f x + g x)%C.
Proof. intros [a [Ha Hf]] Hg. exists (fun x => a x + g x)%C. split; [apply deglt_add; assumption|]. intros x. rewrite Hf. ring. Qed.
Lemma lead_deglt n c f : lead n c f -> deglt (S n) f.
Proof.
  intros [a [Ha Hf]]. apply (deglt_ext _ _ (fun x => a x + cpow x n * c)%C); [intros; rewrite Hf; ring|].
  apply deglt_add; [apply (deglt_mono n); [lia|exact Ha]|]. rewrite <- Nat.add_1_r. apply deglt_xn, deglt_const. lia.
Qed.
Lemma lead_const c : lead 0 c (fun _ => c).
Proof. exists (fun _ => C0). split; [apply deglt_0|]. intros x. cbn [cpow]. ring. Qed.
Lemma lead_xn n : lead n C1 (fun x => cpow x n).
Proof. exists (fun _ => C0). split; [apply deglt_0|]. intros x. ring. Qed.
Lemma lead_lin r : lead 1 C1 (fun x => x - r)%C.
Proof. exists (fun _ => (- r)%C). split; [apply deglt_const; lia|]. intros x. cbn [cpow]. ring. Qed.
Lemma lead_roots rs : lead (length rs) C1 (root_product rs).
Proof.
  induction rs as [|r rs IH]; [apply lead_const|]. cbn [length]. rewrite <- Nat.add_1_l.
  replace C1 with (C1 * C1)%C by ring. apply (lead_mul 1 _ C1 C1 (fun x => x - r)%C); [apply lead_lin|exact IH].
Qed.

Theorem roots_product n c f rs : lead n c f -> NoDup rs -> length rs = n -> (forall r, In r rs -> f r = C0) ->
  forall x, f x = (c * root_product rs x)%C.
Proof.
  intros [a [Ha Hf]] Hd <- Hr x. destruct (lead_roots rs) as [b [Hb Hp]].
  assert (D : deglt (length rs) (fun x => f x - c * root_product rs x)%C).
  { apply (deglt_ext _ _ (fun x => a x + (- c) * b x)%C); [intros; rewrite Hf, Hp; ring|].
    apply deglt_add; [exact Ha|apply deglt_scale, Hb]. }
  destruct D as [l [Hl El]]. apply Csub_eq0. rewrite El. apply (zero_poly rs Hd l Hl).
  intros r Hi. rewrite <- El, (Hr r Hi).
  assert (Z : root_product rs r = C0).
  { clear - Hi. induction rs as [|s rs IH]; [destruct Hi|]. change (root_product (s :: rs) r) with ((r - s) * root_product rs r)%C.
    destruct Hi as [->|Hi]; [ring|]. rewrite (IH Hi). ring. }
  rewrite Z. ring.
Qed.

(** prod_{k<n} (x - c W_n^k) = x^n - c^n *)
Lemma cpow_mul a b n : cpow (a * b)%C n = (cpow a n * cpow b n)%C.
Proof. induction n as [|n IH]; cbn [cpow]; [ring|]. rewrite IH. ring. Qed.
Lemma root_product_0 n x : root_product (repeat C0 n) x = cpow x n.
Proof. rewrite <- hom_1, hom_repeat. f_equal. ring. Qed.

Lemma NoDup_map_on {A B} (g : A -> B) l : NoDup l -> (forall a b, In a l -> In b l -> g a = g b -> a = b) -> NoDup (map g l).
Proof.
  induction 1 as [|a l Ha Hl IH]; intros Hi; cbn [map]; [constructor|]. constructor.
  - intros Hin. apply in_map_iff in Hin. destruct Hin as [b [Eb Hb]]. apply Ha.
    rewrite (Hi a b); [exact Hb|left; reflexivity|right; exact Hb|symmetry; exact Eb].
  - apply IH. intros x y Hx Hy. apply Hi; right; assumption.
Qed.
Lemma W_inj n i j : (i < n)%nat -> (j < n)%nat -> W n (Z.of_nat i) = W n (Z.of_nat j) -> i = j.
Proof.
  intros Hi Hj Q. assert (Q1 : W n (Z.of_nat i - Z.of_nat j) = C1).
  { replace (Z.of_nat i - Z.of_nat j)%Z with (Z.of_nat i + - Z.of_nat j)%Z by lia. rewrite W_add, Q, <- W_add.
    replace (Z.of_nat j + - Z.of_nat j)%Z with 0%Z by lia. apply W_0. }
  apply W_eq_1 in Q1; [|lia]. destruct Q1 as [k Hk]. assert (k = 0)%Z by nia. subst k. lia.
Qed.
Lemma Cmul_cancel (c a b : C) : c <> C0 -> (c * a = c * b)%C -> a = b.
Proof.
  intros Hc Q. assert (P : (c * (a - b) = C0)%C) by (transitivity (c * a - c * b)%C; [ring|rewrite Q; ring]).
  apply Cmul_eq0 in P. destruct P as [P|P]; [contradiction|]. apply Csub_eq0. exact P.
Qed.
Lemma unity_roots n c x : (0 < n)%nat ->
  root_product (map (fun k => c * W n (Z.of_nat k))%C (seq 0 n)) x = (cpow x n - cpow c n)%C.
Proof.
  intros Hn. destruct (Req_EM_T (cnorm_sqr c) 0) as [E0|Ne].
  - apply cnorm_sqr_zero in E0. subst c.
    rewrite (map_ext _ (fun _ => C0)) by (intros; ring).
    replace (map (fun _ : nat => C0) (seq 0 n)) with (repeat C0 n).
    + rewrite root_product_0. destruct n as [|n]; [lia|]. cbn [cpow]. ring.
    + rewrite <- (seq_length n 0) at 1. generalize (seq 0 n). induction l as [|a l IH]; [reflexivity|]. cbn. rewrite IH. reflexivity.
  - assert (Hc : c <> C0) by (intros ->; apply Ne; cbn; ring).
    rewrite (roots_product n C1 (fun x => cpow x n - cpow c n)%C (map (fun k => c * W n (Z.of_nat k))%C (seq 0 n))).
    + ring.
    + apply (lead_ext _ _ _ (fun x => cpow x n + (- cpow c n))%C); [intros; ring|]. apply lead_add; [apply lead_xn|apply deglt_const, Hn].
    + apply NoDup_map_on; [apply seq_NoDup|]. intros i j Hi Hj Q. apply in_seq in Hi, Hj. apply Cmul_cancel in Q; [|exact Hc].
      apply (W_inj n); lia || exact Q.
    + rewrite map_length, seq_length. reflexivity.
    + intros r Hr. apply in_map_iff in Hr. destruct Hr as [k [<- Hk]]. rewrite cpow_mul, cpow_W.
      rewrite Z.mul_comm, W_N by exact Hn. ring.
Qed.
Lemma hom_root l a b : hom l a b = root_product (map (cmul b) l) a.
Proof. induction l as [|r l IH]; [reflexivity|]. rewrite hom_cons, IH. reflexivity. Qed.
Lemma unity_hom n c a b : (0 < n)%nat -> hom (map (fun k => c * W n (Z.of_nat k))%C (seq 0 n)) a b = (cpow a n - cpow (b * c) n)%C.
Proof.
  intros Hn. rewrite hom_root, map_map. rewrite <- unity_roots by exact Hn. f_equal. apply map_ext. intros k. ring.
Qed.

(** Chebyshev polynomials over C *)
Fixpoint cT (n : nat) (t : C) : C :=
  match n with
  | O => C1
  | S m => match m with O => t | S p => ((C1 + C1) * t * cT m t - cT p t)%C end
  end.
Lemma cT_SS n t : cT (S (S n)) t = ((C1 + C1) * t * cT (S n) t - cT n t)%C.
Proof. reflexivity. Qed.
Lemma cT_real n t : cT n (RtoC t) = RtoC (chebT n t).
Proof.
  enough (Q : cT n (RtoC t) = RtoC (chebT n t) /\ cT (S n) (RtoC t) = RtoC (chebT (S n) t)) by tauto.
  induction n as [|n [IH1 IH2]]; [split; reflexivity|]. split; [exact IH2|].
  rewrite cT_SS, chebT_SS, IH1, IH2. cx.
Qed.
Lemma Ctwo_neq0 : (C1 + C1)%C <> C0.
Proof. intros Q. apply (f_equal fst) in Q. cbn in Q. lra. Qed.
Lemma cT_joukowski n q : q <> C0 -> cT n ((q + C1 / q) / (C1 + C1))%C = ((cpow q n + C1 / cpow q n) / (C1 + C1))%C.
Proof.
  intros Hq. set (t := ((q + C1 / q) / (C1 + C1))%C).
  enough (Q : cT n t = ((cpow q n + C1 / cpow q n) / (C1 + C1))%C /\ cT (S n) t = ((cpow q (S n) + C1 / cpow q (S n)) / (C1 + C1))%C) by tauto.
  pose proof Ctwo_neq0 as H2. pose proof C10.
  induction n as [|n [IH1 IH2]].
  - split; cbn [cT cpow].
    + field. split; assumption.
    + unfold t. field. repeat split; assumption.
  - split; [exact IH2|]. rewrite cT_SS, IH1, IH2. cbn [cpow]. unfold t.
    pose proof (cpow_neq0 q n Hq). field. repeat split; assumption.
Qed.
Lemma cT_lead n : lead (S n) (RtoC (2 ^ n)) (cT (S n)).
Proof.
  enough (Q : lead (S n) (RtoC (2 ^ n)) (cT (S n)) /\ deglt (S n) (cT n)) by tauto.
  induction n as [|n [IH1 IH2]].
  - split.
    + cbn [pow cT]. exists (fun _ => C0). split; [apply deglt_0|]. intros x. cbn [cpow]. change (RtoC 1) with C1. ring.
    + cbn [cT]. apply deglt_const. lia.
  - split; [|apply lead_deglt in IH1; exact IH1].
    apply (lead_ext _ _ _ (fun x => (C1 + C1) * (cpow x 1 * cT (S n) x) + (- C1) * cT n x)%C); [intros; rewrite cT_SS; cbn [cpow]; ring|].
    apply lead_add; [|apply deglt_scale, (deglt_mono (S n)); [lia|exact IH2]].
    replace (RtoC (2 ^ S n)) with ((C1 + C1) * (C1 * RtoC (2 ^ n)))%C by cx.
    apply lead_scale. apply (lead_mul 1 (S n)); [apply lead_xn|exact IH1].
Qed.
