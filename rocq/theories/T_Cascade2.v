(** Filters in transfer-function form, one after the other: their coefficients are convolved. *)
From Coq Require Import Reals ZArith List Permutation Lia Lra.
From Verif Require Import Base Num Trans M_Complex M_Fourier M_Design Cx RSum S_Design S_Fourier S_Ztrans P_Poly P_Lp P_Sort P_Sos P_Fourier P_Unique P_CPoly T_Fourier T_Design T_Delay T_Ztrans.
Import ListNotations.
Local Open Scope R_scope.

Lemma rpoly_ztrans a (x t : C) : (x * t)%C = C1 -> (rpoly_at a x * cpow t (length a - 1))%C = ztrans a t.
Proof.
  intros E. unfold rpoly_at, poly_at, ztrans. rewrite map_length, <- csum_scale_r. apply csum_ext. intros i Hi.
  replace (nth i (map RtoC a) C0) with (RtoC (nth i a 0)) by (change C0 with (RtoC 0); rewrite map_nth; reflexivity).
  replace (cpow t (length a - 1)) with (cpow t (length a - 1 - i) * cpow t i)%C by (rewrite <- cpow_add; f_equal; lia).
  assert (Q : (cpow x (length a - 1 - i) * cpow t (length a - 1 - i))%C = C1).
  { generalize (length a - 1 - i)%nat. intros m. induction m as [|m IH]; cbn [cpow]; [apply C_ext; cbn; ring|]. transitivity ((x * t) * (cpow x m * cpow t m))%C; [ring|]. rewrite E, IH. apply C_ext; cbn; ring. }
  transitivity (RtoC (nth i a 0) * (cpow x (length a - 1 - i) * cpow t (length a - 1 - i)) * cpow t i)%C; [ring|]. rewrite Q. ring.
Qed.
Lemma ztrans_ev a t : ztrans a (RtoC t) = RtoC (ev a t).
Proof.
  induction a as [|c a IH]; [reflexivity|]. unfold ztrans in *. cbn [length ev].
  rewrite (csum_add 1 (length a)). cbn [csum nth cpow]. rewrite (csum_ext _ (fun i => (RtoC (nth (1 + i) (c :: a) 0) * cpow (RtoC t) (1 + i))%C) (fun i => (RtoC t * (RtoC (nth i a 0) * cpow (RtoC t) i))%C)).
  2:{ intros i _. cbn [Nat.add nth cpow]. ring. }
  rewrite csum_scale, IH. apply C_ext; cbn; ring.
Qed.
(** Two lists of the same length that are the same polynomial are equal. *)
Lemma rpoly_inj a b : length a = length b -> (forall x, x <> C0 -> rpoly_at a x = rpoly_at b x) -> a = b.
Proof.
  intros L H. apply (nth_ext _ _ 0 0 L). intros k _. apply (ev_coefs a b 1 ltac:(lra)). intros t Ht.
  assert (E : (RtoC (/ t) * RtoC t)%C = C1) by (apply C_ext; cbn; field; lra).
  assert (Q : ztrans a (RtoC t) = ztrans b (RtoC t)).
  { rewrite <- (rpoly_ztrans a _ _ E), <- (rpoly_ztrans b _ _ E), H, L; [reflexivity|]. intros Z. apply (f_equal cre) in Z. cbn in Z. pose proof (Rinv_0_lt_compat t ltac:(lra)). lra. }
  rewrite !ztrans_ev in Q. apply (f_equal cre) in Q. exact Q.
Qed.
Lemma root_product_app l m x : root_product (l ++ m) x = (root_product l x * root_product m x)%C.
Proof. unfold root_product. induction l as [|a l IH]; cbn [app fold_right]; [ring|]. rewrite IH. ring. Qed.
Lemma rpoly_convolution a b r x : x <> C0 -> a <> [] -> b <> [] -> length r = (length a + length b - 1)%nat ->
  (forall z, ztrans r z = (ztrans a z * ztrans b z)%C) -> rpoly_at r x = (rpoly_at a x * rpoly_at b x)%C.
Proof.
  intros Hx Ha Hb L Hz. assert (La : (0 < length a)%nat) by (destruct a; [congruence|cbn; lia]). assert (Lb : (0 < length b)%nat) by (destruct b; [congruence|cbn; lia]).
  set (t := (C1 / x)%C). assert (E : (x * t)%C = C1) by (unfold t; field; exact Hx).
  assert (Ht : t <> C0) by (intros Z; rewrite Z in E; apply (f_equal cre) in E; cbn in E; lra).
  apply (Cmul_cancel (cpow t (length r - 1))); [apply cpow_neq0, Ht|].
  transitivity (rpoly_at r x * cpow t (length r - 1))%C; [ring|]. rewrite (rpoly_ztrans r x t E), Hz, <- (rpoly_ztrans a x t E), <- (rpoly_ztrans b x t E).
  replace (length r - 1)%nat with ((length a - 1) + (length b - 1))%nat by lia. rewrite cpow_add. ring.
Qed.
(** zpk2tf_dyn of the zeros of both filters, the poles of both and the product of the gains: numerator and
    denominator are what [convolve] makes of the numerators and the denominators of the two. *)
Theorem C140_cascade fft ifft sort n1 n2 z1 z2 p1 p2 k1 k2 : is_fft fft -> is_ifft ifft -> is_sort sort ->
  conj_closed z1 -> conj_closed p1 -> conj_closed z2 -> conj_closed p2 ->
  (length z1 <= n1)%nat -> (length p1 <= n1)%nat -> (length z2 <= n2)%nat -> (length p2 <= n2)%nat ->
  exists b1 a1 b2 a2 b a,
    zpk2tf_dyn sort n1 z1 p1 k1 = Ok (mkBa b1 a1) /\ zpk2tf_dyn sort n2 z2 p2 k2 = Ok (mkBa b2 a2) /\
    zpk2tf_dyn sort (n1 + n2) (z1 ++ z2) (p1 ++ p2) (k1 * k2) = Ok (mkBa b a) /\
    convolve fft ifft b1 b2 Full = Ok b /\ convolve fft ifft a1 a2 Full = Ok a.
Proof.
  intros Hf Hi Hs Cz1 Cp1 Cz2 Cp2 Lz1 Lp1 Lz2 Lp2.
  destruct (C44_zpk2tf_partial sort n1 z1 p1 k1 Hs Cz1 Cp1 Lz1 Lp1) as [b1 [a1 [E1 [B1 [A1 [P1 [Q1 _]]]]]]].
  destruct (C44_zpk2tf_partial sort n2 z2 p2 k2 Hs Cz2 Cp2 Lz2 Lp2) as [b2 [a2 [E2 [B2 [A2 [P2 [Q2 _]]]]]]].
  assert (Lz : (length (z1 ++ z2) <= n1 + n2)%nat) by (rewrite app_length; lia). assert (Lp : (length (p1 ++ p2) <= n1 + n2)%nat) by (rewrite app_length; lia).
  destruct (C44_zpk2tf_partial sort (n1 + n2) (z1 ++ z2) (p1 ++ p2) (k1 * k2) Hs (conj_closed_app _ _ Cz1 Cz2) (conj_closed_app _ _ Cp1 Cp2) Lz Lp) as [b [a [E [B [A [P [Q _]]]]]]].
  exists b1, a1, b2, a2, b, a. split; [exact E1|]. split; [exact E2|]. split; [exact E|].
  assert (NE : forall (l : list R) n, length l = (n + 1)%nat -> l <> []) by (intros l n W Z; rewrite Z in W; cbn in W; lia).
  split.
  - destruct (C37_convolve_full fft ifft b1 b2 Hf Hi (NE _ _ B1) (NE _ _ B2)) as [r [Er [L F]]]. rewrite Er. f_equal. apply rpoly_inj; [lia|]. intros x Hx.
    rewrite (rpoly_convolution b1 b2 r x Hx (NE _ _ B1) (NE _ _ B2) L (fun z => ztrans_convolution b1 b2 r z (NE _ _ B2) L F)).
    rewrite P, P1, P2, root_product_app, app_length, RtoC_mult. replace (n1 + n2 - (length z1 + length z2))%nat with ((n1 - length z1) + (n2 - length z2))%nat by lia. rewrite cpow_add. ring.
  - destruct (C37_convolve_full fft ifft a1 a2 Hf Hi (NE _ _ A1) (NE _ _ A2)) as [r [Er [L F]]]. rewrite Er. f_equal. apply rpoly_inj; [lia|]. intros x Hx.
    rewrite (rpoly_convolution a1 a2 r x Hx (NE _ _ A1) (NE _ _ A2) L (fun z => ztrans_convolution a1 a2 r z (NE _ _ A2) L F)).
    rewrite Q, Q1, Q2, root_product_app, app_length. replace (n1 + n2 - (length p1 + length p2))%nat with ((n1 - length p1) + (n2 - length p2))%nat by lia. rewrite cpow_add. ring.
Qed.
Print Assumptions C140_cascade.
(** 2 (x + 1) / x, then 3 (x^2 + 1) / (x^2 - x / 2): orders 1 and 2 together make order 3. *)
Example C140_ex : exists b1 a1 b2 a2 b a,
  zpk2tf_dyn isort 1 [RtoC (-1)] [C0] 2 = Ok (mkBa b1 a1) /\ zpk2tf_dyn isort 2 [((0, 1) : C); cconj (0, 1)] [C0; RtoC (1/2)] 3 = Ok (mkBa b2 a2) /\
  zpk2tf_dyn isort 3 [RtoC (-1); ((0, 1) : C); cconj (0, 1)] [C0; C0; RtoC (1/2)] 6 = Ok (mkBa b a) /\
  convolve dft idft b1 b2 Full = Ok b /\ convolve dft idft a1 a2 Full = Ok a.
Proof.
  replace 6 with (2 * 3) by ring.
  apply (C140_cascade dft idft isort 1 2 [RtoC (-1)] [((0, 1) : C); cconj (0, 1)] [C0] [C0; RtoC (1/2)] 2 3 dft_meets_contract idft_meets_contract isort_is_sort); try (cbn; lia).
  - apply conj_closed_reals. repeat constructor; apply isr_true; reflexivity.
  - apply conj_closed_reals. repeat constructor; apply isr_true; reflexivity.
  - apply conj_closed_pair.
  - apply conj_closed_reals. repeat constructor; apply isr_true; reflexivity.
Qed.
