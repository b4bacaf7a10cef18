(** C26, C41, C44: exactly when a section, an upsampling and a conversion to coefficients do
    what they should. *)
From Coq Require Import List Arith ZArith Reals Permutation Lra Lia.
From Verif Require Import Base Num Trans M_Complex M_Filter M_Fourier M_Design RSum Cx S_Filter S_Design S_Fourier P_Sosfilt P_Poly P_Lp P_LpExact P_Fourier P_Resample T_Filter T_Design T_Fourier.
Import ListNotations.
Local Open Scope R_scope.

(** A section at rest implements its difference equation exactly if a0 = 1 or the output
    is all zeros. *)
Theorem C26_difference_equation_exactly (s : Sos R) (x : list R) : zero_state s ->
  exists y s', sosfilt_dyn x [s] = Ok (y, s') /\ (difference_equation s x y <-> a0 s = 1 \/ Forall (fun v => v = 0) y).
Proof.
  intros Z. exists (fst (filt x [s])), (snd (filt x [s])). split; [rewrite sosfilt_dyn_pure; f_equal; apply surjective_pairing|].
  set (y := fst (filt x [s])).
  assert (L : length y = length x) by apply filt_length_out.
  assert (G : forall i, (i < length x)%nat -> delayed y 0 i + a1 s * delayed y 1 i + a2 s * delayed y 2 i = b0 s * delayed x 0 i + b1 s * delayed x 1 i + b2 s * delayed x 2 i).
  { intros i Hi. pose proof (diff_eq_state x s i Hi) as Q. cbn zeta in Q. fold y in Q. destruct Z as [Z0 Z1].
    assert (P : past s i = 0) by (destruct i as [|[|i]]; cbn; auto). lra. }
  assert (D0 : forall i, delayed y 0 i = nth i y 0) by (intros i; unfold delayed; cbn [Nat.leb]; rewrite Nat.sub_0_r; reflexivity).
  split.
  - intros [_ E]. destruct (Req_EM_T (a0 s) 1) as [A|A]; [left; exact A|right]. apply Forall_forall. intros v Hv. apply (In_nth _ _ 0) in Hv. destruct Hv as [i [Hi <-]].
    rewrite L in Hi. specialize (E i Hi). specialize (G i Hi). rewrite D0 in *. apply (Rmult_eq_reg_l (a0 s - 1)); lra.
  - intros H. split; [exact L|]. intros i Hi. rewrite <- (G i Hi). destruct H as [->|H]; [ring|].
    rewrite D0. assert (nth i y 0 = 0) as ->; [|ring]. rewrite Forall_forall in H. apply H, nth_In. lia.
Qed.
Print Assumptions C26_difference_equation_exactly.
Example C26_exactly_ex : zero_state (mkSos 1 0 0 2 0 0 0 0).
Proof. split; reflexivity. Qed.

(** Upsampling an odd number of samples by a factor q: the original samples come out
    without their component at the highest frequency. *)
Theorem C41_resample_odd_upsampling_exact fft ifft (x : list R) q :
  is_fft fft -> is_ifft ifft -> Nat.odd (length x) = true -> (1 <= q)%nat ->
  exists y, resample fft ifft x (q * length x) = Ok y /\ length y = (q * length x)%nat /\
  forall i, (i < length x)%nat ->
    nth (q * i) y 0 = nth i x 0 - / INR (length x) *
      rsum (length x) (fun j => nth j x 0 * cos (2 * PI * (INR (length x / 2) * (INR i / INR (length x) - INR j / INR (length x))))).
Proof.
  intros Hf Hi Ho Hq. destruct (resample_formula fft ifft Hf Hi x (q * length x)) as [y [E [L F]]].
  exists y. split; [exact E|]. split; [exact L|]. intros i Hii. rewrite F by nia.
  replace (Nat.min (length x) (q * length x)) with (length x) by nia.
  assert (EQ : INR (q * i) / INR (q * length x) = INR i / INR (length x)).
  { rewrite !mult_INR. field. split; apply not_0_INR; lia. }
  rewrite EQ.
  rewrite (rsum_ext _ _ (fun j => nth j x 0 * (if Nat.eq_dec i j then INR (length x) else 0) -
     nth j x 0 * cos (2 * PI * (INR (length x / 2) * (INR i / INR (length x) - INR j / INR (length x)))))).
  2:{ intros j Hj. rewrite kernel_odd by assumption. ring. }
  rewrite rsum_minus, (rsum_single _ i); [|exact Hii|].
  - destruct (Nat.eq_dec i i); [|congruence]. field. apply not_0_INR. lia.
  - intros j Hj Hne. destruct (Nat.eq_dec i j); [congruence|ring].
Qed.
Print Assumptions C41_resample_odd_upsampling_exact.
Example C41_odd_ex : Nat.odd (length [1; 5; 2]) = true.
Proof. reflexivity. Qed.

Lemma cpow_norm x n : cnorm_sqr (cpow x n) = cnorm_sqr x ^ n.
Proof. induction n as [|n IH]; cbn [cpow pow]; [cbn; ring|]. rewrite <- IH. generalize (cpow x n). intros u. destruct x, u. cbn. ring. Qed.

(** The coefficients [zpk2tf_dyn] returns have the transfer function of the zeros, poles
    and gain exactly if there are as many zeros as poles. *)
Theorem C44_zpk2tf_exactly sort order z p k : is_sort sort -> conj_closed z -> conj_closed p ->
  (length z <= order)%nat -> (length p <= order)%nat -> k <> 0 ->
  exists b a, zpk2tf_dyn sort order z p k = Ok (mkBa b a) /\
    ((forall x, x <> C0 -> ~ In x p -> (rpoly_at b x / rpoly_at a x)%C = H (mkZpk z p k) x) <-> length z = length p).
Proof.
  intros Hs Hz Hp Lz Lp Hk. destruct (C44_zpk2tf_partial sort order z p k Hs Hz Hp Lz Lp) as [b [a [E [_ [_ [Eb [Ea Eq]]]]]]].
  exists b, a. split; [exact E|]. split; [|exact Eq]. intros HH.
  destruct (avoid (z ++ p) (RtoC 2)) as [d [Hd Av]]. set (x := (RtoC 2 + RtoC (d / 2)%R)%C). specialize (Av (d / 2) ltac:(lra)). fold x in Av.
  assert (Nx : x <> C0) by (intros Q; apply (f_equal fst) in Q; cbn in Q; lra).
  assert (Nz : ~ In x z) by (intros I; apply Av, in_or_app; left; exact I). assert (Np : ~ In x p) by (intros I; apply Av, in_or_app; right; exact I).
  specialize (HH x Nx Np). rewrite Ea, Eb in HH. unfold H in HH. cbn [zk_k zk_z zk_p] in HH.
  assert (Rz := root_product_neq0 _ _ Nz). assert (Rp := root_product_neq0 _ _ Np). assert (Kc := RtoC_neq0 _ Hk).
  assert (C1' : cpow x (order - length z) <> C0) by (apply cpow_neq0, Nx). assert (C2' : cpow x (order - length p) <> C0) by (apply cpow_neq0, Nx).
  set (u := root_product z x) in *. set (v := root_product p x) in *. set (K := RtoC k) in *.
  assert (P : cpow x (order - length z) = cpow x (order - length p)).
  { set (A := cpow x (order - length z)) in *. set (B := cpow x (order - length p)) in *.
    assert (X : (K * u * A / (v * B) * (v * B) / (K * u) = K * u / v * (v * B) / (K * u))%C) by (rewrite HH; reflexivity).
    replace (K * u * A / (v * B) * (v * B) / (K * u))%C with A in X by (field; repeat split; assumption).
    rewrite X. field. repeat split; assumption. }
  apply (f_equal cnorm_sqr) in P. rewrite !cpow_norm in P.
  assert (N1 : 1 < cnorm_sqr x) by (unfold x; cbn; nra).
  destruct (Nat.lt_trichotomy (order - length z) (order - length p)) as [Q|[Q|Q]]; [|lia|]; exfalso; apply (Rlt_pow _ _ _ N1) in Q; lra.
Qed.
Print Assumptions C44_zpk2tf_exactly.
Example C44_exactly_ex : conj_closed [RtoC 3] /\ (length (@nil C) <= 1)%nat /\ length (@nil C) <> length [RtoC 3].
Proof. split; [|split; [cbn; lia|discriminate]]. unfold conj_closed. cbn [map]. rewrite cconj_RtoC. apply Permutation_refl. Qed.
