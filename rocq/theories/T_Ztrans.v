(** Convolution multiplies polynomials and spectra; how large its values can get. *)
From Coq Require Import Reals ZArith List Lia Lra.
From Verif Require Import Base Num M_Complex M_Fourier Cx RSum S_Fourier S_Stats S_Ztrans P_Stats P_Fourier T_Fourier T_Delay.
Import ListNotations.
Local Open Scope R_scope.

Lemma RtoC_mult a b : RtoC (a * b) = (RtoC a * RtoC b)%C.
Proof. unfold RtoC, cmul, cre, cim. cbn. f_equal; ring. Qed.
(** [y] delayed by [j], summed against powers of [z] over [n] places that hold it. *)
Lemma delayed_ztrans y j n z : (j + length y <= n)%nat ->
  csum n (fun i => (RtoC (at_ y (Z.of_nat i - Z.of_nat j)) * cpow z i)%C) = (cpow z j * ztrans y z)%C.
Proof.
  intros H. replace n with (j + (length y + (n - j - length y)))%nat by lia. rewrite !csum_add.
  rewrite (csum_zero j), (csum_zero (n - j - length y)).
  - unfold ztrans. rewrite <- csum_scale. replace (C0 + (csum (length y) (fun i => (RtoC (at_ y (Z.of_nat (j + i) - Z.of_nat j)) * cpow z (j + i))%C) + C0))%C with (csum (length y) (fun i => (RtoC (at_ y (Z.of_nat (j + i) - Z.of_nat j)) * cpow z (j + i))%C)) by ring.
    apply csum_ext. intros i _. replace (Z.of_nat (j + i) - Z.of_nat j)%Z with (Z.of_nat i) by lia. rewrite at_in, cpow_add. ring.
  - intros i Hi. rewrite at_out by lia. change (RtoC 0) with C0. ring.
  - intros i Hi. rewrite at_out by lia. change (RtoC 0) with C0. ring.
Qed.
Lemma ztrans_convolution (x y r : list R) z : y <> [] -> length r = (length x + length y - 1)%nat ->
  (forall i, (i < length x + length y - 1)%nat -> nth i r 0 = convolution x y i) -> ztrans r z = (ztrans x z * ztrans y z)%C.
Proof.
  intros Hy L F. assert (Hn : (0 < length y)%nat) by (destruct y; [congruence|cbn; lia]). unfold ztrans at 1. rewrite L.
  rewrite (csum_ext _ _ (fun i => csum (length x) (fun j => RtoC (nth j x 0) * (RtoC (at_ y (Z.of_nat i - Z.of_nat j)) * cpow z i))%C)).
  2:{ intros i Hi. rewrite F by exact Hi. unfold convolution. rewrite <- csum_RtoC, <- csum_scale_r. apply csum_ext. intros j _. rewrite at_in, RtoC_mult. ring. }
  rewrite csum_swap. unfold ztrans at 1. rewrite <- csum_scale_r. apply csum_ext. intros j Hj. rewrite csum_scale, delayed_ztrans by lia. ring.
Qed.
(** convolve multiplies z-transforms: for every complex z, hence polynomials and spectra. *)
Theorem C138_product fft ifft (x y : list R) : is_fft fft -> is_ifft ifft -> x <> [] -> y <> [] ->
  exists r, convolve fft ifft x y Full = Ok r /\ forall z, ztrans r z = (ztrans x z * ztrans y z)%C.
Proof.
  intros Hf Hi Hx Hy. destruct (C37_convolve_full fft ifft x y Hf Hi Hx Hy) as [r [E [L F]]]. exists r. split; [exact E|]. intros z. apply ztrans_convolution; assumption.
Qed.
Print Assumptions C138_product.
(** correlate multiplies the z-transform of the first signal with that of the second one reversed. *)
Theorem C138_correlate fft ifft (x y : list R) : is_fft fft -> is_ifft ifft -> x <> [] -> y <> [] ->
  exists r, correlate fft ifft x y Full = Ok r /\ forall z, ztrans r z = (ztrans x z * ztrans (rev y) z)%C.
Proof.
  intros Hf Hi Hx Hy. destruct (C39_correlate_full fft ifft x y Hf Hi Hx Hy) as [r [E [L F]]]. exists r. split; [exact E|]. intros z.
  assert (Hr : rev y <> []) by (intros Q; apply Hy; rewrite <- (rev_involutive y), Q; reflexivity).
  apply ztrans_convolution; rewrite ?rev_length; [exact Hr|exact L|]. intros i Hi'. rewrite F by exact Hi'. unfold correlation, convolution. apply rsum_ext. intros j Hj. f_equal.
  set (q := (Z.of_nat i - Z.of_nat j)%Z). replace (Z.of_nat j - Z.of_nat i + Z.of_nat (length y) - 1)%Z with (Z.of_nat (length y) - 1 - q)%Z by (unfold q; lia).
  destruct (Z_lt_le_dec q 0); [rewrite !at_out by (rewrite ?rev_length; lia); reflexivity|]. destruct (Z_lt_le_dec q (Z.of_nat (length y))); [|rewrite !at_out by (rewrite ?rev_length; lia); reflexivity].
  replace q with (Z.of_nat (Z.to_nat q)) by lia. replace (Z.of_nat (length y) - 1 - Z.of_nat (Z.to_nat q))%Z with (Z.of_nat (length y - S (Z.to_nat q))) by lia.
  rewrite !at_in. rewrite rev_nth by lia. reflexivity.
Qed.
Print Assumptions C138_correlate.

Lemma rsum_le n f g : (forall i, (i < n)%nat -> f i <= g i) -> rsum n f <= rsum n g.
Proof. induction n as [|n IH]; intros H; cbn [rsum]; [lra|]. specialize (IH ltac:(intros; apply H; lia)). specialize (H n ltac:(lia)). lra. Qed.
Lemma rsum_abs n f : Rabs (rsum n f) <= rsum n (fun i => Rabs (f i)).
Proof. induction n as [|n IH]; cbn [rsum]; [rewrite Rabs_R0; lra|]. eapply Rle_trans; [apply Rabs_triang|]. lra. Qed.
Lemma abs_sum_rsum x : Rsum (map Rabs x) = rsum (length x) (fun i => Rabs (nth i x 0)).
Proof. induction x as [|a x IH]; [reflexivity|]. cbn [map length]. rewrite rsum_first. cbn [nth]. rewrite <- IH. reflexivity. Qed.
Lemma window_abs y c n : rsum n (fun i => Rabs (at_ y (Z.of_nat i + c))) <= Rsum (map Rabs y).
Proof.
  set (f := fun z => Rabs (at_ y z)). set (N := (Z.abs c)%Z). set (M := (Z.to_nat N + Z.to_nat N + n + length y)%nat).
  assert (G : forall k (h : nat -> Z), 0 <= rsum k (fun i => f (h i))) by (intros k h; induction k as [|k IH]; cbn [rsum]; [lra|]; pose proof (Rabs_pos (at_ y (h k))); unfold f in *; lra).
  change (rsum n (fun i => f (Z.of_nat i + c)%Z) <= Rsum (map Rabs y)).
  pose proof (window3 f M N c n ltac:(lia) ltac:(lia)) as A. pose proof (window3 f M N 0 (length y) ltac:(lia) ltac:(lia)) as B.
  rewrite (rsum_zero (Z.to_nat (N + 0))) in B by (intros i Hi; unfold f; rewrite at_out by lia; apply Rabs_R0).
  rewrite (rsum_zero (M - _ - _)) in B by (intros i Hi; unfold f; rewrite at_out by lia; apply Rabs_R0).
  assert (E : rsum (length y) (fun i => f (Z.of_nat i + 0)%Z) = Rsum (map Rabs y)) by (rewrite abs_sum_rsum; apply rsum_ext; intros i _; unfold f; rewrite Z.add_0_r, at_in; reflexivity).
  pose proof (G (Z.to_nat (N + c)) (fun m => (Z.of_nat m - N)%Z)). pose proof (G (M - Z.to_nat (N + c) - n)%nat (fun i => (Z.of_nat i + (c + Z.of_nat n))%Z)). lra.
Qed.
(** The values of a convolution: in size at most the largest sample of one signal times the sum of the sizes of
    the other; their sizes add up to at most the product of the sums; and signals without negative samples
    give no negative values. *)
Theorem C138_sizes fft ifft (x y : list R) B : is_fft fft -> is_ifft ifft -> x <> [] -> y <> [] -> Forall (fun v => Rabs v <= B) y ->
  exists r, convolve fft ifft x y Full = Ok r /\
    Forall (fun v => Rabs v <= Rsum (map Rabs x) * B) r /\
    Rsum (map Rabs r) <= Rsum (map Rabs x) * Rsum (map Rabs y) /\
    (Forall (fun v => 0 <= v) x -> Forall (fun v => 0 <= v) y -> Forall (fun v => 0 <= v) r).
Proof.
  intros Hf Hi Hx Hy HB. destruct (C37_convolve_full fft ifft x y Hf Hi Hx Hy) as [r [E [L F]]]. exists r. split; [exact E|].
  assert (B0 : 0 <= B) by (destruct HB as [|v y Hv _]; [congruence|]; pose proof (Rabs_pos v); lra).
  assert (Yb : forall z, Rabs (at_ y z) <= B).
  { intros z. unfold at_. destruct (z <? 0)%Z; [rewrite Rabs_R0; exact B0|]. destruct (nth_in_or_default (Z.to_nat z) y 0) as [I | ->]; [|rewrite Rabs_R0; exact B0]. rewrite Forall_forall in HB. apply HB, I. }
  split; [|split].
  - apply Forall_forall. intros v Iv. destruct (In_nth r v 0 Iv) as [i [Hi' <-]]. rewrite F by lia. unfold convolution. eapply Rle_trans; [apply rsum_abs|].
    rewrite abs_sum_rsum, <- rsum_scale_r. apply rsum_le. intros j _. rewrite Rabs_mult, at_in. apply Rmult_le_compat_l; [apply Rabs_pos|apply Yb].
  - rewrite (abs_sum_rsum r), L. eapply Rle_trans.
    { apply rsum_le with (g := fun i => rsum (length x) (fun j => Rabs (nth j x 0) * Rabs (at_ y (Z.of_nat i + - Z.of_nat j)))). intros i Hi'. rewrite F by exact Hi'. unfold convolution. eapply Rle_trans; [apply rsum_abs|].
      apply Req_le. apply rsum_ext. intros j _. rewrite Rabs_mult, at_in. reflexivity. }
    rewrite rsum_swap, (abs_sum_rsum x), <- rsum_scale_r. apply rsum_le. intros j _. rewrite rsum_scale. apply Rmult_le_compat_l; [apply Rabs_pos|]. apply window_abs.
  - intros Px Py. assert (At : forall l z, Forall (fun v => 0 <= v) l -> 0 <= at_ l z).
    { intros l z Pl. unfold at_. destruct (z <? 0)%Z; [lra|]. destruct (nth_in_or_default (Z.to_nat z) l 0) as [I | ->]; [|lra]. rewrite Forall_forall in Pl. apply Pl, I. }
    apply Forall_forall. intros v Iv. destruct (In_nth r v 0 Iv) as [i [Hi' <-]]. rewrite F by lia. unfold convolution. rewrite <- (rsum_zero (length x) (fun _ => 0)) by reflexivity. apply rsum_le. intros j _. apply Rmult_le_pos; apply At; assumption.
Qed.
Print Assumptions C138_sizes.

(** (1 + z)(1 - z + z^2) = 1 + z^3 with the exact DFT. *)
Example C138_ex : exists r, convolve dft idft [1; 1] [1; -1; 1] Full = Ok r /\ (forall z, ztrans r z = (C1 + cpow z 3)%C) /\ Forall (fun v => Rabs v <= 2) r.
Proof.
  destruct (C138_sizes dft idft [1; 1] [1; -1; 1] 1 dft_meets_contract idft_meets_contract ltac:(discriminate) ltac:(discriminate)) as [r [E [B _]]].
  - assert (N : Rabs (-1) <= 1) by (rewrite Rabs_left; lra). assert (P1 : Rabs 1 <= 1) by (rewrite Rabs_R1; lra). apply Forall_cons; [exact P1|apply Forall_cons; [exact N|apply Forall_cons; [exact P1|apply Forall_nil]]].
  - destruct (C138_product dft idft [1; 1] [1; -1; 1] dft_meets_contract idft_meets_contract ltac:(discriminate) ltac:(discriminate)) as [r' [E' P]]. rewrite E in E'. injection E' as <-.
    exists r. split; [exact E|]. split.
    + intros z. rewrite P. unfold ztrans. cbn [length csum nth cpow]. change (RtoC 1) with C1. replace (RtoC (-1)) with (C0 - C1)%C by (unfold RtoC, C0, C1, csub, cre, cim; cbn; f_equal; ring). ring.
    + revert B. apply Forall_impl. intros v Hv. unfold Rsum in Hv. cbn in Hv. rewrite !Rabs_R1 in Hv. lra.
Qed.
