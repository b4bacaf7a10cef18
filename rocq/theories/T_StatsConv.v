(** Statistics of a signal through convolve and correlate: differences, autocorrelation and root mean square. *)
From Coq Require Import Reals ZArith List Lia Lra.
From Verif Require Import Base Num M_Complex M_Stats M_Fourier Cx RSum S_Stats S_Fourier P_Stats P_Fourier T_Stats T_Fourier T_Delay T_SavgolConv.
Import ListNotations.
Local Open Scope R_scope.

(** lag_diff is the convolution with 1, -1, in Valid mode. *)
Theorem C143_differences fft ifft (y : list R) : is_fft fft -> is_ifft ifft -> (2 <= length y)%nat ->
  convolve fft ifft y [1; -1] Valid = Ok (lag_diff y).
Proof.
  intros Hf Hi L. destruct (C38_convolve_valid_same_partial fft ifft y [1; -1] Hf Hi ltac:(discriminate)) as [V _]. destruct (V L) as [r [E [Lr F]]]. rewrite E. f_equal.
  cbn [length] in *. destruct (C12_lag_diff y) as [Ld [N _]]. apply (nth_ext _ _ 0 0); [rewrite Ld, Lr; lia|]. intros i Hi'. rewrite F by exact Hi'. rewrite Lr in Hi'.
  symmetry. apply nth_error_nth. rewrite (N i (nth i y 0) (nth (S i) y 0)) by (apply nth_error_nth'; lia). f_equal.
  cbn [rsum nth]. replace (i + (2 - 1) - 0)%nat with (S i) by lia. replace (i + (2 - 1) - 1)%nat with i by lia. ring.
Qed.
Print Assumptions C143_differences.

Lemma lag_sum_at d k : (k < length d)%nat -> lag_sum d k = rsum (length d) (fun i => nth i d 0 * nth (i + k) d 0).
Proof.
  intros H. unfold lag_sum. rewrite Rsum_map_seq. replace (length d) with ((length d - k) + k)%nat at 2 by lia. rewrite rsum_add.
  rewrite (rsum_zero k); [lra|]. intros i Hi. rewrite (nth_overflow d) with (n := (length d - k + i + k)%nat) by lia. ring.
Qed.
Lemma self_correlation d k : (k < length d)%nat -> correlation d d (length d - 1 - k) = lag_sum d k /\ correlation d d (length d - 1 + k) = lag_sum d k.
Proof.
  intros H. rewrite lag_sum_at by exact H. split.
  - unfold correlation. apply rsum_ext. intros i _. rewrite at_in. f_equal. replace (Z.of_nat i - Z.of_nat (length d - 1 - k) + Z.of_nat (length d) - 1)%Z with (Z.of_nat (i + k)) by lia. apply at_in.
  - assert (A : forall f, (forall i, (i < k)%nat -> f i = 0) -> rsum (length d) f = rsum (length d - k) (fun i => f (k + i)%nat)).
    { intros f Z. transitivity (rsum (k + (length d - k)) f); [f_equal; lia|]. rewrite rsum_add, (rsum_zero k f Z). apply Rplus_0_l. }
    assert (B : forall f, (forall i, (length d - k <= i)%nat -> f i = 0) -> rsum (length d) f = rsum (length d - k) f).
    { intros f Z. transitivity (rsum ((length d - k) + k) f); [f_equal; lia|]. rewrite rsum_add, (rsum_zero k); [apply Rplus_0_r|]. intros i _. apply Z. lia. }
    unfold correlation. rewrite A by (intros i Hi; rewrite (at_out d (Z.of_nat i - _ + _ - 1)) by lia; ring).
    rewrite B by (intros i Hi; rewrite (nth_overflow d (n := (i + k)%nat)) by lia; ring).
    apply rsum_ext. intros i _. replace (Z.of_nat (k + i) - Z.of_nat (length d - 1 + k) + Z.of_nat (length d) - 1)%Z with (Z.of_nat i) by lia. rewrite !at_in. replace (i + k)%nat with (k + i)%nat by lia. ring.
Qed.
Lemma lag_sum_0 d : lag_sum d 0 = Rsum (map (fun x => x ^ 2) d).
Proof.
  unfold lag_sum. rewrite Nat.sub_0_r, Rsum_map_seq. replace (Rsum (map (fun x => x ^ 2) d)) with (rsum (length d) (fun i => nth i d 0 ^ 2)).
  - apply rsum_ext. intros i _. rewrite Nat.add_0_r. ring.
  - induction d as [|a d IH]; [reflexivity|]. cbn [length map]. rewrite rsum_first, Rsum_cons. cbn [nth]. rewrite IH. reflexivity.
Qed.
(** autocorr at lag k is what correlate of the signal less its mean with itself has k places before or after the middle, over
    what it has in the middle. *)
Theorem C143_autocorr fft ifft (y : list R) k : is_fft fft -> is_ifft ifft -> not_all_equal y -> (k < length y)%nat ->
  exists r, correlate fft ifft (map (fun x => x - fst (mean y)) y) (map (fun x => x - fst (mean y)) y) Full = Ok r /\
    0 < nth (length y - 1) r 0 /\
    autocorr y k = nth (length y - 1 - k) r 0 / nth (length y - 1) r 0 /\
    autocorr y k = nth (length y - 1 + k) r 0 / nth (length y - 1) r 0.
Proof.
  intros Hf Hi Hy Hk. assert (Ny : y <> []) by (destruct y; [cbn in Hk; lia|discriminate]). rewrite mean_eq by exact Ny. cbn [fst].
  set (d := map (fun x => x - Rmean y) y). assert (Ld : length d = length y) by (unfold d; apply map_length). assert (Nd : d <> []) by (unfold d; destruct y; [congruence|discriminate]).
  destruct (C39_correlate_full fft ifft d d Hf Hi Nd Nd) as [r [E [L F]]]. exists r. split; [exact E|].
  destruct (self_correlation d k ltac:(lia)) as [S1 S2]. destruct (self_correlation d 0 ltac:(lia)) as [S0 _].
  rewrite Nat.sub_0_r in S0. rewrite Ld in *. rewrite !F by lia. rewrite S0, S1, S2.
  assert (V : lag_sum d 0 = INR (length y) * Rvar y).
  { rewrite lag_sum_0, Rvar_unfold. unfold d. rewrite map_map. field. apply not_0_INR. lia. }
  pose proof (Rvar_pos y Hy) as P. assert (P2 : 0 < INR (length y)) by (apply lt_0_INR; lia). rewrite V. split; [apply Rmult_lt_0_compat; assumption|].
  destruct (C09_autocorr y Hy) as [_ [_ [_ A]]]. rewrite A. fold d. split; field; lra.
Qed.
Print Assumptions C143_autocorr.
(** rms_fast32: the root of the middle of the correlation with itself over the number of samples. *)
Theorem C143_rms fft ifft (y : list R) : is_fft fft -> is_ifft ifft -> y <> [] ->
  exists r, correlate fft ifft y y Full = Ok r /\ rms_fast32 y = sqrt (nth (length y - 1) r 0 / INR (length y)).
Proof.
  intros Hf Hi Ny. assert (L0 : (0 < length y)%nat) by (destruct y; [congruence|cbn; lia]). destruct (C39_correlate_full fft ifft y y Hf Hi Ny Ny) as [r [E [L F]]]. exists r. split; [exact E|].
  destruct (self_correlation y 0 L0) as [S0 _]. rewrite Nat.sub_0_r in S0. rewrite F by lia. rewrite S0, lag_sum_0. apply rms_eq.
Qed.
Print Assumptions C143_rms.
(** Samples 1, 3, 2. *)
Example C143_ex : convolve dft idft [1; 3; 2] [1; -1] Valid = Ok [2; -1] /\
  exists r, correlate dft idft (map (fun x => x - fst (mean [1; 3; 2])) [1; 3; 2]) (map (fun x => x - fst (mean [1; 3; 2])) [1; 3; 2]) Full = Ok r /\
    autocorr [1; 3; 2] 1 = nth 1 r 0 / nth 2 r 0.
Proof.
  split.
  - rewrite (C143_differences dft idft [1; 3; 2] dft_meets_contract idft_meets_contract) by (cbn; lia). cbn. repeat f_equal; lra.
  - destruct (C143_autocorr dft idft [1; 3; 2] 1 dft_meets_contract idft_meets_contract C09_ex ltac:(cbn; lia)) as [r [E [_ [A _]]]]. exists r. split; [exact E|exact A].
Qed.
