(** Savitzky-Golay filtering is convolution of the signal, its ends repeated, with the coefficients. *)
From Coq Require Import Reals ZArith List Arith Lia Lra.
From Verif Require Import Base Num MachInt M_Complex M_Linalg M_Savgol M_Fourier Cx RSum S_Stats S_Savgol S_SavgolConv S_Fourier P_Stats P_Fourier T_Savgol T_Fourier T_SavgolFit.
Import ListNotations.
Local Open Scope R_scope.

Lemma last_nth (y : list R) : last y 0 = nth (length y - 1) y 0.
Proof. induction y as [|a [|b y] IH]; [reflexivity|reflexivity|]. change (last (a :: b :: y) 0) with (last (b :: y) 0). rewrite IH. cbn [length]. replace (S (S (length y)) - 1)%nat with (S (S (length y) - 1)) by lia. reflexivity. Qed.
Lemma ends_nth h y i k : y <> [] -> (i < length y)%nat -> (k < 2 * h + 1)%nat -> nth (i + k) (ends_repeated h y) 0 = clamped y h i k.
Proof.
  intros Hy Hi Hk. unfold clamped, ends_repeated. change nzero with 0. destruct (le_lt_dec h (i + k)) as [G|Lt].
  - rewrite app_nth2 by (rewrite repeat_length; exact G). rewrite repeat_length. destruct (le_lt_dec (length y) (i + k - h)) as [G2|L2].
    + rewrite app_nth2 by exact G2. rewrite (nth_indep _ 0 (last y 0)) by (rewrite repeat_length; lia). rewrite nth_repeat, Nat.min_l by lia. apply last_nth.
    + rewrite app_nth1 by exact L2. rewrite Nat.min_r by lia. reflexivity.
  - rewrite app_nth1 by (rewrite repeat_length; exact Lt). rewrite (nth_indep _ 0 (hd 0 y)) by (rewrite repeat_length; exact Lt). rewrite nth_repeat.
    replace (i + k - h)%nat with 0%nat by lia. rewrite Nat.min_0_r. destruct y; reflexivity.
Qed.
Lemma Rsum_map_seq n (f : nat -> R) : Rsum (map f (seq 0 n)) = rsum n f.
Proof.
  rewrite Rsum_nth, map_length, seq_length. apply rsum_ext. intros i Hi. rewrite (nth_indep _ 0 (f 0%nat)) by (rewrite map_length, seq_length; exact Hi). rewrite map_nth, seq_nth by exact Hi. reflexivity.
Qed.

Theorem C139_savgol_convolve fft ifft lstsq md pw (y : list R) w po der del c : is_fft fft -> is_ifft ifft -> y <> [] ->
  (w mod 2 = 1)%nat -> (po + 2 <= w)%nat -> savgol_coeffs_dyn lstsq md pw w po der del = Ok c -> length c = w ->
  savgol_filter_dyn lstsq md pw y w po der del = convolve fft ifft (ends_repeated (w / 2) y) c Valid.
Proof.
  intros Hf Hi Hy Hw Hp Hc Lc. destruct (C35_savgol_fir R RNum lstsq md pw y w po der del c Hw Hp Hc Lc) as [out [E [L F]]].
  assert (W : w = (2 * (w / 2) + 1)%nat) by (pose proof (Nat.div_mod_eq w 2); lia). set (h := (w / 2)%nat) in *.
  assert (Hn : (0 < length y)%nat) by (destruct y; [congruence|cbn; lia]).
  assert (Lp : length (ends_repeated h y) = (length y + 2 * h)%nat) by (unfold ends_repeated; rewrite !app_length, !repeat_length; lia).
  assert (Hc0 : c <> []) by (destruct c; [cbn in Lc; lia|discriminate]).
  destruct (C38_convolve_valid_same_partial fft ifft (ends_repeated h y) c Hf Hi Hc0) as [V _]. destruct (V ltac:(lia)) as [r [E2 [L2 F2]]].
  rewrite E, E2. f_equal. rewrite Lp, Lc in L2. assert (Lr : length r = length y) by lia.
  apply (nth_ext _ _ 0 0); [congruence|]. intros i Hi'. rewrite L in Hi'. rewrite F2 by lia.
  pose proof (F i Hi') as Fi. apply (nth_error_nth _ _ 0) in Fi. rewrite Fi. rewrite nsum_Rsum, Rsum_map_seq, Lc. rewrite (rsum_rev w).
  apply rsum_ext. intros j Hj. cbn [nmul RNum]. rewrite <- ends_nth by (assumption || lia). rewrite Rmult_comm. change nzero with 0. f_equal; f_equal; lia.
Qed.
Print Assumptions C139_savgol_convolve.
(** The moving average of three samples. *)
Example C139_ex : savgol_filter_dyn average3 Checked 64 [3; 6; 0; 9] 3 1 (Some 0%nat) (Some 1) =
  convolve dft idft [3; 3; 6; 0; 9; 9] [1 / 3; 1 / 3; 1 / 3] Valid.
Proof.
  apply (C139_savgol_convolve dft idft average3 Checked 64 [3; 6; 0; 9] 3 1 (Some 0%nat) (Some 1) [1 / 3; 1 / 3; 1 / 3] dft_meets_contract idft_meets_contract); try discriminate; try reflexivity; lia.
Qed.
