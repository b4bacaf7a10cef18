(** How large a convolution can get; exact arithmetic. *)
From Coq Require Import Reals ZArith List Lia Lra.
From Verif Require Import Base Num M_Complex M_Fourier Cx RSum S_Fourier S_Stats S_Delay P_Fourier P_Stats T_Fourier T_Convolve T_Delay.
Import ListNotations.
Local Open Scope R_scope.

Lemma cb_le n f g : (forall i, (i < n)%nat -> f i <= g i) -> rsum n f <= rsum n g.
Proof. induction n as [|n IH]; intros H; cbn [rsum]; [lra|]. pose proof (H n ltac:(lia)). pose proof (IH ltac:(intros; apply H; lia)). lra. Qed.
Lemma cb_abs n f : Rabs (rsum n f) <= rsum n (fun i => Rabs (f i)).
Proof. induction n as [|n IH]; cbn [rsum]; [rewrite Rabs_R0; lra|]. eapply Rle_trans; [apply Rabs_triang|]. lra. Qed.
Lemma full_nth x y k : (k < length x + length y - 1)%nat -> nth k (full x y) 0 = rsum (length x) (fun j => nth j x 0 * at_ y (Z.of_nat k - Z.of_nat j)).
Proof.
  intros H. unfold full. rewrite nth_map_seq0 by exact H. unfold convolution. apply rsum_ext. intros j _. rewrite at_nat. reflexivity.
Qed.
Lemma full_sum u v : u <> [] -> v <> [] -> Rsum (full u v) = Rsum u * Rsum v.
Proof.
  intros Hu Hv. destruct (C99_sum dft idft u v dft_meets_contract idft_meets_contract Hu Hv) as [r [E S]].
  rewrite (convolve_full dft idft u v dft_meets_contract idft_meets_contract Hu Hv) in E. injection E as <-. exact S.
Qed.
Lemma at_map (f : R -> R) y i : f 0 = 0 -> at_ (map f y) i = f (at_ y i).
Proof. intros H. unfold at_. destruct (i <? 0)%Z; [symmetry; exact H|]. rewrite <- H at 1. apply map_nth. Qed.
Lemma nth_map0 (f : R -> R) y i : f 0 = 0 -> nth i (map f y) 0 = f (nth i y 0).
Proof. intros H. rewrite <- H at 1. apply map_nth. Qed.
Lemma map_nonnil (f : R -> R) y : y <> [] -> map f y <> [].
Proof. destruct y; [congruence|discriminate]. Qed.
Lemma mass_rsum x : Rsum (map Rabs x) = rsum (length x) (fun i => Rabs (nth i x 0)).
Proof. rewrite Rsum_nth, map_length. apply rsum_ext. intros i _. apply nth_map0, Rabs_R0. Qed.
Lemma mass_nonneg x : 0 <= Rsum (map Rabs x).
Proof. apply Rsum_nonneg. intros v Hv. apply in_map_iff in Hv. destruct Hv as [w [<- _]]. apply Rabs_pos. Qed.

(** No sample exceeds the sum of the magnitudes of one signal times the largest magnitude of the other. *)
Theorem C147_peak fft ifft (x y : list R) B : is_fft fft -> is_ifft ifft -> x <> [] -> y <> [] -> (forall v, In v y -> Rabs v <= B) ->
  exists r, convolve fft ifft x y Full = Ok r /\ convolve fft ifft y x Full = Ok r /\ forall v, In v r -> Rabs v <= Rsum (map Rabs x) * B.
Proof.
  intros Hf Hi Hx Hy Hb. exists (full x y). split; [apply convolve_full; assumption|]. split; [rewrite <- (C99_commutative fft ifft x y Hf Hi Hx Hy); apply convolve_full; assumption|].
  assert (B0 : 0 <= B) by (destruct y as [|a y']; [congruence|]; pose proof (Hb a (or_introl eq_refl)); pose proof (Rabs_pos a); lra).
  assert (A : forall i, Rabs (at_ y i) <= B).
  { intros i. unfold at_. destruct (i <? 0)%Z; [rewrite Rabs_R0; exact B0|]. destruct (nth_in_or_default (Z.to_nat i) y 0) as [H| ->]; [apply Hb, H|rewrite Rabs_R0; exact B0]. }
  intros v Hv. apply (In_nth _ _ 0) in Hv. destruct Hv as [k [Hk <-]]. rewrite full_length in Hk. rewrite full_nth by exact Hk.
  eapply Rle_trans; [apply cb_abs|]. rewrite mass_rsum, <- rsum_scale_r. apply cb_le. intros j _. rewrite Rabs_mult. apply Rmult_le_compat_l; [apply Rabs_pos|apply A].
Qed.
Print Assumptions C147_peak.

(** The magnitudes add up to at most the product of those of the two signals. *)
Theorem C147_mass fft ifft (x y : list R) : is_fft fft -> is_ifft ifft -> x <> [] -> y <> [] ->
  exists r, convolve fft ifft x y Full = Ok r /\ Rsum (map Rabs r) <= Rsum (map Rabs x) * Rsum (map Rabs y).
Proof.
  intros Hf Hi Hx Hy. exists (full x y). split; [apply convolve_full; assumption|].
  rewrite <- full_sum by (apply map_nonnil; assumption). rewrite mass_rsum, Rsum_nth, !full_length, !map_length. apply cb_le. intros k Hk.
  rewrite !full_nth by (rewrite ?map_length; exact Hk). rewrite map_length. eapply Rle_trans; [apply cb_abs|]. apply cb_le. intros j _.
  rewrite Rabs_mult, at_map, nth_map0 by apply Rabs_R0. lra.
Qed.
Print Assumptions C147_mass.

(** The energy is at most that of one signal times the squared sum of the magnitudes of the other. *)
Theorem C147_energy fft ifft (x y : list R) : is_fft fft -> is_ifft ifft -> x <> [] -> y <> [] ->
  exists r, convolve fft ifft x y Full = Ok r /\ energy r <= Rsum (map Rabs x) ^ 2 * energy y.
Proof.
  intros Hf Hi Hx Hy. exists (full x y). split; [apply convolve_full; assumption|].
  set (A := Rsum (map Rabs x)). replace (A ^ 2 * energy y) with (A * (A * Rsum (map (fun v => v * v) y))) by (unfold energy; ring). unfold A at 2.
  rewrite <- full_sum by (apply map_nonnil; assumption). rewrite energy_rsum, Rsum_nth, !full_length, !map_length, <- rsum_scale. apply cb_le. intros k Hk.
  rewrite !full_nth by (rewrite ?map_length; exact Hk). rewrite map_length.
  pose proof (sum_cauchy (length x) (fun j => sqrt (Rabs (nth j x 0))) (fun j => sqrt (Rabs (nth j x 0)) * Rabs (at_ y (Z.of_nat k - Z.of_nat j)))) as C. cbv beta in C.
  set (p := rsum (length x) (fun j => nth j x 0 * at_ y (Z.of_nat k - Z.of_nat j))).
  assert (P : Rabs p <= rsum (length x) (fun j => sqrt (Rabs (nth j x 0)) * (sqrt (Rabs (nth j x 0)) * Rabs (at_ y (Z.of_nat k - Z.of_nat j))))).
  { eapply Rle_trans; [apply cb_abs|]. apply cb_le. intros j _. rewrite <- Rmult_assoc, sqrt_sqrt by apply Rabs_pos. rewrite Rabs_mult. lra. }
  replace (p * p) with (Rabs p * Rabs p) by (rewrite <- Rabs_mult; apply Rabs_right; pose proof (Rle_0_sqr p) as Q; unfold Rsqr in Q; lra).
  eapply Rle_trans; [apply Rmult_le_compat; [apply Rabs_pos|apply Rabs_pos|exact P|exact P]|].
  eapply Rle_trans; [exact C|]. right. f_equal.
  - unfold A. rewrite mass_rsum. apply rsum_ext. intros j _. apply sqrt_sqrt, Rabs_pos.
  - apply rsum_ext. intros j _. rewrite (at_map (fun v => v * v)) by ring. rewrite nth_map0 by apply Rabs_R0.
    set (a := at_ y _). replace (a * a) with (Rabs a * Rabs a) by (rewrite <- Rabs_mult; apply Rabs_right; pose proof (Rle_0_sqr a) as Q; unfold Rsqr in Q; lra).
    replace (Rabs (nth j x 0)) with (sqrt (Rabs (nth j x 0)) * sqrt (Rabs (nth j x 0))) at 3 by (apply sqrt_sqrt, Rabs_pos). ring.
Qed.
Print Assumptions C147_energy.

(** A weighted average, taken in Valid mode, stays between the smallest and the largest sample. *)
Theorem C147_average fft ifft (x w : list R) lo hi : is_fft fft -> is_ifft ifft -> (length w <= length x)%nat ->
  (forall v, In v w -> 0 <= v) -> Rsum w = 1 -> (forall v, In v x -> lo <= v <= hi) ->
  exists r, convolve fft ifft x w Valid = Ok r /\ length r = (length x - length w + 1)%nat /\ forall v, In v r -> lo <= v <= hi.
Proof.
  intros Hf Hi Hl Hw S Hx. assert (W : w <> []) by (intros ->; cbn in S; lra).
  destruct (C38_convolve_valid_same_partial fft ifft x w Hf Hi W) as [V _]. destruct (V Hl) as [r [E [L N]]]. exists r. split; [exact E|]. rewrite Nat.max_l, Nat.min_r in L by lia. split; [exact L|].
  intros v Hv. apply (In_nth _ _ 0) in Hv. destruct Hv as [i [Hi' <-]]. rewrite N by exact Hi'.
  assert (LW : (length w <> 0)%nat) by (rewrite length_zero_iff_nil; exact W).
  assert (T : forall j, (j < length w)%nat -> 0 <= nth j w 0 /\ lo <= nth (i + (length w - 1) - j) x 0 <= hi).
  { intros j Hj. split; [apply Hw, nth_In; exact Hj|]. apply Hx, nth_In. lia. }
  rewrite Rsum_nth in S. split.
  - replace lo with (rsum (length w) (fun j => nth j w 0 * lo)) by (rewrite rsum_scale_r, S; ring). apply cb_le. intros j Hj. apply Rmult_le_compat_l; apply T, Hj.
  - replace hi with (rsum (length w) (fun j => nth j w 0 * hi)) by (rewrite rsum_scale_r, S; ring). apply cb_le. intros j Hj. apply Rmult_le_compat_l; apply T, Hj.
Qed.
Print Assumptions C147_average.
(** Weights 1/2, 1/2 on samples between 1 and 4. *)
Example C147_ex : exists r, convolve dft idft [1; 4; 2] [1 / 2; 1 / 2] Valid = Ok r /\ length r = 2%nat /\ forall v, In v r -> 1 <= v <= 4.
Proof.
  apply (C147_average dft idft [1; 4; 2] [1 / 2; 1 / 2] 1 4 dft_meets_contract idft_meets_contract); [cbn; lia| | |].
  - intros v [<-|[<-|[]]]; lra.
  - cbn. lra.
  - intros v [<-|[<-|[<-|[]]]]; lra.
Qed.
