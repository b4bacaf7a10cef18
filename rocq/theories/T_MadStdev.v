(** The median absolute deviation and the standard deviation. *)
From Coq Require Import Reals List Permutation Sorted Lia Lra.
From Verif Require Import Base Num M_Stats S_Stats P_Stats P_Stats2 P_FloatMad T_Stats T_StatsRel T_StatsJoin.
Import ListNotations.
Local Open Scope R_scope.

Lemma sum_sq_about y m : y <> [] -> Rsum (map (fun x => (x - m) ^ 2) y) = INR (length y) * (Rvar y + (Rmean y - m) ^ 2).
Proof.
  intros Hy. pose proof (len_pos y Hy) as P. rewrite Rvar_moments by exact Hy.
  assert (E : Rsum (map (fun x => (x - m) ^ 2) y) = Rsum (map (fun x => x ^ 2) y) - 2 * m * Rsum y + INR (length y) * m ^ 2).
  { clear. induction y as [|a y IH]; [cbn; ring|]. cbn [map]. rewrite !Rsum_cons, IH. cbn [length]. rewrite S_INR. ring. }
  rewrite E. unfold Rmean. rewrite map_length. field. lra.
Qed.
(** The median absolute deviation is at most twice the standard deviation. *)
Theorem C146_mad_stdev (y : list R) d n : y <> [] -> median_abs_deviation y = Ok (d, n) -> d <= 2 * fst (stdev y).
Proof.
  intros Hy Hd. destruct (C08_mad_nonneg y Hy) as [d' [Q D0]]. rewrite Hd in Q. injection Q as <- _. apply C08_mad in Hd; [|exact Hy]. destruct Hd as [_ [m [Mm Md]]].
  pose proof (C97_mean_median_stdev y m (length y) Hy ltac:(apply median_iff; auto)) as C. rewrite stdev_eq in * by exact Hy. rewrite mean_eq in C by exact Hy. cbn [fst] in *.
  destruct (median_counts2 _ d Md) as [a [b [E [Hab [_ [Cb _]]]]]]. rewrite map_length in Cb. pose proof (len_pos y Hy) as P. pose proof (Rvar_nonneg y) as V. pose proof (sqrt_pos (Rvar y)) as SP. pose proof (sqrt_sqrt (Rvar y) V) as SS.
  assert (L : d ^ 2 * cnt (fun x => Rleb b x) (map (fun x => Rabs (x - m)) y) <= Rsum (map (fun x => (x - m) ^ 2) y)).
  { unfold cnt. rewrite map_map, <- Rsum_map_scale. apply Rsum_le. intros x _. unfold Rleb. destruct (Rle_dec b (Rabs (x - m))) as [K|K]; [|pose proof (pow2_ge_0 (x - m)); lra].
    rewrite <- (pow2_abs (x - m)). nra. }
  rewrite sum_sq_about in L by exact Hy.
  assert (M2 : (Rmean y - m) ^ 2 <= Rvar y) by (rewrite <- SS, <- (pow2_abs (Rmean y - m)); pose proof (Rabs_pos (Rmean y - m)); nra).
  assert (W : INR (length y) * d ^ 2 <= INR (length y) * (4 * Rvar y)).
  { assert (d ^ 2 * INR (length y) <= d ^ 2 * (2 * cnt (fun x => Rleb b x) (map (fun x => Rabs (x - m)) y))) by (apply Rmult_le_compat_l; [apply pow2_ge_0|exact Cb]).
    assert (INR (length y) * (Rvar y + (Rmean y - m) ^ 2) <= INR (length y) * (2 * Rvar y)) by (apply Rmult_le_compat_l; lra). lra. }
  apply Rmult_le_reg_l in W; [|exact P]. nra.
Qed.
Print Assumptions C146_mad_stdev.

Lemma Rsum_repeat x k : Rsum (repeat x k) = INR k * x.
Proof. induction k as [|k IH]; [cbn; ring|]. cbn [repeat]. rewrite Rsum_cons, IH, S_INR. ring. Qed.
Lemma map_repeat' (f : R -> R) x k : map f (repeat x k) = repeat (f x) k.
Proof. induction k as [|k IH]; cbn; [|rewrite IH]; reflexivity. Qed.
Lemma sorted_two a b j k : a <= b -> StronglySorted Rle (repeat a j ++ repeat b k).
Proof.
  intros H. induction j as [|j IH]; cbn [repeat app].
  - induction k as [|k IH]; cbn; constructor; [exact IH|]. apply Forall_forall. intros x Hx. apply repeat_spec in Hx. lra.
  - constructor; [exact IH|]. apply Forall_forall. intros x Hx. apply in_app_or in Hx. destruct Hx as [Hx|Hx]; apply repeat_spec in Hx; lra.
Qed.
(** No smaller factor will do: -1, k zeros and k ones have median absolute deviation 1 and a standard deviation that approaches 1/2. *)
Theorem C146_mad_stdev_sharp (e : R) : 0 < e ->
  exists (y : list R) d n, median_abs_deviation y = Ok (d, n) /\ 0 < d /\ 2 * fst (stdev y) < (1 + e) * d.
Proof.
  intros He. destruct (archimed_cor1 (e / 4) ltac:(lra)) as [k [Hk Kp]].
  assert (KP : 0 < INR k) by (apply lt_0_INR; lia).
  set (y := -1 :: repeat 0 k ++ repeat 1 k).
  assert (Hy : y <> []) by discriminate.
  assert (Ly : length y = (2 * k + 1)%nat) by (unfold y; cbn [length]; rewrite app_length, !repeat_length; lia).
  exists y, 1, (length y). split; [|split; [lra|]].
  - apply C08_mad; [exact Hy|]. split; [reflexivity|]. exists 0. split.
    + exists y. split; [apply Permutation_refl|]. split.
      * constructor; [apply sorted_two; lra|]. apply Forall_forall. intros x Hx. apply in_app_or in Hx. destruct Hx as [Hx|Hx]; apply repeat_spec in Hx; lra.
      * left. exists k. split; [exact Ly|]. unfold y. destruct k as [|k']; [lia|]. cbn [nth_error]. rewrite nth_error_app1 by (rewrite repeat_length; lia). apply nth_error_repeat. lia.
    + exists (repeat 0 k ++ repeat 1 (S k)). split; [|split; [apply sorted_two; lra|]].
      * unfold y. cbn [map]. rewrite map_app, !map_repeat'. replace (Rabs (-1 - 0)) with 1 by (rewrite Rabs_left; lra). replace (Rabs (0 - 0)) with 0 by (rewrite Rabs_right; lra). replace (Rabs (1 - 0)) with 1 by (rewrite Rabs_right; lra).
        cbn [repeat]. apply Permutation_middle.
      * left. exists k. split; [rewrite app_length, !repeat_length; lia|]. rewrite nth_error_app2 by (rewrite repeat_length; lia). rewrite repeat_length, Nat.sub_diag. reflexivity.
  - rewrite stdev_eq by exact Hy. cbn [fst].
    assert (LR : INR (length y) = 2 * INR k + 1) by (rewrite Ly, plus_INR, mult_INR; cbn; ring).
    assert (V : Rvar y = (INR k + 1) / (2 * INR k + 1) - ((INR k - 1) / (2 * INR k + 1)) ^ 2).
    { rewrite Rvar_moments by exact Hy. unfold Rmean. rewrite map_length, LR. unfold y. cbn [map]. rewrite map_app, !map_repeat', !Rsum_cons, !Rsum_app, !Rsum_repeat. field. lra. }
    assert (B : 4 * Rvar y < (1 + e) ^ 2).
    { rewrite V. assert (Q : 4 * ((INR k + 1) / (2 * INR k + 1) - ((INR k - 1) / (2 * INR k + 1)) ^ 2) = 1 + (16 * INR k - 1) / (2 * INR k + 1) ^ 2) by (field; lra).
      rewrite Q. assert (W : 4 < e * INR k) by (apply Rmult_lt_compat_r with (r := INR k) in Hk; [rewrite Rinv_l in Hk by lra; lra|exact KP]).
      assert ((16 * INR k - 1) / (2 * INR k + 1) ^ 2 < 2 * e); [|nra].
      apply Rmult_lt_reg_r with ((2 * INR k + 1) ^ 2); [nra|]. unfold Rdiv. rewrite Rmult_assoc, Rinv_l by nra. nra. }
    pose proof (sqrt_pos (Rvar y)) as SP. pose proof (sqrt_sqrt (Rvar y) (Rvar_nonneg y)) as SS. nra.
Qed.
Print Assumptions C146_mad_stdev_sharp.
(** 1, 2 and 100 have median absolute deviation 1, so their standard deviation is at least 1/2. *)
Example C146_mad_stdev_ex : median_abs_deviation [1; 2; 100] = Ok (1, 3%nat) /\ 1 / 2 <= fst (stdev [1; 2; 100]).
Proof.
  assert (Hd : median_abs_deviation [1; 2; 100] = Ok (1, 3%nat)).
  { apply C08_mad; [discriminate|]. split; [reflexivity|]. exists 2. split; [apply med3; lra|]. cbn [map].
    replace (Rabs (1 - 2)) with 1 by (rewrite Rabs_left; lra). replace (Rabs (2 - 2)) with 0 by (rewrite Rabs_right; lra). replace (Rabs (100 - 2)) with 98 by (rewrite Rabs_right; lra).
    destruct (med3 0 1 98 ltac:(lra) ltac:(lra)) as [s [P S]]. exists s. split; [|exact S]. eapply Permutation_trans; [apply perm_swap|exact P]. }
  split; [exact Hd|]. pose proof (C146_mad_stdev [1; 2; 100] 1 3 ltac:(discriminate) Hd). lra.
Qed.

(** Samples within [lo, hi] have a standard deviation of at most half the length of the interval. *)
Theorem C146_range (y : list R) lo hi : y <> [] -> (forall x, In x y -> lo <= x <= hi) -> fst (stdev y) <= (hi - lo) / 2.
Proof.
  intros Hy B. rewrite stdev_eq by exact Hy. cbn [fst]. pose proof (len_pos y Hy) as P.
  assert (W : 0 <= hi - lo) by (destruct y as [|x y']; [congruence|]; specialize (B x (or_introl eq_refl)); lra).
  pose proof (sum_sq_about y ((lo + hi) / 2) Hy) as E.
  assert (L : Rsum (map (fun x => (x - (lo + hi) / 2) ^ 2) y) <= Rsum (map (fun _ => ((hi - lo) / 2) ^ 2) y)) by (apply Rsum_le; intros x Hx; specialize (B x Hx); nra).
  assert (C : Rsum (map (fun _ : R => ((hi - lo) / 2) ^ 2) y) = INR (length y) * ((hi - lo) / 2) ^ 2).
  { generalize (((hi - lo) / 2) ^ 2). intros q. clear. induction y as [|a y IH]; [cbn; ring|]. cbn [map length]. rewrite Rsum_cons, IH, S_INR. ring. }
  rewrite E, C in L. apply Rmult_le_reg_l in L; [|exact P]. pose proof (pow2_ge_0 (Rmean y - (lo + hi) / 2)).
  pose proof (sqrt_pos (Rvar y)). pose proof (sqrt_sqrt (Rvar y) (Rvar_nonneg y)). nra.
Qed.
Print Assumptions C146_range.

(** At most one sample in t^2 has a z-score of size t or more. *)
Theorem C146_zscore_count (y : list R) t : not_all_equal y -> 0 < t ->
  INR (length (filter (fun z => Rleb t (Rabs z)) (zscore y))) * t ^ 2 <= INR (length y).
Proof.
  intros NE Ht. destruct (C07_zscore y) as [_ [Lz [Z _]]]. destruct (Z NE) as [M V].
  assert (Hy : zscore y <> []) by (intros Q; rewrite Q in Lz; destruct NE as [a [b [Ha _]]]; destruct y; [destruct Ha|discriminate]).
  pose proof (sum_sq_about (zscore y) 0 Hy) as E. rewrite M, V, Lz in E.
  rewrite <- cnt_filter. unfold cnt. rewrite Rmult_comm, <- Rsum_map_scale.
  replace (INR (length y)) with (Rsum (map (fun x => (x - 0) ^ 2) (zscore y))) by (rewrite E; ring).
  apply Rsum_le. intros z _. unfold Rleb. destruct (Rle_dec t (Rabs z)) as [K|K]; [|pose proof (pow2_ge_0 (z - 0)); lra].
  rewrite Rminus_0_r, <- (pow2_abs z). nra.
Qed.
Print Assumptions C146_zscore_count.

Lemma lag_sq_sum c y : Rsum (map (fun d => d ^ 2) (lag_diff y)) + match y with [] => 0 | a :: _ => 2 * (a - c) ^ 2 end <= 4 * Rsum (map (fun x => (x - c) ^ 2) y).
Proof.
  induction y as [|a y IH]; [cbn; lra|]. destruct y as [|b y]; [cbn; pose proof (pow2_ge_0 (a - c)); lra|].
  change (lag_diff (a :: b :: y)) with ((b - a) :: lag_diff (b :: y)). remember (lag_diff (b :: y)) as l. cbn [map] in *. rewrite !Rsum_cons in *.
  pose proof (pow2_ge_0 ((a - c) + (b - c))). nra.
Qed.
(** RMSSD is at most 2 sqrt(n / (n - 1)) standard deviations. *)
Theorem C146_rmssd (y : list R) : y <> [] ->
  (INR (length y) - 1) * rmssd y ^ 2 <= 4 * INR (length y) * fst (variance y).
Proof.
  intros Hy. rewrite variance_eq, rmssd_eq by exact Hy. cbn [fst]. pose proof (len_pos y Hy) as P. pose proof (Rvar_nonneg y) as V.
  destruct (Nat.ltb_spec (length y) 2) as [H|H]; [nra|].
  pose proof (lag_sq_sum (Rmean y) y) as L. rewrite (sum_sq_about y (Rmean y) Hy) in L.
  assert (A : 0 <= match y with [] => 0 | a :: _ => 2 * (a - Rmean y) ^ 2 end) by (destruct y as [|a y']; [lra|]; pose proof (pow2_ge_0 (a - Rmean (a :: y'))); lra).
  assert (N : INR (length y - 1) = INR (length y) - 1) by (rewrite minus_INR by lia; reflexivity). apply le_INR in H. cbn [INR] in H.
  set (q := Rsum (map (fun d => d ^ 2) (lag_diff y))) in *.
  assert (Q : 0 <= q) by (apply Rsum_nonneg; intros z Hz; apply in_map_iff in Hz; destruct Hz as [w [<- _]]; apply pow2_ge_0).
  unfold Rmean at 1. rewrite map_length, lag_diff_length, N. fold q.
  rewrite <- Rsqr_pow2, Rsqr_sqrt by (apply Rmult_le_pos; [exact Q|left; apply Rinv_0_lt_compat; lra]).
  replace ((INR (length y) - 1) * (q / (INR (length y) - 1))) with q by (field; lra). nra.
Qed.
Print Assumptions C146_rmssd.
Example C146_ex : stdev [1; 3] = (1, 2%nat) /\ not_all_equal [1; 3] /\ fst (stdev [1; 3]) <= (3 - 1) / 2 /\
  (2 - 1) * rmssd [1; 3] ^ 2 <= 4 * 2 * fst (variance [1; 3]).
Proof.
  assert (V : stdev [1; 3] = (1, 2%nat)).
  { rewrite stdev_eq by discriminate. pose proof C06_ex as E. rewrite variance_eq in E by discriminate. injection E as ->. rewrite sqrt_1. reflexivity. }
  split; [exact V|]. split; [exists 1, 3; cbn; repeat split; auto; lra|]. split.
  - apply C146_range; [discriminate|]. intros x [<-|[<-|[]]]; lra.
  - pose proof (C146_rmssd [1; 3] ltac:(discriminate)) as H. cbn [length] in H. replace (INR 2) with 2 in H by (cbn; lra). exact H.
Qed.
