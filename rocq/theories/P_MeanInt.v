(** Integer mean, and the remaining combined statements about stats.rs. *)
From Coq Require Import List Arith ZArith Bool Lia Permutation Sorted Reals Lra.
From Verif Require Import Base Num MachInt M_Stats S_Stats P_MachInt P_Median P_Stats P_Stats2 ListUtil.
Import ListNotations.

Lemma mean_perm (y z : list R) : Permutation y z -> mean y = mean z.
Proof.
  intros P. destruct y as [|a y].
  - apply Permutation_nil in P. subst. reflexivity.
  - rewrite !mean_eq; [|intros ->; apply Permutation_sym, Permutation_nil in P; discriminate|discriminate].
    rewrite (Rmean_perm _ _ P), (Permutation_length P). reflexivity.
Qed.
Lemma mean_bounds y lo hi : y <> [] -> (forall x, In x y -> lo <= x <= hi)%R ->
  (lo <= fst (mean y) <= hi)%R.
Proof. intros H B. rewrite mean_eq by exact H. cbn [fst]. apply Rmean_bounds; assumption. Qed.
Lemma mean_affine y c d : y <> [] ->
  fst (mean (map (fun x => c * x + d)%R y)) = (c * fst (mean y) + d)%R.
Proof.
  intros H. rewrite !mean_eq by (try apply map_ne; exact H). cbn [fst]. apply Rmean_affine. exact H.
Qed.
Lemma variance_affine y c d : y <> [] ->
  fst (variance (map (fun x => c * x + d)%R y)) = (c ^ 2 * fst (variance y))%R /\
  fst (stdev (map (fun x => c * x + d)%R y)) = (Rabs c * fst (stdev y))%R.
Proof.
  intros H. rewrite !variance_eq, !stdev_eq by (try apply map_ne; exact H). cbn [fst].
  rewrite Rvar_affine by exact H. split; [reflexivity|].
  rewrite sqrt_mult by (try apply Rvar_nonneg; apply pow2_ge_0). f_equal.
  rewrite <- Rsqr_pow2. apply sqrt_Rsqr_abs.
Qed.
Lemma zscore_length (y : list R) : length (zscore y) = length y.
Proof. unfold zscore. apply map_length. Qed.

Lemma zip_shift_nth (f : R -> R) (y : list R) k :
  map (fun p : R * R => f (fst p) * f (snd p))%R (zip y (skipn k y)) =
  map (fun j => nth j (map f y) 0 * nth (j + k) (map f y) 0)%R (seq 0 (length y - k)).
Proof.
  apply nth_error_ext. intros i. destruct (Nat.lt_ge_cases i (length y - k)) as [Hi|Hi].
  - erewrite (map_nth_error _ i (seq _ _)) by (apply nth_error_seq; exact Hi). cbn [Nat.add].
    destruct (nth_error y i) as [a|] eqn:Ea; [|apply nth_error_None in Ea; lia].
    destruct (nth_error y (i + k)) as [b|] eqn:Eb; [|apply nth_error_None in Eb; lia].
    erewrite map_nth_error.
    2:{ apply zip_nth_error; [exact Ea|]. instantiate (1 := b).
        rewrite nth_error_skipn, Nat.add_comm. exact Eb. }
    cbn [fst snd]. f_equal.
    rewrite (nth_error_nth (map f y) i 0%R (map_nth_error f _ _ Ea)).
    rewrite (nth_error_nth (map f y) (i + k) 0%R (map_nth_error f _ _ Eb)). reflexivity.
  - rewrite !(proj2 (nth_error_None _ _)); [reflexivity| |];
      rewrite map_length, ?zip_map_len, ?skipn_length, ?seq_length; lia.
Qed.

Lemma autocorr_all (y : list R) : not_all_equal y ->
  autocorr y 0 = 1%R /\
  (forall k, (Rabs (autocorr y k) <= 1)%R) /\
  (forall k, length y <= k -> autocorr y k = 0%R) /\
  (forall k, autocorr y k =
     (lag_sum (map (fun x => x - Rmean y) y) k / INR (length y) / Rvar y)%R).
Proof.
  intros H. split; [apply autocorr_0; exact H|]. split; [intros k; apply autocorr_bound; exact H|].
  split; [intros k; apply autocorr_large; apply not_all_equal_ne; exact H|].
  intros k. rewrite autocorr_eq by (apply not_all_equal_ne; exact H).
  unfold lag_sum. rewrite map_length.
  rewrite <- (zip_shift_nth (fun x => x - Rmean y)%R y k). reflexivity.
Qed.

Lemma autocorr_fast32_spec skip (y x : list R) : y <> [] ->
  (length y < length x + skip -> autocorr_fast32 skip y x = Panic) /\
  (length x + skip <= length y ->
   exists x', autocorr_fast32 skip y x = Ok (Rvar y, map (fun v => v - Rmean y)%R y, x') /\
    length x' = length x /\
    (forall i, i < length x ->
      nth_error x' i = Some (Rsum (map (fun j =>
        nth j (map (fun v => v - Rmean y) y) 0 * nth (j + (skip + i)) (map (fun v => v - Rmean y) y) 0)
        (seq 0 (4 * ((length y - (skip + i)) / 4)))))%R) /\
    (forall i, i < length x -> Nat.divide 4 (length y - (skip + i)) ->
      nth_error x' i = Some (lag_sum (map (fun v => v - Rmean y)%R y) (skip + i)))).
Proof.
  intros Hne. split; [apply autocorr_fast32_panic|]. intros Hl.
  destruct (autocorr_fast32_ok skip y x Hl Hne) as (x' & E & L & N).
  exists x'. split; [exact E|]. split; [exact L|]. split; [exact N|].
  intros i Hi [q Hq]. rewrite (N i Hi). unfold lag_sum. rewrite map_length.
  replace (tiled (length y - (skip + i))) with (length y - (skip + i)); [reflexivity|].
  unfold tiled. rewrite Hq, Nat.div_mul by lia. lia.
Qed.

Local Open Scope Z_scope.
Lemma mean_int_fold md t y s c :
  (forall k, in_range t (s + fold_right Z.add 0 (firstn k y)) = true) ->
  rfold (fun (acc : Z * nat) yi => let! s := iadd md t (fst acc) yi in Ok (s, S (snd acc))) y (s, c)
  = Ok (s + fold_right Z.add 0 y, (c + length y)%nat).
Proof.
  revert s c. induction y as [|a y IH]; intros s c H; cbn [rfold fold_right length].
  - f_equal. f_equal; lia.
  - pose proof (H 1%nat) as H1. cbn [firstn fold_right] in H1. rewrite Z.add_0_r in H1.
    apply in_range_iff in H1. cbn [fst snd]. unfold iadd at 1. rewrite arith_ok by exact H1.
    cbn [bind]. rewrite IH.
    + f_equal. f_equal; lia.
    + intros k. specialize (H (S k)). cbn [firstn fold_right] in H. rewrite Z.add_assoc in H. exact H.
Qed.

Lemma mean_int_ok md pw t y :
  In pw pointer_widths -> In t (prim_types pw) -> y <> [] ->
  (forall k, in_range t (fold_right Z.add 0 (firstn k y)) = true) ->
  in_range t (Z.of_nat (length y)) = true ->
  mean_int md t y = Ok (Z.quot (fold_right Z.add 0 y) (Z.of_nat (length y)), length y).
Proof.
  intros Hp Ht Hne Hs Hn. pose proof (prim_wf pw t Hp Ht) as W.
  unfold mean_int. rewrite mean_int_fold by exact Hs. cbn [bind Nat.add].
  assert (L : (0 <? length y)%nat = true) by (destruct y; [congruence|reflexivity]). rewrite L.
  apply in_range_iff in Hn. unfold from_usize. rewrite convert_ok by exact Hn. cbn [bind].
  rewrite Z.add_0_l. assert (P : 0 < Z.of_nat (length y)) by (apply Nat.ltb_lt in L; lia).
  unfold idiv. destruct (Z.eqb_spec (Z.of_nat (length y)) 0) as [E|_]; [lia|].
  replace (in_range t (Z.quot (fold_right Z.add 0 y) (Z.of_nat (length y)))) with true; [reflexivity|].
  symmetry. apply in_range_iff. specialize (Hs (length y)). rewrite firstn_all in Hs.
  apply in_range_iff in Hs. set (s := fold_right Z.add 0 y) in *. set (n := Z.of_nat (length y)) in *.
  destruct (wf_bounds t W) as (B1 & B2 & _).
  destruct (Z.le_ge_cases 0 s) as [Z0|Z0].
  - pose proof (Z.quot_pos s n Z0 P). pose proof (Z.quot_le_upper_bound s n s P). nia.
  - replace s with (- - s) in * by lia. rewrite Z.quot_opp_l by lia.
    pose proof (Z.quot_pos (- s) n). pose proof (Z.quot_le_upper_bound (- s) n (- s) P). nia.
Qed.
