(** Statistics of two samples taken together, from those of the two; and outliers: what the median absolute
    deviation and the modified z-score do when less than half of the samples are arbitrary. *)
From Coq Require Import Reals List Permutation Sorted Lia Lra.
From Verif Require Import Base Num M_Stats S_Stats P_Stats P_Stats2 T_Stats T_StatsRel.
Import ListNotations.
Local Open Scope R_scope.

Lemma app_ne (y z : list R) : y <> [] -> y ++ z <> [].
Proof. destruct y; [congruence|discriminate]. Qed.
Lemma len_pos (y : list R) : y <> [] -> 0 < INR (length y).
Proof. intros H. apply lt_0_INR. destruct y; [congruence|cbn; lia]. Qed.
(** Mean and count of the joined samples, from means and counts. *)
Theorem C141_mean_join (y z : list R) a n b m : y <> [] -> z <> [] -> mean y = (a, n) -> mean z = (b, m) ->
  mean (y ++ z) = ((INR n * a + INR m * b) / INR (n + m), (n + m)%nat).
Proof.
  intros Hy Hz Ey Ez. rewrite mean_eq in * by (try apply app_ne; assumption). injection Ey as <- <-. injection Ez as <- <-.
  pose proof (len_pos y Hy). pose proof (len_pos z Hz). rewrite app_length. f_equal. unfold Rmean. rewrite app_length, Rsum_app, plus_INR. field. lra.
Qed.
Print Assumptions C141_mean_join.
(** The variance of the joined samples: the weighted mean of the variances and, from the difference of the means, a
    further part. *)
Theorem C141_variance_join (y z : list R) a b v w n m : y <> [] -> z <> [] -> mean y = (a, n) -> mean z = (b, m) ->
  variance y = (v, n) -> variance z = (w, m) ->
  variance (y ++ z) = ((INR n * v + INR m * w) / INR (n + m) + INR n * INR m * (a - b) ^ 2 / INR (n + m) ^ 2, (n + m)%nat).
Proof.
  intros Hy Hz Ey Ez Vy Vz. rewrite mean_eq in * by assumption. rewrite variance_eq in * by (try apply app_ne; assumption).
  injection Ey as <- <-. injection Ez as <- <-. injection Vy as <-. injection Vz as <-.
  pose proof (len_pos y Hy). pose proof (len_pos z Hz). rewrite app_length. f_equal. rewrite !Rvar_moments by (try apply app_ne; assumption).
  unfold Rmean. rewrite !map_length, map_app, !Rsum_app, app_length, plus_INR. field. lra.
Qed.
Print Assumptions C141_variance_join.

Lemma median_counts2 y m : is_median y m -> exists a b, m = (a + b) / 2 /\ a <= b /\
  INR (length y) <= 2 * cnt (fun x => Rleb x a) y /\ INR (length y) <= 2 * cnt (fun x => Rleb b x) y /\
  INR (length y) < 2 * cnt (fun x => Rleb a x) y /\ INR (length y) < 2 * cnt (fun x => Rleb x b) y.
Proof.
  intros [s [P [S H]]]. rewrite (Permutation_length P).
  assert (LE : forall k a, nth_error s k = Some a -> INR (k + 1) <= cnt (fun x => Rleb x a) s).
  { intros k a E. destruct (sorted_split s k a S E) as [A _]. rewrite <- (firstn_skipn (Datatypes.S k) s) at 1. rewrite cnt_app, cnt_all.
    - rewrite firstn_length. assert (nth_error s k <> None) by (rewrite E; discriminate). apply nth_error_Some in H0.
      rewrite Nat.min_l by lia. pose proof (cnt_nonneg (fun x => Rleb x a) (skipn (Datatypes.S k) s)). replace (k + 1)%nat with (Datatypes.S k) by lia. lra.
    - intros x Hx. specialize (A x Hx). unfold Rleb. destruct (Rle_dec x a); [reflexivity|contradiction]. }
  assert (GE : forall k a, nth_error s k = Some a -> INR (length s - k) <= cnt (fun x => Rleb a x) s).
  { intros k a E. destruct (sorted_split s k a S E) as [_ B]. rewrite <- (firstn_skipn k s) at 2. rewrite cnt_app, (cnt_all _ (skipn k s)).
    - rewrite skipn_length. pose proof (cnt_nonneg (fun x => Rleb a x) (firstn k s)). lra.
    - intros x Hx. specialize (B x Hx). unfold Rleb. destruct (Rle_dec a x); [reflexivity|contradiction]. }
  destruct H as [[k [L E]]|[k [a [b [L [E1 [E2 ->]]]]]]].
  - exists m, m. split; [lra|]. split; [lra|]. rewrite !(cnt_perm _ _ _ P). specialize (LE _ _ E). specialize (GE _ _ E).
    replace (length s - k)%nat with (k + 1)%nat in GE by lia. rewrite L. rewrite plus_INR in *. rewrite mult_INR. cbn [INR] in *. lra.
  - exists a, b. split; [reflexivity|]. rewrite !(cnt_perm _ _ _ P). pose proof (LE _ _ E1) as L1. pose proof (LE _ _ E2) as L2. pose proof (GE _ _ E1) as G1. pose proof (GE _ _ E2) as G2.
    replace (length s - Datatypes.S k)%nat with (k + 1)%nat in G2 by lia. replace (length s - k)%nat with (k + 2)%nat in G1 by lia. replace (Datatypes.S k + 1)%nat with (k + 2)%nat in L2 by lia. rewrite L.
    split; [|rewrite plus_INR in *; rewrite mult_INR; cbn [INR] in *; lra].
    destruct (sorted_split s k a S E1) as [_ B]. apply B.
    assert (Hsk : nth_error (skipn k s) 1 = Some b).
    { rewrite <- (firstn_skipn k s), nth_error_app2 in E2 by (rewrite firstn_length; lia). rewrite firstn_length in E2. assert (k <= length s)%nat by lia.
      rewrite Nat.min_l in E2 by lia. replace (Datatypes.S k - k)%nat with 1%nat in E2 by lia. exact E2. }
    eapply nth_error_In; exact Hsk.
Qed.
Lemma below_above l u v : u < v -> cnt (fun x => Rleb x u) l + cnt (fun x => Rleb v x) l <= INR (length l).
Proof. intros H. apply cnt_disjoint. intros x. unfold Rleb. destruct (Rle_dec x u), (Rle_dec v x); intros; try discriminate; lra. Qed.
Lemma join_le (y z : list R) p q r : is_median y p -> is_median z q -> is_median (y ++ z) r -> p <= q -> p <= r <= q.
Proof.
  intros Hp Hq Hr L. destruct (median_counts2 y p Hp) as [a1 [b1 [E1 [A1 [P1 [P2 [P3 P4]]]]]]]. destruct (median_counts2 z q Hq) as [a2 [b2 [E2 [A2 [Q1 [Q2 [Q3 Q4]]]]]]].
  destruct (median_counts2 _ r Hr) as [a [b [E [A [R1 [R2 [R3 R4]]]]]]]. rewrite app_length, plus_INR, cnt_app in *.
  (* lower middle sample *)
  assert (U : a <= a1 \/ a <= a2).
  { destruct (Rle_dec a a1); [left; assumption|]. destruct (Rle_dec a a2); [right; assumption|]. exfalso. pose proof (below_above y a1 a ltac:(lra)). pose proof (below_above z a2 a ltac:(lra)). lra. }
  assert (D : a1 <= a \/ a2 <= a).
  { destruct (Rle_dec a1 a); [left; assumption|]. destruct (Rle_dec a2 a); [right; assumption|]. exfalso. pose proof (below_above y a a1 ltac:(lra)). pose proof (below_above z a a2 ltac:(lra)). lra. }
  (* upper middle sample *)
  assert (U' : b <= b1 \/ b <= b2).
  { destruct (Rle_dec b b1); [left; assumption|]. destruct (Rle_dec b b2); [right; assumption|]. exfalso. pose proof (below_above y b1 b ltac:(lra)). pose proof (below_above z b2 b ltac:(lra)). lra. }
  assert (D' : b1 <= b \/ b2 <= b).
  { destruct (Rle_dec b1 b); [left; assumption|]. destruct (Rle_dec b2 b); [right; assumption|]. exfalso. pose proof (below_above y b b1 ltac:(lra)). pose proof (below_above z b b2 ltac:(lra)). lra. }
  (* one pair of middle samples inside the other *)
  assert (N1 : a < a2 -> b1 <= a). { intros H. destruct (Rle_dec b1 a); [assumption|]. exfalso. pose proof (below_above z a a2 H). pose proof (below_above y a b1 ltac:(lra)). lra. }
  assert (N2 : a < a1 -> b2 <= a). { intros H. destruct (Rle_dec b2 a); [assumption|]. exfalso. pose proof (below_above y a a1 H). pose proof (below_above z a b2 ltac:(lra)). lra. }
  assert (N3 : b2 < b -> b <= a1). { intros H. destruct (Rle_dec b a1); [assumption|]. exfalso. pose proof (below_above z b2 b H). pose proof (below_above y a1 b ltac:(lra)). lra. }
  assert (N4 : b1 < b -> b <= a2). { intros H. destruct (Rle_dec b a2); [assumption|]. exfalso. pose proof (below_above y b1 b H). pose proof (below_above z a2 b ltac:(lra)). lra. }
  destruct (Rlt_le_dec a a2), (Rlt_le_dec a a1), (Rlt_le_dec b2 b), (Rlt_le_dec b1 b); try specialize (N1 ltac:(assumption)); try specialize (N2 ltac:(assumption)); try specialize (N3 ltac:(assumption)); try specialize (N4 ltac:(assumption)); destruct U, D, U', D'; lra.
Qed.
(** The median of the joined samples lies between the two medians. *)
Theorem C141_median_join (y z : list R) p n q m : y <> [] -> z <> [] -> median y = Ok (p, n) -> median z = Ok (q, m) ->
  exists r, median (y ++ z) = Ok (r, (n + m)%nat) /\ Rmin p q <= r <= Rmax p q.
Proof.
  intros Hy Hz Ey Ez. apply median_iff in Ey; [|exact Hy]. apply median_iff in Ez; [|exact Hz]. destruct Ey as [Mp ->]. destruct Ez as [Mq ->].
  destruct (is_median_exists (y ++ z) (app_ne y z Hy)) as [r Mr]. exists r. split; [apply median_iff; [apply app_ne, Hy|]; rewrite app_length; auto|].
  destruct (Rle_dec p q) as [L|L].
  - rewrite Rmin_left, Rmax_right by lra. apply (join_le y z); assumption.
  - rewrite Rmin_right, Rmax_left by lra. apply (join_le z y); try assumption; [|lra]. destruct Mr as [s [P S]]. exists s. split; [|exact S]. eapply Permutation_trans; [apply Permutation_app_comm|exact P].
Qed.
Print Assumptions C141_median_join.

(** More than half of the samples in an interval: the median absolute deviation is at most its length. *)
Theorem C141_mad_robust (y : list R) lo hi d n : median_abs_deviation y = Ok (d, n) ->
  (length y < 2 * length (filter (fun x => Rleb lo x && Rleb x hi) y))%nat -> d <= hi - lo.
Proof.
  intros Hd Hc. assert (Hy : y <> []) by (intros ->; cbn in Hc; lia). apply C08_mad in Hd; [|exact Hy]. destruct Hd as [_ [m [Mm Md]]].
  assert (Im : lo <= m <= hi) by (apply (C97_median_robust y lo hi m (length y)); [apply median_iff; auto|exact Hc]).
  assert (Q : median (map (fun x => Rabs (x - m)) y) = Ok (d, length (map (fun x => Rabs (x - m)) y))) by (apply median_iff; [destruct y; [congruence|discriminate]|auto]).
  apply (C97_median_robust _ 0 (hi - lo) d _ Q). rewrite map_length. eapply Nat.lt_le_trans; [exact Hc|]. apply Nat.mul_le_mono_l.
  clear -Im. induction y as [|x y IH]; [reflexivity|]. cbn [map filter]. destruct (Rleb lo x && Rleb x hi)%bool eqn:E.
  - assert (G : (Rleb 0 (Rabs (x - m)) && Rleb (Rabs (x - m)) (hi - lo))%bool = true).
    { unfold Rleb in *. destruct (Rle_dec lo x), (Rle_dec x hi); try discriminate. destruct (Rle_dec 0 (Rabs (x - m))); [|exfalso; apply n; apply Rabs_pos].
      destruct (Rle_dec (Rabs (x - m)) (hi - lo)); [reflexivity|]. exfalso. apply n. apply Rabs_le. lra. }
    rewrite G. cbn [length]. lia.
  - destruct (Rleb 0 (Rabs (x - m)) && Rleb (Rabs (x - m)) (hi - lo))%bool; cbn [length]; lia.
Qed.
Print Assumptions C141_mad_robust.
(** Outliers cannot hide: more than half of the samples in an interval, then the modified z-score of a sample outside is at
    least 0.6745 times its distance from the interval over the length of the interval, whatever the other samples are. *)
Theorem C141_outlier (y : list R) lo hi d n i x : median_abs_deviation y = Ok (d, n) -> d <> 0 ->
  (length y < 2 * length (filter (fun x => Rleb lo x && Rleb x hi) y))%nat -> nth_error y i = Some x ->
  exists s v, mod_zscore y = Ok s /\ nth_error s i = Some v /\
    (hi <= x -> 0.6745 * (x - hi) / (hi - lo) <= v) /\ (x <= lo -> v <= - (0.6745 * (lo - x) / (hi - lo))).
Proof.
  intros Hd D0 Hc Hx. assert (Hy : y <> []) by (intros ->; cbn in Hc; lia). pose proof (C141_mad_robust y lo hi d n Hd Hc) as Dl.
  destruct (C08_mad_nonneg y Hy) as [d' [Hd' Dp]]. rewrite Hd in Hd'. injection Hd' as <- _.
  destruct (is_median_exists y Hy) as [m Mm]. assert (Im : lo <= m <= hi) by (apply (C97_median_robust y lo hi m (length y)); [apply median_iff; auto|exact Hc]).
  exists (map (fun x => 0.6745 * (x - m) / d) y), (0.6745 * (x - m) / d). split; [apply (C08_mod_zscore y m d n); assumption|].
  split; [rewrite nth_error_map, Hx; reflexivity|]. assert (P : 0 < d) by lra.
  assert (G : forall u w, 0 <= u <= w -> u / (hi - lo) <= w / d).
  { intros u w [U W]. unfold Rdiv. apply Rmult_le_compat; [exact U|left; apply Rinv_0_lt_compat; lra|exact W|apply Rinv_le_contravar; lra]. }
  split; intros Hxx.
  - apply G. lra.
  - replace (0.6745 * (x - m) / d) with (- (0.6745 * (m - x) / d)) by (field; lra). apply Ropp_le_contravar, G. lra.
Qed.
Print Assumptions C141_outlier.

Lemma med3 a b c : a <= b -> b <= c -> is_median [a; b; c] b.
Proof. intros. exists [a; b; c]. split; [apply Permutation_refl|]. split; [|left; exists 1%nat; auto]. apply SSorted_cons; [apply SSorted_cons; [apply SSorted_cons; [apply SSorted_nil|apply Forall_nil]|apply Forall_cons; [lra|apply Forall_nil]]|apply Forall_cons; [lra|apply Forall_cons; [lra|apply Forall_nil]]]. Qed.
(** Samples 1, 2, 6 and 4, 5, 5. *)
Example C141_ex : mean [1; 2; 6] = (3, 3%nat) /\ median [1; 2; 6] = Ok (2, 3%nat) /\ median [4; 5; 5] = Ok (5, 3%nat) /\
  exists r, median [1; 2; 6; 4; 5; 5] = Ok (r, 6%nat) /\ 2 <= r <= 5.
Proof.
  assert (A : median [1; 2; 6] = Ok (2, 3%nat)) by (apply median_iff; [discriminate|split; [apply med3; lra|reflexivity]]).
  assert (B : median [4; 5; 5] = Ok (5, 3%nat)) by (apply median_iff; [discriminate|split; [apply med3; lra|reflexivity]]).
  split; [apply C05_ex|]. split; [exact A|]. split; [exact B|].
  destruct (C141_median_join [1; 2; 6] [4; 5; 5] 2 3 5 3 ltac:(discriminate) ltac:(discriminate) A B) as [r [E H]]. rewrite Rmin_left, Rmax_right in H by lra. exists r. split; [exact E|exact H].
Qed.
(** Of 1, 2 and 100, the first two lie in [1, 2]; the modified z-score of the third is at least 66. *)
Example C141_outlier_ex : exists s v, mod_zscore [1; 2; 100] = Ok s /\ nth_error s 2 = Some v /\ 66 <= v.
Proof.
  assert (Hd : median_abs_deviation [1; 2; 100] = Ok (1, 3%nat)).
  { apply C08_mad; [discriminate|]. split; [reflexivity|]. exists 2. split; [apply med3; lra|]. cbn [map].
    replace (Rabs (1 - 2)) with 1 by (rewrite Rabs_left; lra). replace (Rabs (2 - 2)) with 0 by (rewrite Rabs_right; lra). replace (Rabs (100 - 2)) with 98 by (rewrite Rabs_right; lra).
    destruct (med3 0 1 98 ltac:(lra) ltac:(lra)) as [s [P S]]. exists s. split; [|exact S]. eapply Permutation_trans; [apply perm_swap|exact P]. }
  destruct (C141_outlier [1; 2; 100] 1 2 1 3 2 100 Hd ltac:(lra)) as [s [v [Es [Ev [H _]]]]].
  - unfold Rleb. cbn [filter]. repeat match goal with |- context [Rle_dec ?a ?b] => destruct (Rle_dec a b); try lra end. cbn. lia.
  - reflexivity.
  - exists s, v. split; [exact Es|]. split; [exact Ev|]. specialize (H ltac:(lra)). lra.
Qed.
