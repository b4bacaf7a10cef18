(** How the statistics of stats.rs relate to one another, in exact arithmetic: what mean
    and median minimise, how far apart they can be, how large a z-score can be, and how
    much of a sample has to be wrong before the median is. *)
From Coq Require Import Reals List Permutation Sorted Lia Lra.
From Verif Require Import Base Num M_Stats S_Stats P_Stats P_Stats2 P_FloatMad T_Stats.
Import ListNotations.
Local Open Scope R_scope.

(** Number of samples satisfying a test, as a real. *)
Definition cnt (p : R -> bool) (l : list R) : R := Rsum (map (fun x => if p x then 1 else 0) l).
Lemma cnt_filter p l : cnt p l = INR (length (filter p l)).
Proof.
  unfold cnt. induction l as [|a l IH]; [reflexivity|]. cbn [map filter]. rewrite Rsum_cons, IH. destruct (p a); [|ring].
  cbn [length]. rewrite S_INR. ring.
Qed.
Lemma cnt_perm p l m : Permutation l m -> cnt p l = cnt p m.
Proof. intros H. apply Rsum_perm, Permutation_map, H. Qed.
Lemma cnt_all p l : (forall x, In x l -> p x = true) -> cnt p l = INR (length l).
Proof.
  intros H. unfold cnt. rewrite (map_ext_in _ (fun _ => 1)); [rewrite Rsum_const; ring|]. intros x Hx. rewrite H by exact Hx. reflexivity.
Qed.
Lemma cnt_nonneg p l : 0 <= cnt p l.
Proof. rewrite cnt_filter. apply pos_INR. Qed.
Lemma cnt_app p l m : cnt p (l ++ m) = cnt p l + cnt p m.
Proof. unfold cnt. rewrite map_app, Rsum_app. reflexivity. Qed.
Lemma cnt_disjoint p q l : (forall x, p x = true -> q x = true -> False) -> cnt p l + cnt q l <= INR (length l).
Proof.
  intros H. unfold cnt. rewrite <- Rsum_plus. rewrite <- (Rmult_1_r (INR _)), <- (Rsum_const 1 l). apply Rsum_le. intros x _.
  specialize (H x). destruct (p x), (q x); try lra; exfalso; apply H; reflexivity.
Qed.
Lemma sorted_split (s : list R) k a : StronglySorted Rle s -> nth_error s k = Some a ->
  (forall x, In x (firstn (S k) s) -> x <= a) /\ (forall x, In x (skipn k s) -> a <= x).
Proof.
  revert k. induction s as [|b s IH]; intros k H E; [destruct k; discriminate E|]. inversion H as [|? ? Hs Hb]; subst. rewrite Forall_forall in Hb.
  destruct k as [|k].
  - injection E as ->. cbn [firstn skipn]. split; intros x [->|Hx]; try lra; [destruct Hx|apply Hb, Hx].
  - cbn [nth_error] in E. destruct (IH k Hs E) as [A B]. split.
    + intros x Hx. change (In x (b :: firstn (S k) s)) in Hx. destruct Hx as [->|Hx]; [|apply A, Hx]. apply Hb. eapply nth_error_In; exact E.
    + intros x Hx. apply B. exact Hx.
Qed.
Lemma median_counts y m : is_median y m -> exists a b, m = (a + b) / 2 /\ a <= m <= b /\
  INR (length y) <= 2 * cnt (fun x => Rleb x a) y /\ INR (length y) <= 2 * cnt (fun x => Rleb b x) y.
Proof.
  intros [s [P [S H]]]. rewrite (Permutation_length P).
  assert (LE : forall k a, nth_error s k = Some a -> INR (k + 1) <= cnt (fun x => Rleb x a) s).
  { intros k a E. destruct (sorted_split s k a S E) as [A _]. rewrite <- (firstn_skipn (Datatypes.S k) s) at 1. rewrite cnt_app, cnt_all.
    - rewrite firstn_length. assert (nth_error s k <> None) by (rewrite E; discriminate). apply nth_error_Some in H0.
      rewrite Nat.min_l by lia. pose proof (cnt_nonneg (fun x => Rleb x a) (skipn (Datatypes.S k) s)). replace (k + 1)%nat with (Datatypes.S k) by lia. lra.
    - intros x Hx. specialize (A x Hx). unfold Rleb. destruct (Rle_dec x a); [reflexivity|contradiction]. }
  assert (GE : forall k a, nth_error s k = Some a -> INR (length s - k) <= cnt (fun x => Rleb a x) s).
  { intros k a E. destruct (sorted_split s k a S E) as [_ B]. rewrite <- (firstn_skipn k s) at 2. rewrite cnt_app, (cnt_all _ (skipn k s)).
    - rewrite skipn_length. pose proof (cnt_nonneg (fun x => Rleb a x) (firstn k s)). lra.
    - intros x Hx. specialize (B x Hx). unfold Rleb. destruct (Rle_dec a x); [reflexivity|contradiction]. }
  destruct H as [[k [L E]]|[k [a [b [L [E1 [E2 ->]]]]]]].
  - exists m, m. split; [lra|]. split; [lra|]. rewrite !(cnt_perm _ _ _ P). specialize (LE _ _ E). specialize (GE _ _ E).
    replace (length s - k)%nat with (k + 1)%nat in GE by lia. rewrite L. rewrite plus_INR in *. rewrite mult_INR. cbn [INR] in *. lra.
  - exists a, b. split; [reflexivity|]. rewrite !(cnt_perm _ _ _ P). specialize (LE _ _ E1). specialize (GE _ _ E2).
    replace (length s - Datatypes.S k)%nat with (k + 1)%nat in GE by lia. rewrite L.
    assert (a <= b). { destruct (sorted_split s k a S E1) as [_ B]. apply B.
      assert (Hsk : nth_error (skipn k s) 1 = Some b).
      { rewrite <- (firstn_skipn k s), nth_error_app2 in E2 by (rewrite firstn_length; lia). rewrite firstn_length in E2. assert (k <= length s)%nat by lia.
        rewrite Nat.min_l in E2 by lia. replace (Datatypes.S k - k)%nat with 1%nat in E2 by lia. exact E2. }
      eapply nth_error_In; exact Hsk. }
    split; [lra|]. rewrite plus_INR in *. rewrite mult_INR. cbn [INR] in *. lra.
Qed.

(** The mean minimises the sum of squared deviations, the median the sum of absolute ones. *)
Theorem C97_mean_minimises (y : list R) c : y <> [] ->
  Rsum (map (fun x => (x - fst (mean y)) ^ 2) y) <= Rsum (map (fun x => (x - c) ^ 2) y) /\
  (c <> fst (mean y) -> Rsum (map (fun x => (x - fst (mean y)) ^ 2) y) < Rsum (map (fun x => (x - c) ^ 2) y)).
Proof.
  intros Hy. destruct (C05_mean y) as [M _]. rewrite (M Hy). cbn [fst]. set (mu := Rsum y / INR (length y)).
  assert (N : 0 < INR (length y)) by (apply lt_0_INR; destruct y; [congruence|cbn; lia]).
  assert (E : Rsum (map (fun x => (x - c) ^ 2) y) = Rsum (map (fun x => (x - mu) ^ 2) y) + INR (length y) * (mu - c) ^ 2).
  { rewrite (map_ext _ (fun x => (x - mu) ^ 2 + (2 * (mu - c) * x + (c ^ 2 - mu ^ 2)))) by (intros; ring).
    rewrite Rsum_plus, Rsum_affine. replace (Rsum y) with (INR (length y) * mu) by (unfold mu; field; lra). ring. }
  rewrite E. split; [pose proof (pow2_ge_0 (mu - c)); nra|]. intros Hc. assert (0 < (mu - c) ^ 2) by (rewrite <- Rsqr_pow2; apply Rsqr_pos_lt; lra). nra.
Qed.
Print Assumptions C97_mean_minimises.
Theorem C97_median_minimises (y : list R) m n c : y <> [] -> median y = Ok (m, n) ->
  Rsum (map (fun x => Rabs (x - m)) y) <= Rsum (map (fun x => Rabs (x - c)) y).
Proof.
  intros Hy H. apply median_iff in H; [|exact Hy]. destruct H as [H _]. destruct (median_counts y m H) as [a [b [Em [[Ha Hb] [C1 C2]]]]].
  assert (Q : forall (p : R -> bool) (d : R), Rsum (map (fun x => d * (if p x then 1 else 0) + - d * (1 - (if p x then 1 else 0))) y) = d * (2 * cnt p y - INR (length y))).
  { intros p d. rewrite (map_ext _ (fun x => 2 * d * (if p x then 1 else 0) + - d)) by (intros; ring).
    pose proof (map_map (fun x => if p x then 1 else 0) (fun z => 2 * d * z + - d) y) as MM. cbv beta in MM. rewrite <- MM, Rsum_affine, map_length. unfold cnt. ring. }
  assert (G : forall f : R -> R, (forall x, f x <= Rabs (x - c) - Rabs (x - m)) -> 0 <= Rsum (map f y) -> Rsum (map (fun x => Rabs (x - m)) y) <= Rsum (map (fun x => Rabs (x - c)) y)).
  { intros f Hf H0. assert (L : Rsum (map (fun x => f x + Rabs (x - m)) y) <= Rsum (map (fun x => Rabs (x - c)) y)) by (apply Rsum_le; intros x _; specialize (Hf x); lra).
    rewrite Rsum_plus in L. lra. }
  destruct (Rle_dec m c) as [Hc|Hc].
  - apply (G (fun x => (c - m) * (if Rleb x a then 1 else 0) + - (c - m) * (1 - (if Rleb x a then 1 else 0)))).
    + intros x. unfold Rleb. destruct (Rle_dec x a); unfold Rabs; destruct (Rcase_abs (x - c)), (Rcase_abs (x - m)); lra.
    + rewrite (Q (fun x => Rleb x a)). apply Rmult_le_pos; lra.
  - apply (G (fun x => (m - c) * (if Rleb b x then 1 else 0) + - (m - c) * (1 - (if Rleb b x then 1 else 0)))).
    + intros x. unfold Rleb. destruct (Rle_dec b x); unfold Rabs; destruct (Rcase_abs (x - c)), (Rcase_abs (x - m)); lra.
    + rewrite (Q (fun x => Rleb b x)). apply Rmult_le_pos; lra.
Qed.
Print Assumptions C97_median_minimises.

Lemma cauchy (l : list R) : Rsum l ^ 2 <= INR (length l) * Rsum (map (fun x => x ^ 2) l).
Proof.
  destruct l as [|a l]; [cbn; lra|]. set (y := a :: l). assert (Hy : y <> []) by discriminate.
  pose proof (Rvar_nonneg y) as V. rewrite (Rvar_moments y Hy) in V. unfold Rmean in V. rewrite map_length in V.
  assert (N : 0 < INR (length y)) by (apply lt_0_INR; cbn; lia).
  apply (Rmult_le_reg_r (/ INR (length y) ^ 2)); [apply Rinv_0_lt_compat, pow_lt, N|].
  replace (Rsum y ^ 2 * / INR (length y) ^ 2) with ((Rsum y / INR (length y)) ^ 2) by (field; lra).
  replace (INR (length y) * Rsum (map (fun x => x ^ 2) y) * / INR (length y) ^ 2) with (Rsum (map (fun x => x ^ 2) y) / INR (length y)) by (field; lra). lra.
Qed.
Lemma Rsum_abs l : Rabs (Rsum l) <= Rsum (map Rabs l).
Proof. induction l as [|a l IH]; cbn [map]; [cbn; rewrite Rabs_R0; lra|]. rewrite !Rsum_cons. eapply Rle_trans; [apply Rabs_triang|lra]. Qed.

(** Mean and median are at most one standard deviation apart. *)
Theorem C97_mean_median_stdev (y : list R) m n : y <> [] -> median y = Ok (m, n) ->
  Rabs (fst (mean y) - m) <= fst (stdev y).
Proof.
  intros Hy H. pose proof (C97_median_minimises y m n (fst (mean y)) Hy H) as Mn.
  destruct (C06_variance y Hy) as [_ [S _]]. rewrite S. destruct (C05_mean y) as [M _]. rewrite (M Hy) in *. cbn [fst] in *. set (mu := Rsum y / INR (length y)) in *.
  assert (N : 0 < INR (length y)) by (apply lt_0_INR; destruct y; [congruence|cbn; lia]).
  assert (A : Rabs (mu - m) * INR (length y) <= Rsum (map (fun x => Rabs (x - m)) y)).
  { replace (Rabs (mu - m) * INR (length y)) with (Rabs (Rsum (map (fun x => x - m) y))).
    - eapply Rle_trans; [apply Rsum_abs|]. rewrite map_map. lra.
    - rewrite (map_ext _ (fun x => 1 * x + - m)) by (intros; ring). rewrite Rsum_affine.
      replace (1 * Rsum y + INR (length y) * - m) with ((mu - m) * INR (length y)) by (unfold mu; field; lra).
      rewrite Rabs_mult, (Rabs_pos_eq (INR _)) by lra. reflexivity. }
  pose proof (cauchy (map (fun x => Rabs (x - mu)) y)) as C. rewrite map_length, map_map in C.
  rewrite (map_ext (fun x => Rabs (x - mu) ^ 2) (fun x => (x - mu) ^ 2)) in C by (intros; rewrite <- !Rsqr_pow2, <- Rsqr_abs; reflexivity).
  set (D := Rsum (map (fun x => Rabs (x - mu)) y)) in *.
  assert (D0 : 0 <= D) by (apply Rsum_nonneg; intros x Hx; apply in_map_iff in Hx; destruct Hx as [z [<- _]]; apply Rabs_pos).
  assert (V : Rvar y = Rsum (map (fun x => (x - mu) ^ 2) y) / INR (length y)) by (unfold Rvar, Rmean; rewrite map_length; reflexivity).
  assert (V2 : (D / INR (length y)) ^ 2 <= Rvar y).
  { rewrite V. set (T := Rsum (map (fun x => (x - mu) ^ 2) y)) in *. replace ((D / INR (length y)) ^ 2) with (D ^ 2 / (INR (length y) * INR (length y))) by (field; lra).
    replace (T / INR (length y)) with (INR (length y) * T / (INR (length y) * INR (length y))) by (field; lra).
    apply Rmult_le_compat_r; [apply Rlt_le, Rinv_0_lt_compat; nra|exact C]. }
  apply Rle_trans with (D / INR (length y)).
  - apply (Rmult_le_reg_r (INR (length y))); [exact N|]. replace (D / INR (length y) * INR (length y)) with D by (field; lra). lra.
  - rewrite <- (sqrt_pow2 (D / INR (length y))); [apply sqrt_le_1_alt, V2|]. apply Rmult_le_pos; [exact D0|apply Rlt_le, Rinv_0_lt_compat, N].
Qed.
Print Assumptions C97_mean_median_stdev.

(** No z-score of n samples exceeds the square root of n - 1. *)
Theorem C97_zscore_bound (y : list R) z : not_all_equal y -> In z (zscore y) -> Rabs z <= sqrt (INR (length y) - 1).
Proof.
  intros NE Hz. assert (Hy : y <> []) by (destruct NE as [a [b [Ha _]]]; intros ->; destruct Ha).
  destruct (C07_zscore y) as [E _]. rewrite E in Hz. apply in_map_iff in Hz. destruct Hz as [x [<- Hx]].
  assert (N : 1 <= INR (length y)) by (apply (le_INR 1); destruct y; [congruence|cbn; lia]).
  destruct (C06_variance y Hy) as [_ [_ [_ [V0 VZ]]]].
  assert (VP : 0 < Rvar y). { destruct V0 as [V0|V0]; [exact V0|]. exfalso. destruct NE as [a [b [Ha [Hb Hab]]]]. apply Hab. apply (proj1 VZ); [symmetry; exact V0|exact Ha|exact Hb]. }
  set (mu := Rmean y) in *. destruct (in_split _ _ Hx) as [l1 [l2 Es]].
  assert (S0 : x - mu + Rsum (map (fun v => v - mu) (l1 ++ l2)) = 0).
  { rewrite <- Rsum_cons. change (x - mu :: map (fun v => v - mu) (l1 ++ l2)) with (map (fun v => v - mu) (x :: l1 ++ l2)).
    rewrite (Rsum_perm _ (map (fun v => v - mu) y)) by (apply Permutation_map; rewrite Es; apply Permutation_middle).
    rewrite (map_ext _ (fun v => 1 * v + - mu)) by (intros; ring). rewrite Rsum_affine. unfold mu, Rmean. field. lra. }
  assert (V2 : (x - mu) ^ 2 + Rsum (map (fun v => (v - mu) ^ 2) (l1 ++ l2)) = INR (length y) * Rvar y).
  { rewrite <- Rsum_cons. change ((x - mu) ^ 2 :: map (fun v => (v - mu) ^ 2) (l1 ++ l2)) with (map (fun v => (v - mu) ^ 2) (x :: l1 ++ l2)).
    rewrite (Rsum_perm _ (map (fun v => (v - mu) ^ 2) y)) by (apply Permutation_map; rewrite Es; apply Permutation_middle).
    unfold Rvar. fold mu. unfold Rmean. rewrite map_length. field. lra. }
  pose proof (cauchy (map (fun v => v - mu) (l1 ++ l2))) as C. rewrite map_length, map_map in C.
  assert (Ln : INR (length (l1 ++ l2)) = INR (length y) - 1) by (rewrite Es, !app_length; cbn [length]; rewrite !plus_INR, S_INR; ring).
  rewrite Ln in C. set (n := INR (length y)) in *. set (T := Rsum (map (fun v => (v - mu) ^ 2) (l1 ++ l2))) in *.
  replace (Rsum (map (fun v => v - mu) (l1 ++ l2))) with (- (x - mu)) in C by lra. set (d := x - mu) in *.
  assert (B : d ^ 2 <= (n - 1) * Rvar y).
  { replace T with (n * Rvar y - d ^ 2) in C by lra. assert (n * (d ^ 2) <= n * ((n - 1) * Rvar y)) by nra. apply (Rmult_le_reg_l n); [lra|exact H]. }
  rewrite <- sqrt_Rsqr_abs. apply sqrt_le_1_alt. rewrite Rsqr_pow2.
  replace ((d / sqrt (Rvar y)) ^ 2) with (d ^ 2 / Rvar y).
  - apply (Rmult_le_reg_r (Rvar y)); [exact VP|]. replace (d ^ 2 / Rvar y * Rvar y) with (d ^ 2) by (field; lra). exact B.
  - rewrite <- (sqrt_sqrt (Rvar y)) at 1 by lra. field. apply Rgt_not_eq, sqrt_lt_R0, VP.
Qed.
Print Assumptions C97_zscore_bound.

(** The square of the root mean square is the square of the mean plus the variance. *)
Theorem C97_rms_mean_variance (y : list R) : y <> [] ->
  rms_fast32 y ^ 2 = fst (mean y) ^ 2 + fst (variance y) /\ Rabs (fst (mean y)) <= rms_fast32 y /\ fst (stdev y) <= rms_fast32 y.
Proof.
  intros Hy. destruct (C06_variance y Hy) as [V [S [M [V0 _]]]]. rewrite (C11_rms y Hy), V, S. destruct (C05_mean y) as [Me _]. rewrite (Me Hy). cbn [fst].
  change (Rsum y / INR (length y)) with (Rmean y). unfold Rmean at 1 in M. rewrite map_length in M.
  set (q := Rsum (map (fun x => x ^ 2) y) / INR (length y)) in *. assert (Q : q = Rmean y ^ 2 + Rvar y) by lra.
  pose proof (pow2_ge_0 (Rmean y)). split; [|split].
  - rewrite <- Rsqr_pow2, Rsqr_sqrt by lra. exact Q.
  - rewrite <- sqrt_Rsqr_abs. apply sqrt_le_1_alt. rewrite Rsqr_pow2. lra.
  - apply sqrt_le_1_alt. lra.
Qed.
Print Assumptions C97_rms_mean_variance.

(** As long as more than half of the samples lie in an interval, so does the median. *)
Theorem C97_median_robust (y : list R) lo hi m n : median y = Ok (m, n) ->
  (length y < 2 * length (filter (fun x => Rleb lo x && Rleb x hi) y))%nat -> lo <= m <= hi.
Proof.
  intros H Hc. assert (Hy : y <> []) by (intros ->; cbn in Hc; lia). apply median_iff in H; [|exact Hy]. destruct H as [H _].
  destruct (median_counts y m H) as [a [b [Em [[Ha Hb] [C1 C2]]]]].
  apply lt_INR in Hc. rewrite mult_INR, <- cnt_filter in Hc. cbn [INR] in Hc. split.
  - destruct (Rle_dec lo a) as [Q|Q]; [lra|]. exfalso.
    pose proof (cnt_disjoint (fun x => Rleb x a) (fun x => Rleb lo x && Rleb x hi)%bool y) as D. lapply D; [intros; lra|].
    intros x. unfold Rleb. destruct (Rle_dec x a), (Rle_dec lo x); cbn; intros; try discriminate; lra.
  - destruct (Rle_dec b hi) as [Q|Q]; [lra|]. exfalso.
    pose proof (cnt_disjoint (fun x => Rleb b x) (fun x => Rleb lo x && Rleb x hi)%bool y) as D. lapply D; [intros; lra|].
    intros x. unfold Rleb. destruct (Rle_dec b x), (Rle_dec x hi), (Rle_dec lo x); cbn; intros; try discriminate; lra.
Qed.
Print Assumptions C97_median_robust.
(** The median follows an affine map of the samples, decreasing ones included, and is
    monotone in the samples. *)
Theorem C97_median_affine (y : list R) m n a b : y <> [] -> median y = Ok (m, n) ->
  median (map (fun x => a * x + b) y) = Ok (a * m + b, n).
Proof.
  intros Hy H. apply median_iff in H; [|exact Hy]. destruct H as [H ->]. apply median_iff; [destruct y; [congruence|discriminate]|].
  rewrite map_length. split; [apply is_median_affine, H|reflexivity].
Qed.
Print Assumptions C97_median_affine.
Theorem C97_median_monotone (y z : list R) m n k l : y <> [] -> Forall2 Rle y z -> median y = Ok (m, n) -> median z = Ok (k, l) -> m <= k.
Proof.
  intros Hy F H1 H2. apply median_iff in H1; [|exact Hy]. apply median_iff in H2; [|intros ->; inversion F; congruence].
  destruct H1 as [H1 _]. destruct H2 as [H2 _].
  assert (E : exists w : list (R * R), map fst w = y /\ map snd w = z /\ forall p, In p w -> fst p <= snd p).
  { clear -F. induction F as [|a b y z Hab F [w [E1 [E2 H]]]].
    - exists []. repeat split. intros p [].
    - exists ((a, b) :: w). cbn. rewrite E1, E2. repeat split. intros p [<-|Hp]; [exact Hab|apply H, Hp]. }
  destruct E as [w [<- [<- Hw]]]. exact (median_mono fst snd w m k Hw H1 H2).
Qed.
Print Assumptions C97_median_monotone.

(** Five samples, one of them wild. *)
Example C97_ex : not_all_equal [1; 2; 3; 2; 1000] /\ [1; 2; 3; 2; 1000] <> [] /\
  (exists m, median [1; 2; 3; 2; 1000] = Ok (m, 5%nat)) /\
  (length [1; 2; 3; 2; 1000]%R < 2 * length (filter (fun x => Rleb 1 x && Rleb x 3) [1; 2; 3; 2; 1000]%R))%nat.
Proof.
  split; [exists 1, 2; cbn; intuition lra|]. split; [discriminate|]. split.
  - destruct (C01_median_real_total [1; 2; 3; 2; 1000] ltac:(discriminate)) as [m Hm]. exists m. apply C01_median_real; [discriminate|]. split; [exact Hm|reflexivity].
  - cbn [filter]. unfold Rleb. repeat (match goal with |- context [Rle_dec ?a ?b] => destruct (Rle_dec a b); [|try lra] end; cbn [andb]); cbn; try lia; lra.
Qed.
