(** median over R, median absolute deviation, modified z-score. *)
From Coq Require Import List Arith ZArith Bool Lia Permutation Sorted Reals Lra Qreals.
From Verif Require Import Base Num MachInt M_Stats S_Stats P_Median P_Stats.
Import ListNotations.
Local Open Scope R_scope.

Lemma sorted_R s : StronglySorted (fun a b => Rltb b a = false) s <-> StronglySorted Rle s.
Proof.
  split; induction 1 as [|a l H IH F]; constructor; auto; eapply Forall_impl; try exact F;
    cbn; intros x; apply Rltb_false.
Qed.

Lemma div_2k1 k : ((2 * k + 1) / 2)%nat = k.
Proof. rewrite Nat.mul_comm, Nat.div_add_l by lia. cbn. lia. Qed.
Lemma mod_2k1 k : ((2 * k + 1) mod 2)%nat = 1%nat.
Proof. rewrite Nat.add_comm, Nat.mul_comm, Nat.mod_add by lia. reflexivity. Qed.
Lemma div_2k2 k : ((2 * k + 2) / 2)%nat = S k.
Proof. replace (2 * k + 2)%nat with (S k * 2)%nat by lia. apply Nat.div_mul. lia. Qed.
Lemma mod_2k2 k : ((2 * k + 2) mod 2)%nat = 0%nat.
Proof. replace (2 * k + 2)%nat with (S k * 2)%nat by lia. apply Nat.mod_mul. lia. Qed.

Lemma is_median_median y m : is_median y m -> median y = Ok (m, length y).
Proof.
  intros (s & P & Ss & D). pose proof (Permutation_length P) as L.
  destruct (median_sorted Rltb 0 (fun a b => Ok ((a + b) / IZR 2)) y s (Rltb_total y)
              (conj P (proj2 (sorted_R s) Ss))) as (M1 & M2 & _).
  unfold median. change (@nltb R RNum) with Rltb. change (@nzero R RNum) with 0.
  destruct D as [(k & Lk & Nk)|(k & a & b & Lk & Na & Nb & ->)].
  - apply M1; rewrite L, Lk; [apply mod_2k1|rewrite div_2k1; exact Nk].
  - apply (M2 a b); rewrite L, Lk; [apply mod_2k2|lia|rewrite div_2k2|rewrite div_2k2; exact Nb].
    replace (S k - 1)%nat with k by lia. exact Na.
Qed.

Lemma is_median_exists y : y <> [] -> exists m, is_median y m.
Proof.
  intros Hne. destruct (isort_sorted Rltb y (proj1 (Rltb_total y))) as [P S].
  set (s := isort Rltb y) in *. apply sorted_R in S. pose proof (Permutation_length P) as L.
  assert (Hl : (0 < length s)%nat) by (rewrite <- L; destruct y; [congruence|cbn; lia]).
  destruct (Nat.Even_or_Odd (length s)) as [[k Hk]|[k Hk]].
  - destruct (nth_error s (k - 1)) as [a|] eqn:Ea; [|apply nth_error_None in Ea; lia].
    destruct (nth_error s k) as [b|] eqn:Eb; [|apply nth_error_None in Eb; lia].
    exists ((a + b) / 2), s. split; [exact P|]. split; [exact S|]. right.
    exists (k - 1)%nat, a, b. replace (Datatypes.S (k - 1)) with k by lia.
    split; [lia|auto].
  - destruct (nth_error s k) as [a|] eqn:Ea; [|apply nth_error_None in Ea; lia].
    exists a, s. split; [exact P|]. split; [exact S|]. left. exists k. auto.
Qed.

Lemma median_iff y m n : y <> [] -> median y = Ok (m, n) <-> is_median y m /\ n = length y.
Proof.
  intros Hne. split.
  - intros E. destruct (is_median_exists y Hne) as [m' Hm'].
    rewrite (is_median_median y m' Hm') in E. injection E as <- <-. auto.
  - intros [H ->]. apply is_median_median. exact H.
Qed.

Lemma is_median_unique y m m' : is_median y m -> is_median y m' -> m = m'.
Proof. intros H H'. apply is_median_median in H, H'. rewrite H in H'. congruence. Qed.

Lemma nth_error_rev {A} (l : list A) k : (k < length l)%nat ->
  nth_error (rev l) k = nth_error l (length l - 1 - k).
Proof.
  intros H. destruct (nth_error l (length l - 1 - k)) as [a|] eqn:E;
    [|apply nth_error_None in E; lia].
  rewrite (nth_error_nth' (rev l) a) by (rewrite rev_length; exact H).
  rewrite rev_nth by exact H. f_equal.
  replace (length l - S k)%nat with (length l - 1 - k)%nat by lia.
  apply nth_error_nth. exact E.
Qed.

Lemma sorted_map_mono (f : R -> R) l : (forall a b, a <= b -> f a <= f b) ->
  StronglySorted Rle l -> StronglySorted Rle (map f l).
Proof.
  intros M. induction 1 as [|a l H IH F]; cbn; constructor; auto.
  apply Forall_map. eapply Forall_impl; [|exact F]. auto.
Qed.

Lemma sorted_snoc l a : StronglySorted Rle l -> Forall (fun x => x <= a) l ->
  StronglySorted Rle (l ++ [a]).
Proof.
  induction 1 as [|b l H IH F]; intros G; cbn.
  - constructor; constructor.
  - inversion G; subst. constructor; [apply IH; assumption|].
    apply Forall_app. split; [exact F|]. constructor; [assumption|constructor].
Qed.

Lemma sorted_map_anti (f : R -> R) l : (forall a b, a <= b -> f b <= f a) ->
  StronglySorted Rle l -> StronglySorted Rle (rev (map f l)).
Proof.
  intros M. induction 1 as [|a l H IH F]; cbn; [constructor|].
  apply sorted_snoc; [exact IH|]. apply Forall_rev. apply Forall_map.
  eapply Forall_impl; [|exact F]. cbn. auto.
Qed.

Lemma is_median_affine y m a b : is_median y m ->
  is_median (map (fun x => a * x + b) y) (a * m + b).
Proof.
  intros (s & P & Ss & D). set (f := fun x => a * x + b).
  destruct (Rle_lt_dec 0 a) as [Ha|Ha].
  - exists (map f s). split; [apply Permutation_map; exact P|].
    split; [apply sorted_map_mono; [|exact Ss]; unfold f; intros; nra|].
    rewrite map_length. destruct D as [(k & Lk & Nk)|(k & u & v & Lk & Nu & Nv & ->)].
    + left. exists k. split; [exact Lk|]. apply (map_nth_error f). exact Nk.
    + right. exists k, (f u), (f v). split; [exact Lk|].
      split; [apply map_nth_error; exact Nu|]. split; [apply map_nth_error; exact Nv|]. unfold f. lra.
  - exists (rev (map f s)).
    split; [eapply Permutation_trans; [apply Permutation_map; exact P|apply Permutation_rev]|].
    split; [apply sorted_map_anti; [|exact Ss]; unfold f; intros; nra|].
    rewrite rev_length, map_length. destruct D as [(k & Lk & Nk)|(k & u & v & Lk & Nu & Nv & ->)].
    + left. exists k. split; [exact Lk|]. rewrite nth_error_rev by (rewrite map_length; lia).
      rewrite map_length. replace (length s - 1 - k)%nat with k by lia.
      apply (map_nth_error f). exact Nk.
    + right. exists k, (f v), (f u). split; [exact Lk|].
      rewrite !nth_error_rev by (rewrite map_length; lia). rewrite map_length.
      replace (length s - 1 - k)%nat with (S k) by lia.
      replace (length s - 1 - S k)%nat with k by lia.
      split; [apply map_nth_error; exact Nv|]. split; [apply map_nth_error; exact Nu|]. unfold f. lra.
Qed.

Lemma is_median_nonneg y m : (forall x, In x y -> 0 <= x) -> is_median y m -> 0 <= m.
Proof.
  intros H (s & P & Ss & D).
  assert (Hs : forall k x, nth_error s k = Some x -> 0 <= x).
  { intros k x E. apply H. eapply Permutation_in; [apply Permutation_sym; exact P|].
    eapply nth_error_In; exact E. }
  destruct D as [(k & Lk & Nk)|(k & u & v & Lk & Nu & Nv & ->)].
  - eapply Hs; eauto.
  - apply Hs in Nu, Nv. lra.
Qed.

Lemma map_ne {A B} (f : A -> B) l : l <> [] -> map f l <> [].
Proof. destruct l; cbn; congruence. Qed.

(** [d] is the median absolute deviation of [y]. *)
Lemma mad_iff y d n : y <> [] ->
  median_abs_deviation y = Ok (d, n) <->
  (n = length y /\ exists m, is_median y m /\ is_median (map (fun x => Rabs (x - m)) y) d).
Proof.
  intros Hne. unfold median_abs_deviation. destruct (is_median_exists y Hne) as [m Hm].
  rewrite (is_median_median y m Hm). cbn [bind].
  change (map (fun yi => nabs (nsub yi m)) y) with (map (fun x => Rabs (x - m)) y).
  rewrite median_iff by (apply map_ne; exact Hne). rewrite map_length. split.
  - intros [H ->]. split; [reflexivity|]. exists m. auto.
  - intros [-> (m' & H1 & H2)]. rewrite <- (is_median_unique y m m' Hm H1) in H2. auto.
Qed.

Lemma mad_exists y : y <> [] -> exists d, median_abs_deviation y = Ok (d, length y) /\ 0 <= d.
Proof.
  intros Hne. destruct (is_median_exists y Hne) as [m Hm].
  destruct (is_median_exists (map (fun x => Rabs (x - m)) y) (map_ne _ _ Hne)) as [d Hd].
  exists d. split; [apply mad_iff; eauto|].
  eapply is_median_nonneg; [|exact Hd]. intros x Hx. apply in_map_iff in Hx.
  destruct Hx as [z [<- _]]. apply Rabs_pos.
Qed.

Lemma mad_affine y a b d n : y <> [] -> median_abs_deviation y = Ok (d, n) ->
  median_abs_deviation (map (fun x => a * x + b) y) = Ok (Rabs a * d, n).
Proof.
  intros Hne H. apply mad_iff in H; [|exact Hne]. destruct H as [-> (m & H1 & H2)].
  apply mad_iff; [apply map_ne; exact Hne|]. rewrite map_length. split; [reflexivity|].
  exists (a * m + b). split; [apply is_median_affine; exact H1|].
  rewrite map_map. pose proof (is_median_affine _ _ (Rabs a) 0 H2) as H3.
  rewrite map_map in H3. rewrite Rplus_0_r in H3.
  erewrite map_ext; [exact H3|]. intros x. cbn. rewrite Rplus_0_r, <- Rabs_mult.
  f_equal. ring.
Qed.

Lemma mod_zscore_eq y m d n : y <> [] -> is_median y m -> median_abs_deviation y = Ok (d, n) ->
  mod_zscore y = Ok (map (fun x => 0.6745 * (x - m) / d) y).
Proof.
  intros Hne Hm Hd. unfold mod_zscore. rewrite (is_median_median y m Hm), Hd. cbn [bind].
  f_equal. apply map_ext. intros x. cbn. f_equal.
  unfold Q2R. cbn. lra.
Qed.

Lemma mod_zscore_affine y a b d n : y <> [] -> 0 < a ->
  median_abs_deviation y = Ok (d, n) -> d <> 0 ->
  mod_zscore (map (fun x => a * x + b) y) = mod_zscore y.
Proof.
  intros Hne Ha Hd Hd0. destruct (is_median_exists y Hne) as [m Hm].
  rewrite (mod_zscore_eq y m d n Hne Hm Hd).
  rewrite (mod_zscore_eq _ (a * m + b) (Rabs a * d) n (map_ne _ _ Hne)
             (is_median_affine y m a b Hm) (mad_affine y a b d n Hne Hd)).
  f_equal. rewrite map_map. apply map_ext. intros x. rewrite Rabs_right by lra. field. split; lra.
Qed.
