(** Proofs about mean, variance, zscore, autocorrelation ... in exact arithmetic. *)
From Coq Require Import List Arith ZArith Bool Lia Permutation Sorted Reals Lra Psatz Qreals.
From Verif Require Import Base Num MachInt M_Stats S_Stats P_Median.
Import ListNotations.
Local Open Scope R_scope.

Lemma Rltb_true a b : Rltb a b = true <-> a < b.
Proof. unfold Rltb. destruct (Rlt_dec a b); split; intros; try discriminate; auto; contradiction. Qed.
Lemma Rltb_false a b : Rltb a b = false <-> b <= a.
Proof. unfold Rltb. destruct (Rlt_dec a b); split; intros; try discriminate; auto; lra. Qed.

Lemma Rltb_total (y : list R) : strict_total_on Rltb y.
Proof.
  split; [split; [|split]|].
  - intros a _. apply Rltb_false. lra.
  - intros a b c _ _ _. rewrite !Rltb_true. lra.
  - intros a b c _ _ _. rewrite !Rltb_true. lra.
  - intros a b _ _. rewrite !Rltb_false. lra.
Qed.

(** * Sums *)
Lemma fold_left_Rplus l a : fold_left Rplus l a = a + Rsum l.
Proof.
  unfold Rsum. revert a. induction l as [|x l IH]; intros a; cbn; [lra|]. rewrite IH. lra.
Qed.
Lemma nsum_Rsum l : nsum l = Rsum l.
Proof. unfold nsum. cbn. rewrite fold_left_Rplus. lra. Qed.
Lemma Rsum_cons a l : Rsum (a :: l) = a + Rsum l.
Proof. reflexivity. Qed.
Lemma Rsum_app l m : Rsum (l ++ m) = Rsum l + Rsum m.
Proof. induction l as [|a l IH]; cbn [app]; rewrite ?Rsum_cons; [cbn; lra|]. rewrite IH. lra. Qed.
Lemma Rsum_perm l m : Permutation l m -> Rsum l = Rsum m.
Proof. induction 1; rewrite ?Rsum_cons; auto; try lra. Qed.
Lemma Rsum_scale c l : Rsum (map (fun x => c * x) l) = c * Rsum l.
Proof. induction l as [|a l IH]; cbn [map]; rewrite ?Rsum_cons; [cbn; lra|]. rewrite IH. lra. Qed.
Lemma Rsum_affine c d l : Rsum (map (fun x => c * x + d) l) = c * Rsum l + INR (length l) * d.
Proof.
  induction l as [|a l IH]; cbn [map]; rewrite ?Rsum_cons; [cbn; lra|].
  rewrite IH. cbn [length]. rewrite S_INR. lra.
Qed.
Lemma Rsum_plus {A} (f g : A -> R) l :
  Rsum (map (fun x => f x + g x) l) = Rsum (map f l) + Rsum (map g l).
Proof. induction l as [|a l IH]; cbn [map]; rewrite ?Rsum_cons; [cbn; lra|]. rewrite IH. lra. Qed.
Lemma Rsum_map_scale {A} c (f : A -> R) l : Rsum (map (fun x => c * f x) l) = c * Rsum (map f l).
Proof. induction l as [|a l IH]; cbn [map]; rewrite ?Rsum_cons; [cbn; lra|]. rewrite IH. lra. Qed.
Lemma Rsum_nonneg l : (forall x, In x l -> 0 <= x) -> 0 <= Rsum l.
Proof.
  induction l as [|a l IH]; intros H; [cbn; lra|]. rewrite Rsum_cons.
  pose proof (H a (or_introl eq_refl)). assert (0 <= Rsum l) by (apply IH; intros; apply H; right; auto). lra.
Qed.
Lemma Rsum_le {A} (f g : A -> R) l : (forall x, In x l -> f x <= g x) ->
  Rsum (map f l) <= Rsum (map g l).
Proof.
  induction l as [|a l IH]; intros H; [cbn; lra|]. cbn [map]. rewrite !Rsum_cons.
  pose proof (H a (or_introl eq_refl)).
  assert (Rsum (map f l) <= Rsum (map g l)) by (apply IH; intros; apply H; right; auto). lra.
Qed.
Lemma Rsum_zero_all l : (forall x, In x l -> 0 <= x) -> Rsum l = 0 -> forall x, In x l -> x = 0.
Proof.
  induction l as [|a l IH]; intros H E x Hx; [destruct Hx|]. rewrite Rsum_cons in E.
  pose proof (H a (or_introl eq_refl)) as Ha.
  assert (Hl : 0 <= Rsum l) by (apply Rsum_nonneg; intros; apply H; right; auto).
  destruct Hx as [<-|Hx]; [lra|]. apply IH; auto; [intros; apply H; right; auto|lra].
Qed.
Lemma Rsum_const {A} c (l : list A) : Rsum (map (fun _ => c) l) = INR (length l) * c.
Proof.
  induction l as [|a l IH]; [cbn; lra|]. cbn [map length]. rewrite Rsum_cons, IH, S_INR. lra.
Qed.

Lemma INR_len_pos {A} (l : list A) : l <> [] -> 0 < INR (length l).
Proof. intros H. apply lt_0_INR. destruct l; [congruence|cbn; lia]. Qed.

Lemma IZR_of_nat n : IZR (Z.of_nat n) = INR n.
Proof. symmetry. apply INR_IZR_INZ. Qed.

(** * mean *)
Lemma mean_fold y s c :
  fold_left (fun (acc : R * nat) yi => (fst acc + yi, S (snd acc))) y (s, c) =
  (s + Rsum y, (c + length y)%nat).
Proof.
  revert s c. induction y as [|a y IH]; intros s c; cbn [fold_left].
  - cbn. f_equal; [lra|lia].
  - cbn [fst snd]. rewrite IH. cbn [length]. rewrite Rsum_cons. f_equal; [lra|lia].
Qed.

Lemma mean_eq y : y <> [] -> mean y = (Rmean y, length y).
Proof.
  intros H. unfold mean. cbn. rewrite mean_fold. cbn [Nat.add].
  destruct y as [|a y]; [congruence|]. cbn [length Nat.ltb Nat.leb].
  unfold Rmean. rewrite Rplus_0_l. f_equal. f_equal. rewrite IZR_of_nat. reflexivity.
Qed.

Lemma mean_nil : mean (@nil R) = (0, 0%nat).
Proof. reflexivity. Qed.

Lemma Rmean_bounds y lo hi : y <> [] -> (forall x, In x y -> lo <= x <= hi) -> lo <= Rmean y <= hi.
Proof.
  intros Hne H. pose proof (INR_len_pos y Hne) as P.
  assert (G : INR (length y) * lo <= Rsum y <= INR (length y) * hi).
  { clear Hne P. induction y as [|a y IH]; [cbn; lra|]. cbn [length]. rewrite S_INR, Rsum_cons.
    pose proof (H a (or_introl eq_refl)). specialize (IH (fun x Hx => H x (or_intror Hx))). lra. }
  unfold Rmean. split.
  - apply Rmult_le_reg_r with (INR (length y)); [exact P|]. field_simplify; lra.
  - apply Rmult_le_reg_r with (INR (length y)); [exact P|]. field_simplify; lra.
Qed.

Lemma Rmean_perm y z : Permutation y z -> Rmean y = Rmean z.
Proof. intros P. unfold Rmean. rewrite (Rsum_perm _ _ P), (Permutation_length P). reflexivity. Qed.

Lemma Rmean_affine y c d : y <> [] -> Rmean (map (fun x => c * x + d) y) = c * Rmean y + d.
Proof.
  intros H. pose proof (INR_len_pos y H). unfold Rmean. rewrite Rsum_affine, map_length. field. lra.
Qed.

(** * variance *)
Lemma Rvar_unfold y : Rvar y = Rsum (map (fun x => (x - Rmean y) ^ 2) y) / INR (length y).
Proof. unfold Rvar. unfold Rmean at 1. rewrite map_length. reflexivity. Qed.

Lemma variance_eq y : y <> [] -> variance y = (Rvar y, length y).
Proof.
  intros H. unfold variance. rewrite (mean_eq y H).
  assert (L : (0 <? length y)%nat = true) by (destruct y; [congruence|reflexivity]).
  rewrite L. cbn [nofZ RNum ndiv nmul nsub]. f_equal. rewrite Rvar_unfold.
  rewrite nsum_Rsum, IZR_of_nat. f_equal.
  f_equal. apply map_ext. intros a. ring.
Qed.

Lemma variance_nil : variance (@nil R) = (0, 0%nat).
Proof. reflexivity. Qed.

Lemma Rvar_nonneg y : 0 <= Rvar y.
Proof.
  unfold Rvar, Rmean at 1. destruct y as [|a y]; [cbn; unfold Rdiv; lra|].
  apply Rmult_le_pos.
  - apply Rsum_nonneg. intros x Hx. apply in_map_iff in Hx. destruct Hx as [z [<- _]]. apply pow2_ge_0.
  - left. apply Rinv_0_lt_compat. apply INR_len_pos. discriminate.
Qed.

Lemma Rvar_moments y : y <> [] -> Rvar y = Rmean (map (fun x => x ^ 2) y) - Rmean y ^ 2.
Proof.
  intros H. pose proof (INR_len_pos y H) as P. unfold Rvar. set (m := Rmean y).
  unfold Rmean at 1 2. rewrite !map_length.
  replace (Rsum (map (fun x => (x - m) ^ 2) y)) with
    (Rsum (map (fun x => x ^ 2) y) - 2 * m * Rsum y + INR (length y) * m ^ 2).
  - replace (Rsum y) with (m * INR (length y)) by (unfold m, Rmean; field; lra). field. lra.
  - clear H P. generalize m. intros c. induction y as [|a y IH]; [cbn; lra|].
    cbn [map length]. rewrite !Rsum_cons, S_INR, <- IH. ring.
Qed.

Lemma Rvar_affine y c d : y <> [] -> Rvar (map (fun x => c * x + d) y) = c ^ 2 * Rvar y.
Proof.
  intros H. rewrite !Rvar_unfold. rewrite (Rmean_affine y c d H).
  rewrite map_map, !map_length.
  rewrite (map_ext (fun x => (c * x + d - (c * Rmean y + d)) ^ 2) (fun x => c ^ 2 * (x - Rmean y) ^ 2))
    by (intros; ring).
  rewrite (Rsum_map_scale (c ^ 2) (fun x => (x - Rmean y) ^ 2)). unfold Rdiv. ring.
Qed.

Lemma Rvar_zero_iff y : y <> [] -> Rvar y = 0 <-> (forall a b, In a y -> In b y -> a = b).
Proof.
  intros H. pose proof (INR_len_pos y H) as P. split.
  - intros E. rewrite Rvar_unfold in E.
    assert (E0 : Rsum (map (fun x => (x - Rmean y) ^ 2) y) = 0).
    { apply Rmult_eq_reg_r with (/ INR (length y)); [|apply Rinv_neq_0_compat; lra].
      unfold Rdiv in E. lra. }
    assert (Z : forall a, In a y -> a = Rmean y).
    { intros a Ha. assert (Q : (a - Rmean y) ^ 2 = 0).
      { apply (Rsum_zero_all _ ltac:(intros x Hx; apply in_map_iff in Hx; destruct Hx as [z [<- _]]; apply pow2_ge_0) E0).
        apply in_map_iff. exists a. auto. }
      nra. }
    intros a b Ha Hb. rewrite (Z a Ha), (Z b Hb). reflexivity.
  - intros E. destruct y as [|a y]; [congruence|].
    assert (M : Rmean (a :: y) = a).
    { assert (B : a <= Rmean (a :: y) <= a); [|lra].
      apply Rmean_bounds; [discriminate|]. intros x Hx. rewrite (E x a Hx (or_introl eq_refl)). lra. }
    unfold Rvar. rewrite M.
    rewrite (map_ext_in _ (fun _ => 0)).
    2:{ intros x Hx. rewrite (E x a Hx (or_introl eq_refl)). ring. }
    unfold Rmean. rewrite Rsum_const. unfold Rdiv. ring.
Qed.

Lemma Rvar_pos y : not_all_equal y -> 0 < Rvar y.
Proof.
  intros (a & b & Ha & Hb & Hab). assert (y <> []) by (destruct y; [destruct Ha|discriminate]).
  destruct (Req_dec (Rvar y) 0) as [E|E].
  - exfalso. apply Hab. apply (proj1 (Rvar_zero_iff y H) E); assumption.
  - pose proof (Rvar_nonneg y). lra.
Qed.

Lemma stdev_eq y : y <> [] -> stdev y = (sqrt (Rvar y), length y).
Proof.
  intros H. unfold stdev. rewrite (variance_eq y H). destruct y; [congruence|]. reflexivity.
Qed.
Lemma stdev_nil : stdev (@nil R) = (0, 0%nat).
Proof. reflexivity. Qed.

Lemma not_all_equal_ne y : not_all_equal y -> y <> [].
Proof. intros (a & _ & Ha & _). destruct y; [destruct Ha|discriminate]. Qed.

(** * zscore *)
Lemma zscore_eq y : zscore y = map (fun x => (x - Rmean y) / sqrt (Rvar y)) y.
Proof.
  destruct y as [|a y]; [reflexivity|]. unfold zscore.
  rewrite (mean_eq (a :: y)), (stdev_eq (a :: y)) by discriminate. reflexivity.
Qed.

Lemma zscore_affine_form y : not_all_equal y ->
  zscore y = map (fun x => / sqrt (Rvar y) * x + - Rmean y / sqrt (Rvar y)) y.
Proof.
  intros H. rewrite zscore_eq. apply map_ext. intros x. unfold Rdiv. ring.
Qed.

Lemma zscore_std y : not_all_equal y -> Rmean (zscore y) = 0 /\ Rvar (zscore y) = 1.
Proof.
  intros H. pose proof (not_all_equal_ne y H) as Hne. pose proof (Rvar_pos y H) as P.
  pose proof (sqrt_lt_R0 _ P) as PS.
  rewrite (zscore_affine_form y H). split.
  - rewrite Rmean_affine by exact Hne. field. lra.
  - rewrite Rvar_affine by exact Hne.
    rewrite <- (sqrt_sqrt (Rvar y)) at 2 by lra. field. lra.
Qed.

Lemma zscore_affine y a b : not_all_equal y -> 0 < a ->
  zscore (map (fun x => a * x + b) y) = zscore y.
Proof.
  intros H Ha. pose proof (not_all_equal_ne y H) as Hne. pose proof (Rvar_pos y H) as P.
  pose proof (sqrt_lt_R0 _ P) as PS.
  rewrite !zscore_eq. rewrite (Rmean_affine y a b Hne), (Rvar_affine y a b Hne), map_map.
  apply map_ext. intros x. rewrite sqrt_mult by (try lra; apply pow2_ge_0).
  rewrite sqrt_pow2 by lra. field. split; lra.
Qed.

(** * autocorr *)
Lemma autocorr_eq y k : y <> [] ->
  autocorr y k =
  Rsum (map (fun p => (fst p - Rmean y) * (snd p - Rmean y)) (zip y (skipn k y))) / INR (length y) / Rvar y.
Proof.
  intros H. unfold autocorr. rewrite (mean_eq y H), (variance_eq y H).
  rewrite nsum_Rsum. cbn [ndiv RNum nofZ nmul nsub]. rewrite IZR_of_nat. reflexivity.
Qed.

Lemma zip_self_map (f : R -> R -> R) (y : list R) :
  map (fun p => f (fst p) (snd p)) (zip y y) = map (fun x => f x x) y.
Proof. induction y as [|a y IH]; [reflexivity|]. cbn. f_equal. exact IH. Qed.

Lemma autocorr_0 y : not_all_equal y -> autocorr y 0 = 1.
Proof.
  intros H. pose proof (not_all_equal_ne y H) as Hne. pose proof (Rvar_pos y H) as P.
  rewrite (autocorr_eq y 0 Hne). cbn [skipn].
  rewrite (zip_self_map (fun a b => (a - Rmean y) * (b - Rmean y))).
  replace (Rsum (map (fun x => (x - Rmean y) * (x - Rmean y)) y) / INR (length y)) with (Rvar y).
  - field. lra.
  - rewrite Rvar_unfold. f_equal. f_equal. apply map_ext. intros; ring.
Qed.

Lemma zip_bound (g : R -> R) (l m : list R) :
  Rabs (Rsum (map (fun p => g (fst p) * g (snd p)) (zip l m))) <=
  (Rsum (map (fun x => g x ^ 2) l) + Rsum (map (fun x => g x ^ 2) m)) / 2.
Proof.
  revert m. induction l as [|a l IH]; intros m.
  - cbn [zip map]. change (Rsum []) with 0. rewrite Rabs_R0. assert (0 <= Rsum (map (fun x => g x ^ 2) m)).
    { apply Rsum_nonneg. intros x Hx. apply in_map_iff in Hx. destruct Hx as [z [<- _]]. apply pow2_ge_0. }
    lra.
  - destruct m as [|b m].
    + cbn [zip]. change (map (fun p : R * R => g (fst p) * g (snd p)) []) with (@nil R).
      change (map (fun x => g x ^ 2) []) with (@nil R). change (Rsum []) with 0. rewrite Rabs_R0.
      assert (0 <= Rsum (map (fun x => g x ^ 2) (a :: l))).
      { apply Rsum_nonneg. intros x Hx. apply in_map_iff in Hx. destruct Hx as [z [<- _]]. apply pow2_ge_0. }
      lra.
    + cbn [zip map fst snd]. rewrite !Rsum_cons. specialize (IH m).
      eapply Rle_trans; [apply Rabs_triang|].
      assert (Rabs (g a * g b) <= (g a ^ 2 + g b ^ 2) / 2).
      { rewrite Rabs_mult. rewrite <- (pow2_abs (g a)), <- (pow2_abs (g b)).
        pose proof (Rabs_pos (g a)). pose proof (Rabs_pos (g b)).
        assert (0 <= (Rabs (g a) - Rabs (g b)) ^ 2) by apply pow2_ge_0. lra. }
      lra.
Qed.

Lemma Rsum_skipn_le (g : R -> R) k l :
  Rsum (map (fun x => g x ^ 2) (skipn k l)) <= Rsum (map (fun x => g x ^ 2) l).
Proof.
  rewrite <- (firstn_skipn k l) at 2. rewrite map_app, Rsum_app.
  assert (0 <= Rsum (map (fun x => g x ^ 2) (firstn k l))).
  { apply Rsum_nonneg. intros x Hx. apply in_map_iff in Hx. destruct Hx as [z [<- _]]. apply pow2_ge_0. }
  lra.
Qed.

Lemma autocorr_bound y k : not_all_equal y -> Rabs (autocorr y k) <= 1.
Proof.
  intros H. pose proof (not_all_equal_ne y H) as Hne. pose proof (Rvar_pos y H) as P.
  pose proof (INR_len_pos y Hne) as PL.
  rewrite (autocorr_eq y k Hne).
  pose proof (zip_bound (fun x => x - Rmean y) y (skipn k y)) as B.
  pose proof (Rsum_skipn_le (fun x => x - Rmean y) k y) as B2.
  set (S := Rsum (map _ (zip y (skipn k y)))) in *.
  assert (V : Rsum (map (fun x => (x - Rmean y) ^ 2) y) = Rvar y * INR (length y)).
  { rewrite Rvar_unfold. field. lra. }
  assert (B3 : Rabs S <= Rvar y * INR (length y)) by lra.
  unfold Rdiv. rewrite !Rabs_mult.
  rewrite (Rabs_right (/ INR (length y))) by (left; apply Rinv_0_lt_compat; lra).
  rewrite (Rabs_right (/ Rvar y)) by (left; apply Rinv_0_lt_compat; lra).
  apply Rmult_le_reg_r with (Rvar y * INR (length y)); [nra|].
  field_simplify; [lra|lra].
Qed.

Lemma autocorr_large y k : y <> [] -> (length y <= k)%nat -> autocorr y k = 0.
Proof.
  intros Hne Hk. rewrite (autocorr_eq y k Hne). rewrite skipn_all2 by exact Hk.
  replace (zip y (@nil R)) with (@nil (R * R)) by (destruct y; reflexivity).
  cbn. unfold Rdiv. ring.
Qed.

(** * tiles *)
Lemma chunks_ind (P : list R -> Prop) :
  (forall l, (length l < 4)%nat -> P l) ->
  (forall a b c d l, P l -> P (a :: b :: c :: d :: l)) -> forall l, P l.
Proof.
  intros H1 H2 l. remember (length l) as n eqn:E. revert l E.
  induction n as [n IH] using lt_wf_ind. intros l E.
  destruct l as [|a [|b [|c [|d l]]]]; try (apply H1; cbn; lia).
  apply H2. apply (IH (length l)); cbn in E; [lia|reflexivity].
Qed.

Lemma chunks_sum (g : R -> R) l :
  Rsum (map (fun c => Rsum (map g c)) (chunks4 l)) + Rsum (map g (rem4 l)) = Rsum (map g l).
Proof.
  induction l as [l Hl|a b c d l IH] using chunks_ind.
  - destruct l as [|a [|b [|c [|d l]]]]; cbn in Hl; try lia; cbn; lra.
  - cbn [chunks4 rem4 map]. rewrite !Rsum_cons. change (Rsum []) with 0. lra.
Qed.

Lemma rms_eq y : rms_fast32 y = sqrt (Rsum (map (fun x => x ^ 2) y) / INR (length y)).
Proof.
  unfold rms_fast32. cbn [nsqrt RNum nadd ndiv nofZ nmul]. rewrite IZR_of_nat. f_equal. f_equal.
  rewrite !nsum_Rsum. rewrite <- (chunks_sum (fun x => x ^ 2)). rewrite Rplus_comm. f_equal.
  - f_equal. apply map_ext. intros c. rewrite nsum_Rsum. f_equal. apply map_ext. intros; ring.
  - f_equal. apply map_ext. intros; ring.
Qed.

(** Number of full tiles covered *)
Definition tiled (n : nat) : nat := (4 * (n / 4))%nat.

Lemma zip_dot_chunks l m : length l = length m ->
  Rsum (map (fun p : list R * list R => dot (fst p) (snd p)) (zip (chunks4 l) (chunks4 m))) =
  Rsum (map (fun p : R * R => fst p * snd p) (firstn (tiled (length l)) (zip l m))).
Proof.
  revert m. induction l as [l Hl|a b c d l IH] using chunks_ind; intros m Hm.
  - assert (T : tiled (length l) = 0%nat).
    { unfold tiled. rewrite Nat.div_small by exact Hl. lia. }
    rewrite T. destruct l as [|a [|b [|c [|d l]]]]; cbn in Hl; try lia; reflexivity.
  - destruct m as [|a' [|b' [|c' [|d' m]]]]; cbn in Hm; try lia.
    injection Hm as Hm. cbn [chunks4 zip map]. rewrite Rsum_cons, (IH m Hm).
    assert (T : tiled (length (a :: b :: c :: d :: l)) = S (S (S (S (tiled (length l)))))).
    { unfold tiled. cbn [length]. replace (S (S (S (S (length l))))) with (length l + 1 * 4)%nat by lia.
      rewrite Nat.div_add by lia. lia. }
    rewrite T. cbn [firstn map fst snd]. rewrite !Rsum_cons.
    unfold dot. rewrite nsum_Rsum. cbn. lra.
Qed.

Lemma zip_nth (l m : list R) : length l = length m ->
  map (fun p : R * R => fst p * snd p) (zip l m) =
  map (fun j => nth j l 0 * nth j m 0) (seq 0 (length l)).
Proof.
  revert m. induction l as [|a l IH]; intros m Hm; [reflexivity|].
  destruct m as [|b m]; [discriminate|]. cbn [zip map length seq fst snd nth]. f_equal.
  rewrite <- seq_shift, map_map. apply IH. injection Hm. auto.
Qed.

Lemma map_firstn {A B} (f : A -> B) n l : map f (firstn n l) = firstn n (map f l).
Proof. revert l. induction n as [|n IH]; intros [|a l]; cbn; auto. f_equal. apply IH. Qed.

Lemma firstn_seq n s m : firstn n (seq s m) = seq s (Nat.min n m).
Proof.
  revert s m. induction n as [|n IH]; intros s m; [reflexivity|]. destruct m as [|m]; [reflexivity|].
  cbn. f_equal. apply IH.
Qed.

Lemma nth_firstn_lt {A} (l : list A) n j d : (j < n)%nat -> nth j (firstn n l) d = nth j l d.
Proof.
  revert n j. induction l as [|a l IH]; intros n j H; [rewrite firstn_nil; destruct j; reflexivity|].
  destruct n as [|n]; [lia|]. destruct j as [|j]; [reflexivity|]. cbn. apply IH. lia.
Qed.
Lemma nth_skipn {A} (l : list A) n j d : nth j (skipn n l) d = nth (n + j) l d.
Proof.
  revert l. induction n as [|n IH]; intros l; [reflexivity|].
  destruct l as [|a l]; [destruct j; reflexivity|]. cbn. apply IH.
Qed.

Lemma lag_value y h xi : (h <= length y)%nat ->
  autocorr_fast32_lag y h xi =
  Rsum (map (fun j => nth j y 0 * nth (j + h) y 0) (seq 0 (tiled (length y - h)))).
Proof.
  intros Hh. unfold autocorr_fast32_lag. rewrite nsum_Rsum.
  assert (L1 : length (firstn (length y - h) y) = (length y - h)%nat) by (rewrite firstn_length; lia).
  assert (L2 : length (skipn h y) = (length y - h)%nat) by (rewrite skipn_length; lia).
  rewrite (zip_dot_chunks (firstn (length y - h) y) (skipn h y)) by congruence.
  rewrite map_firstn, zip_nth, L1, <- map_firstn, firstn_seq by congruence.
  assert (Ht : (tiled (length y - h) <= length y - h)%nat).
  { unfold tiled. apply Nat.mul_div_le. lia. }
  rewrite Nat.min_l by exact Ht. f_equal. apply map_ext_in. intros j Hj. apply in_seq in Hj.
  rewrite nth_firstn_lt by lia. rewrite nth_skipn. rewrite (Nat.add_comm h j). reflexivity.
Qed.

Lemma zip_map_len {A B} (l : list A) (m : list B) : length (zip l m) = Nat.min (length l) (length m).
Proof. revert m. induction l as [|a l IH]; intros [|b m]; cbn; auto. Qed.

Lemma zip_nth_error {A B} (l : list A) (m : list B) i a b :
  nth_error l i = Some a -> nth_error m i = Some b -> nth_error (zip l m) i = Some (a, b).
Proof.
  revert m i. induction l as [|x l IH]; intros m i Ha Hb; [destruct i; discriminate|].
  destruct m as [|z m]; [destruct i; discriminate|]. destruct i as [|i]; cbn in *; [congruence|].
  apply IH; assumption.
Qed.

Lemma nth_error_seq s n i : (i < n)%nat -> nth_error (seq s n) i = Some (s + i)%nat.
Proof.
  revert s i. induction n as [|n IH]; intros s i Hi; [lia|]. destruct i as [|i]; cbn; [f_equal; lia|].
  rewrite IH by lia. f_equal. lia.
Qed.

Lemma demean_eq y : map (fun yi => yi - Rsum y / IZR (Z.of_nat (length y))) y =
                    map (fun x => x - Rmean y) y.
Proof. apply map_ext. intros x. unfold Rmean. rewrite IZR_of_nat. reflexivity. Qed.

Lemma autocorr_fast32_ok skip y x : (length x + skip <= length y)%nat -> y <> [] ->
  exists x', autocorr_fast32 skip y x = Ok (Rvar y, map (fun v => v - Rmean y) y, x') /\
    length x' = length x /\
    forall i, (i < length x)%nat ->
      nth_error x' i = Some (Rsum (map (fun j =>
        nth j (map (fun v => v - Rmean y) y) 0 * nth (j + (skip + i)) (map (fun v => v - Rmean y) y) 0)
        (seq 0 (tiled (length y - (skip + i)))))).
Proof.
  intros Hlen Hne. unfold autocorr_fast32. rewrite (proj2 (Nat.leb_le _ _) Hlen). cbn [rassert bind].
  set (y' := map (fun v => v - Rmean y) y).
  assert (D : map (fun yi => nsub yi (ndiv (nsum y) (nofZ (Z.of_nat (length y))))) y = y').
  { rewrite nsum_Rsum. apply demean_eq. }
  cbv zeta. rewrite D. clear D. cbn [ndiv nofZ nmul RNum].
  assert (Ly : length y' = length y) by (unfold y'; apply map_length).
  eexists. split; [f_equal; f_equal; f_equal|].
  { rewrite nsum_Rsum, Rvar_unfold. unfold y'. rewrite map_map, IZR_of_nat.
    f_equal. f_equal. apply map_ext. intros; ring. }
  rewrite seq_length. rewrite skipn_all2 by lia. rewrite app_nil_r. split.
  - rewrite map_length, zip_map_len, seq_length. lia.
  - intros i Hi. destruct (nth_error x i) as [xi|] eqn:Ex; [|apply nth_error_None in Ex; lia].
    erewrite map_nth_error.
    2:{ apply zip_nth_error; [apply nth_error_seq; lia|exact Ex]. }
    cbn [fst snd]. f_equal. rewrite lag_value by lia. rewrite Ly. reflexivity.
Qed.

Lemma autocorr_fast32_panic skip (y x : list R) : (length y < length x + skip)%nat ->
  autocorr_fast32 skip y x = Panic.
Proof.
  intros H. unfold autocorr_fast32. replace (length x + skip <=? length y)%nat with false.
  - reflexivity.
  - symmetry. apply Nat.leb_gt. exact H.
Qed.

(** * lag_diff, rmssd *)
Lemma lag_diff_length (y : list R) : length (lag_diff y) = (length y - 1)%nat.
Proof. unfold lag_diff. rewrite map_length, zip_map_len, skipn_length. lia. Qed.

Lemma lag_diff_nth (y : list R) i a b : nth_error y i = Some a -> nth_error y (S i) = Some b ->
  nth_error (lag_diff y) i = Some (b - a).
Proof.
  intros Ha Hb. unfold lag_diff. erewrite map_nth_error.
  2:{ apply zip_nth_error; [exact Ha|]. instantiate (1 := b).
      destruct y as [|z y]; [destruct i; discriminate|exact Hb]. }
  reflexivity.
Qed.

Lemma lag_diff_sum (y : list R) a : Rsum (lag_diff (a :: y)) = last y a - a.
Proof.
  revert a. induction y as [|b y IH]; intros a; [cbn; lra|].
  change (lag_diff (a :: b :: y)) with ((b - a) :: lag_diff (b :: y)).
  rewrite Rsum_cons, IH. change (last (b :: y) a) with (last (b :: y) a).
  destruct y as [|c y]; [cbn; lra|].
  replace (last (b :: c :: y) a) with (last (c :: y) b); [lra|].
  change (last (b :: c :: y) a) with (last (c :: y) a).
  clear. revert c. induction y as [|d y IH]; intros c; [reflexivity|].
  change (last (c :: d :: y) b) with (last (d :: y) b).
  change (last (c :: d :: y) a) with (last (d :: y) a). apply IH.
Qed.

Lemma windows_zip (y : list R) : tuple_windows y = zip y (skipn 1 y).
Proof.
  induction y as [|a y IH]; [reflexivity|]. destruct y as [|b y]; [reflexivity|].
  change (tuple_windows (a :: b :: y)) with ((a, b) :: tuple_windows (b :: y)).
  rewrite IH. reflexivity.
Qed.

Lemma rmssd_eq (y : list R) : rmssd y =
  if (length y <? 2)%nat then 0 else sqrt (Rmean (map (fun d => d ^ 2) (lag_diff y))).
Proof.
  unfold rmssd. rewrite windows_zip.
  replace (map (fun p : R * R => powi2 (nsub (snd p) (fst p))) (zip y (skipn 1 y)))
    with (map (fun d => d ^ 2) (lag_diff y)).
  2:{ unfold lag_diff. rewrite map_map. apply map_ext. intros p. unfold powi2. cbn. ring. }
  destruct (Nat.ltb_spec (length y) 2) as [H|H].
  - destruct y as [|a [|b y]]; cbn in H; try lia; cbn; apply sqrt_0.
  - rewrite mean_eq; [reflexivity|]. intros E.
    apply (f_equal (@length R)) in E. rewrite map_length, lag_diff_length in E. cbn in E. lia.
Qed.
