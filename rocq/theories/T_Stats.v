(** Property theorems for stats.rs (C01-C12, C60). *)
From Coq Require Import List Arith ZArith Bool Lia Permutation Sorted Reals Lra SpecFloat.
From Verif Require Import Base Num MachInt M_Stats S_Stats P_MachInt P_Median P_Stats P_Stats2 P_MeanInt.
Import ListNotations.

(** ** C01: median is the middle of the sorted sequence. *)

(** Any totally ordered type; [half a b] is the type's (a + b) / 2. *)
Theorem C01_median_total_order :
  forall F (ltb : F -> F -> bool) (zero : F) (half : F -> F -> res F) y s,
  strict_total_on ltb y -> sorted_version ltb y s ->
  (forall m, length y mod 2 = 1 -> nth_error s (length y / 2) = Some m ->
     median_gen ltb zero half y = Ok (m, length y)) /\
  (forall a b, length y mod 2 = 0 -> 0 < length y ->
     nth_error s (length y / 2 - 1) = Some a -> nth_error s (length y / 2) = Some b ->
     median_gen ltb zero half y = let! m := half a b in Ok (m, length y)) /\
  (y = [] -> median_gen ltb zero half y = Ok (zero, 0)).
Proof. exact (fun F ltb zero half => median_sorted ltb zero half). Qed.
Print Assumptions C01_median_total_order.

(** Real samples, against the textbook definition. *)
Theorem C01_median_real :
  forall (y : list R) m n, y <> [] -> (median y = Ok (m, n) <-> is_median y m /\ n = length y).
Proof. exact median_iff. Qed.
Print Assumptions C01_median_real.
Theorem C01_median_real_total : forall y : list R, y <> [] -> exists m, is_median y m.
Proof. exact is_median_exists. Qed.

(** IEEE floats without NaN (where -0 and +0 are not distinguished by [<]). *)
Theorem C01_median_float :
  forall prec emax szero (y : list spec_float), ~ In S754_nan y -> y <> [] ->
  (length y mod 2 = 1 -> exists m, has_rank SFltb y (length y / 2) m /\
     @median _ (SFNum prec emax szero) y = Ok (m, length y)) /\
  (length y mod 2 = 0 -> exists a b, has_rank SFltb y (length y / 2 - 1) a /\
     has_rank SFltb y (length y / 2) b /\
     @median _ (SFNum prec emax szero) y =
       Ok (SFdiv prec emax (SFadd prec emax a b) (binary_normalize prec emax 2 0 false), length y)).
Proof. intros prec emax szero y Hn Hne. exact (median_rank _ _ _ y (SFltb_weak y Hn) Hne). Qed.
Print Assumptions C01_median_float.

Example C01_ex_real : median [3; 1; 2]%R = Ok (2%R, 3).
Proof.
  apply median_iff; [discriminate|]. split; [|reflexivity]. exists [1; 2; 3]%R. split.
  - eapply Permutation_trans; [apply perm_swap|]. apply perm_skip. apply perm_swap.
  - split; [repeat constructor; lra|]. left. exists 1. auto.
Qed.
Example C01_ex_float :
  ~ In S754_nan (map (@nofZ _ F64Num) [5; 3; 9; 1]%Z) /\
  @median _ F64Num (map (@nofZ _ F64Num) [5; 3; 9; 1]%Z) = Ok (@nofZ _ F64Num 4, 4).
Proof. split; [vm_compute; intuition discriminate|vm_compute; reflexivity]. Qed.

(** ** C02: median always returns, even with NaN. *)
Theorem C02_median_returns :
  forall F (ltb : F -> F -> bool) (zero : F) (half : F -> F -> res F) y,
  irrefl_on ltb y -> asym_on ltb y ->
  (forall a b, In a y -> In b y -> exists m, half a b = Ok m) ->
  exists m, median_gen ltb zero half y = Ok (m, length y).
Proof. exact (fun F ltb zero half => median_safe ltb zero half). Qed.
Print Assumptions C02_median_returns.
Theorem C02_median_returns_float :
  forall prec emax szero (y : list spec_float),
  exists m, @median _ (SFNum prec emax szero) y = Ok (m, length y).
Proof.
  intros prec emax szero y. exact (median_safe _ _ _ y (fun a _ => SFltb_irrefl a)
    (fun a b _ _ => SFltb_asym a b) (fun a b _ _ => ex_intro _ _ eq_refl)).
Qed.
Print Assumptions C02_median_returns_float.
Example C02_ex_nan :
  @median _ F64Num [S754_nan; @nofZ _ F64Num 1; S754_nan] = Ok (@nofZ _ F64Num 1, 3).
Proof. vm_compute. reflexivity. Qed.

(** ** C03: permutation invariance. *)
Theorem C03_median_perm :
  forall F (ltb : F -> F -> bool) (zero : F) (half : F -> F -> res F) y z,
  strict_total_on ltb y -> Permutation y z ->
  median_gen ltb zero half y = median_gen ltb zero half z.
Proof. exact (fun F ltb zero half => median_perm ltb zero half). Qed.
Print Assumptions C03_median_perm.
Theorem C03_median_perm_real : forall y z : list R, Permutation y z -> median y = median z.
Proof. intros y z. exact (median_perm _ _ _ y z (Rltb_total y)). Qed.
Theorem C03_median_perm_int :
  forall md t (y z : list Z), Permutation y z -> median_int md t y = median_int md t z.
Proof. intros md t y z. exact (median_perm _ _ _ y z (Zltb_total y)). Qed.
Print Assumptions C03_median_perm_int.
Example C03_ex : strict_total_on Z.ltb [3; 1; 2; 1]%Z /\ Permutation [3; 1; 2; 1]%Z [1; 3; 2; 1]%Z.
Proof. split; [apply Zltb_total|apply perm_swap]. Qed.

(** ** C04: integer median within bounds: false in general, true when no sum of two
    samples overflows, and for an odd number of samples. *)
Theorem C04_median_int_partial :
  forall md pw t y,
  In pw pointer_widths -> In t (prim_types pw) -> y <> [] ->
  (forall x, In x y -> in_range t x = true) ->
  (Nat.Odd (length y) \/ (forall a b, In a y -> In b y -> in_range t (a + b) = true)) ->
  exists m, median_int md t y = Ok (m, length y) /\
    (exists lo, In lo y /\ (lo <= m)%Z) /\ (exists hi, In hi y /\ (m <= hi)%Z).
Proof. exact median_int_between. Qed.
Print Assumptions C04_median_int_partial.
Theorem C04_median_int_refuted :
  exists y, y <> [] /\ (forall x, In x y -> in_range i8 x = true) /\
    median_int Checked i8 y = Panic /\
    exists m, median_int Wrapping i8 y = Ok (m, length y) /\ forall x, In x y -> (m < x)%Z.
Proof.
  exists [127; 127]%Z. split; [discriminate|].
  split; [intros x [<-|[<-|[]]]; reflexivity|]. split; [vm_compute; reflexivity|].
  exists (-1)%Z. split; [vm_compute; reflexivity|]. intros x [<-|[<-|[]]]; reflexivity.
Qed.
Print Assumptions C04_median_int_refuted.
Example C04_ex : median_int Checked u8 [9; 2; 4; 7]%Z = Ok (5%Z, 4).
Proof. vm_compute. reflexivity. Qed.

(** ** C05: mean. *)
Theorem C05_mean : forall y : list R,
  (y <> [] -> mean y = ((Rsum y / INR (length y))%R, length y)) /\
  (y = [] -> mean y = (0%R, 0)).
Proof. exact (fun y => conj (mean_eq y) (fun E => eq_ind_r (fun y => mean y = (0%R, 0)) mean_nil E)). Qed.
Print Assumptions C05_mean.
Theorem C05_mean_perm : forall y z : list R, Permutation y z -> mean y = mean z.
Proof. exact mean_perm. Qed.
Theorem C05_mean_bounds : forall y lo hi, y <> [] -> (forall x, In x y -> lo <= x <= hi)%R ->
  (lo <= fst (mean y) <= hi)%R.
Proof. exact mean_bounds. Qed.
Theorem C05_mean_affine : forall y c d, y <> [] ->
  fst (mean (map (fun x => c * x + d)%R y)) = (c * fst (mean y) + d)%R.
Proof. exact mean_affine. Qed.
Print Assumptions C05_mean_affine.
Example C05_ex : mean [1; 2; 6]%R = (3%R, 3).
Proof. rewrite mean_eq by discriminate. unfold Rmean. cbn. f_equal. lra. Qed.

(** ** C06: variance and stdev. *)
Theorem C06_variance : forall y : list R, y <> [] ->
  variance y = (Rvar y, length y) /\ stdev y = (sqrt (Rvar y), length y) /\
  Rvar y = (Rmean (map (fun x => x ^ 2) y) - Rmean y ^ 2)%R /\
  (0 <= Rvar y)%R /\
  (Rvar y = 0%R <-> forall a b, In a y -> In b y -> a = b).
Proof.
  exact (fun y H => conj (variance_eq y H) (conj (stdev_eq y H) (conj (Rvar_moments y H)
    (conj (Rvar_nonneg y) (Rvar_zero_iff y H))))).
Qed.
Print Assumptions C06_variance.
Theorem C06_variance_affine : forall y c d, y <> [] ->
  fst (variance (map (fun x => c * x + d)%R y)) = (c ^ 2 * fst (variance y))%R /\
  fst (stdev (map (fun x => c * x + d)%R y)) = (Rabs c * fst (stdev y))%R.
Proof. exact variance_affine. Qed.
Print Assumptions C06_variance_affine.
Theorem C06_empty : variance (@nil R) = (0%R, 0) /\ stdev (@nil R) = (0%R, 0).
Proof. exact (conj variance_nil stdev_nil). Qed.
Example C06_ex : variance [1; 3]%R = (1%R, 2).
Proof. rewrite variance_eq by discriminate. unfold Rvar, Rmean. cbn. f_equal. lra. Qed.

(** ** C07: zscore. *)
Theorem C07_zscore : forall y : list R,
  zscore y = map (fun x => (x - Rmean y) / sqrt (Rvar y))%R y /\
  length (zscore y) = length y /\
  (not_all_equal y -> Rmean (zscore y) = 0%R /\ Rvar (zscore y) = 1%R) /\
  (not_all_equal y -> forall a b, (0 < a)%R -> zscore (map (fun x => a * x + b)%R y) = zscore y).
Proof.
  exact (fun y => conj (zscore_eq y) (conj (zscore_length y) (conj (zscore_std y)
    (fun H a b => zscore_affine y a b H)))).
Qed.
Print Assumptions C07_zscore.
Example C07_ex : not_all_equal [1; 3]%R /\ zscore [1; 3]%R = [-1; 1]%R.
Proof.
  split; [exists 1%R, 3%R; cbn; intuition; lra|]. rewrite zscore_eq.
  replace (Rmean [1; 3]%R) with 2%R by (unfold Rmean; cbn; lra).
  replace (Rvar [1; 3]%R) with 1%R by (unfold Rvar, Rmean; cbn; lra).
  rewrite sqrt_1. cbn. repeat f_equal; lra.
Qed.

(** ** C08: median absolute deviation and modified z-score. *)
Theorem C08_mad : forall (y : list R) d n, y <> [] ->
  (median_abs_deviation y = Ok (d, n) <->
   n = length y /\ exists m, is_median y m /\ is_median (map (fun x => Rabs (x - m)) y) d).
Proof. exact mad_iff. Qed.
Print Assumptions C08_mad.
Theorem C08_mad_nonneg : forall y : list R, y <> [] ->
  exists d, median_abs_deviation y = Ok (d, length y) /\ (0 <= d)%R.
Proof. exact mad_exists. Qed.
Theorem C08_mad_affine : forall (y : list R) a b d n, y <> [] ->
  median_abs_deviation y = Ok (d, n) ->
  median_abs_deviation (map (fun x => a * x + b)%R y) = Ok ((Rabs a * d)%R, n).
Proof. exact mad_affine. Qed.
Theorem C08_mod_zscore : forall (y : list R) m d n, y <> [] ->
  is_median y m -> median_abs_deviation y = Ok (d, n) -> d <> 0%R ->
  mod_zscore y = Ok (map (fun x => 0.6745 * (x - m) / d)%R y).
Proof. exact (fun y m d n Hne Hm Hd _ => mod_zscore_eq y m d n Hne Hm Hd). Qed.
Theorem C08_mod_zscore_affine : forall (y : list R) a b d n, y <> [] -> (0 < a)%R ->
  median_abs_deviation y = Ok (d, n) -> d <> 0%R ->
  mod_zscore (map (fun x => a * x + b)%R y) = mod_zscore y.
Proof. exact mod_zscore_affine. Qed.
Print Assumptions C08_mod_zscore_affine.
Example C08_ex : is_median [1; 2; 4]%R 2%R /\ median_abs_deviation [1; 2; 4]%R = Ok (1%R, 3).
Proof.
  assert (M : is_median [1; 2; 4]%R 2%R).
  { exists [1; 2; 4]%R. split; [apply Permutation_refl|]. split; [repeat constructor; lra|].
    left. exists 1. auto. }
  split; [exact M|]. apply mad_iff; [discriminate|]. split; [reflexivity|]. exists 2%R.
  split; [exact M|]. cbn. rewrite Rabs_left, Rabs_right, Rabs_right by lra.
  exists [0; 1; 2]%R. replace (- (1 - 2))%R with 1%R by lra. replace (2 - 2)%R with 0%R by lra.
  replace (4 - 2)%R with 2%R by lra.
  split; [apply perm_swap|]. split; [repeat constructor; lra|]. left. exists 1. auto.
Qed.

(** ** C09: autocorr. *)
Theorem C09_autocorr : forall y : list R, not_all_equal y ->
  autocorr y 0 = 1%R /\
  (forall k, (Rabs (autocorr y k) <= 1)%R) /\
  (forall k, length y <= k -> autocorr y k = 0%R) /\
  (forall k, autocorr y k =
     (lag_sum (map (fun x => x - Rmean y) y) k / INR (length y) / Rvar y)%R).
Proof. exact autocorr_all. Qed.
Print Assumptions C09_autocorr.
Example C09_ex : not_all_equal [1; 3; 2]%R.
Proof. exists 1%R, 3%R; cbn; intuition; lra. Qed.

(** ** C10: autocorr_fast32.  False as stated: the remainder terms are lost.
    Exact characterisation: only 4*((N-h)/4) of the N-h terms are summed. *)
Theorem C10_autocorr_fast32_partial : forall skip (y x : list R), y <> [] ->
  (length y < length x + skip -> autocorr_fast32 skip y x = Panic) /\
  (length x + skip <= length y ->
   exists x', autocorr_fast32 skip y x = Ok (Rvar y, map (fun v => v - Rmean y)%R y, x') /\
    length x' = length x /\
    (forall i, i < length x ->
      nth_error x' i = Some (Rsum (map (fun j =>
        nth j (map (fun v => v - Rmean y) y) 0 * nth (j + (skip + i)) (map (fun v => v - Rmean y) y) 0)
        (seq 0 (4 * ((length y - (skip + i)) / 4)))))%R) /\
    (forall i, i < length x -> Nat.divide 4 (length y - (skip + i)) ->
      nth_error x' i = Some (lag_sum (map (fun v => v - Rmean y)%R y) (skip + i)))).
Proof. exact autocorr_fast32_spec. Qed.
Print Assumptions C10_autocorr_fast32_partial.
(** f32 samples [1,2,3], lag 0: the code leaves 0; the sum of squared deviations is 2. *)
Theorem C10_autocorr_fast32_refuted :
  let f := map (@nofZ _ F32Num) in
  @autocorr_fast32 _ F32Num 0 (f [1; 2; 3]%Z) (f [5]%Z)
    = Ok (@ndiv _ F32Num (@nofZ _ F32Num 2) (@nofZ _ F32Num 3), f [-1; 0; 1]%Z, [S754_zero true]) /\
  lag_sum (map (fun v => v - Rmean [1; 2; 3])%R [1; 2; 3]%R) 0 = 2%R.
Proof.
  split; [vm_compute; reflexivity|].
  replace (Rmean [1; 2; 3]%R) with 2%R by (unfold Rmean; cbn; lra). unfold lag_sum. cbn. lra.
Qed.
Print Assumptions C10_autocorr_fast32_refuted.
Example C10_ex : Nat.divide 4 (length [1; 2; 3; 4; 5]%R - (1 + 0)).
Proof. exists 1. reflexivity. Qed.

(** ** C11: rms_fast32. *)
Theorem C11_rms : forall y : list R, y <> [] ->
  rms_fast32 y = sqrt (Rsum (map (fun x => x ^ 2) y) / INR (length y))%R.
Proof. exact (fun y _ => rms_eq y). Qed.
Print Assumptions C11_rms.
Example C11_ex : rms_fast32 [1; 1; 1; 1; 1]%R = 1%R.
Proof.
  rewrite rms_eq. cbn [map Rsum fold_right length].
  replace (_ / _)%R with 1%R by (cbn; lra). apply sqrt_1.
Qed.

(** ** C12: lag_diff and rmssd. *)
Theorem C12_lag_diff : forall y : list R,
  length (lag_diff y) = length y - 1 /\
  (forall i a b, nth_error y i = Some a -> nth_error y (S i) = Some b ->
     nth_error (lag_diff y) i = Some (b - a)%R) /\
  (forall a l, y = a :: l -> Rsum (lag_diff y) = (last l a - a)%R) /\
  rmssd y = (if length y <? 2 then 0%R else sqrt (Rmean (map (fun d => d ^ 2)%R (lag_diff y)))).
Proof.
  exact (fun y => conj (lag_diff_length y) (conj (lag_diff_nth y)
    (conj (fun a l E => eq_ind_r (fun y => Rsum (lag_diff y) = (last l a - a)%R) (lag_diff_sum l a) E)
      (rmssd_eq y)))).
Qed.
Print Assumptions C12_lag_diff.
Example C12_ex : lag_diff [1; 4; 9]%R = [4 - 1; 9 - 4]%R.
Proof. reflexivity. Qed.

(** ** C60: integer mean. *)
Theorem C60_mean_int_partial : forall md pw t y,
  In pw pointer_widths -> In t (prim_types pw) -> y <> [] ->
  (forall k, in_range t (fold_right Z.add 0%Z (firstn k y)) = true) ->
  in_range t (Z.of_nat (length y)) = true ->
  mean_int md t y = Ok (Z.quot (fold_right Z.add 0 y) (Z.of_nat (length y)), length y)%Z.
Proof. exact mean_int_ok. Qed.
Print Assumptions C60_mean_int_partial.
Theorem C60_mean_int_refuted :
  (exists y, (forall x, In x y -> in_range u8 x = true) /\ mean_int Checked u8 y = Panic /\
    exists m, mean_int Wrapping u8 y = Ok (m, length y) /\ forall x, In x y -> (m < x)%Z) /\
  (forall md, mean_int md u8 (repeat 0%Z 256) = Panic).
Proof.
  split.
  - exists [200; 200]%Z. split; [intros x [<-|[<-|[]]]; reflexivity|].
    split; [vm_compute; reflexivity|]. exists 72%Z. split; [vm_compute; reflexivity|].
    intros x [<-|[<-|[]]]; reflexivity.
  - intros []; vm_compute; reflexivity.
Qed.
Print Assumptions C60_mean_int_refuted.
Example C60_ex : mean_int Wrapping i8 [100; -100; 7]%Z = Ok (2%Z, 3).
Proof. vm_compute. reflexivity. Qed.
