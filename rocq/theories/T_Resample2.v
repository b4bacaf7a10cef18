(** Resampling in several steps, for every signal: going up in two steps is going up in one, what
    there and back again does, and what happens to the mean. *)
From Coq Require Import Reals ZArith Znumtheory List Lia Lra.
From Verif Require Import Base Num M_Complex M_Fourier Cx RSum S_Stats S_Fourier P_Stats P_Fourier P_Resample S_Resample T_Fourier T_Resample.
Import ListNotations.
Local Open Scope R_scope.

Definition dist (a b : nat) : nat := Nat.max (a - b) (b - a).
Lemma cos_dist k h v : cos (2 * PI * ((INR k - INR h) * v)) = cos (2 * PI * (INR (dist k h) * v)).
Proof.
  unfold dist. destruct (le_lt_dec h k).
  - rewrite Nat.max_l, minus_INR by lia. reflexivity.
  - rewrite Nat.max_r, minus_INR by lia. rewrite <- cos_neg. f_equal. ring.
Qed.
(** The kernel sampled at [n] points and interpolated with the kernel of [h2] frequencies. *)
Lemma kernel_twice n h h2 c u : (0 < n)%nat -> (2 * h <= n)%nat -> (2 * h2 <= n)%nat ->
  / INR n * rsum n (fun m => kernel h (INR m / INR n - c) * kernel h2 (u - INR m / INR n)) =
  rsum (2 * h) (fun k => kept n h2 (dist k h) (- (2 * PI * (INR (dist k h) * c))) u).
Proof.
  intros Hn H1 H2.
  rewrite (rsum_ext n _ (fun m => rsum (2 * h) (fun k => cos (2 * PI * (INR (dist k h) * (INR m / INR n)) + - (2 * PI * (INR (dist k h) * c))) * kernel h2 (u - INR m / INR n)))).
  2:{ intros m _. unfold kernel at 1. rewrite Rmult_comm, <- rsum_scale. apply rsum_ext. intros k _. rewrite cos_dist. rewrite Rmult_comm. f_equal. f_equal. ring. }
  rewrite rsum_swap, <- rsum_scale. apply rsum_ext. intros k Hk. apply kernel_kept; [exact Hn|unfold dist; lia|exact H2].
Qed.
Lemma kernel_twice_lt n h h2 c u : (0 < n)%nat -> (h < h2)%nat -> (2 * h2 <= n)%nat ->
  / INR n * rsum n (fun m => kernel h (INR m / INR n - c) * kernel h2 (u - INR m / INR n)) = kernel h (u - c).
Proof.
  intros Hn H1 H2. rewrite kernel_twice by lia. unfold kernel. apply rsum_ext. intros k Hk. rewrite cos_dist. unfold kept.
  destruct (Nat.ltb_spec (dist k h) h2) as [_|A]; [|unfold dist in A; lia]. f_equal. ring.
Qed.
Lemma kernel_twice_eq n h c u : (0 < h)%nat -> (2 * h < n)%nat ->
  / INR n * rsum n (fun m => kernel h (INR m / INR n - c) * kernel h (u - INR m / INR n)) = kernel h (u - c) - / 2 * cos (2 * PI * (INR h * (u - c))).
Proof.
  intros Hh H2. rewrite kernel_twice by lia. unfold kernel. destruct h as [|h]; [lia|]. replace (2 * S h)%nat with (S (2 * h + 1)) by lia. set (H := S h).
  rewrite !(rsum_first (2 * h + 1)). rewrite (rsum_ext (2 * h + 1) (fun k => kept n H (dist (S k) H) _ u) (fun k => cos (2 * PI * ((INR (S k) - INR H) * (u - c))))).
  2:{ intros k Hk. rewrite cos_dist. unfold kept. destruct (Nat.ltb_spec (dist (S k) H) H) as [_|A]; [|unfold dist, H in A; lia]. f_equal. ring. }
  assert (D0 : dist 0 H = H) by (unfold dist; lia). rewrite (cos_dist 0 H), D0. unfold kept. rewrite Nat.ltb_irrefl. destruct (Nat.eqb_spec H 0); [unfold H in *; lia|]. cbn [orb].
  destruct (Nat.eqb_spec (2 * H) n); [unfold H in *; lia|].
  replace (2 * PI * (INR H * u) + - (2 * PI * (INR H * c))) with (2 * PI * (INR H * (u - c))) by ring. lra.
Qed.
Lemma resample_twice fft ifft (x : list R) n m : is_fft fft -> is_ifft ifft -> (0 < length x)%nat -> (0 < n)%nat ->
  exists y z, resample fft ifft x n = Ok y /\ length y = n /\ resample fft ifft y m = Ok z /\ length z = m /\
  forall i, (i < m)%nat -> nth i z 0 = / INR (length x) * rsum (length x) (fun j => nth j x 0 *
    (/ INR n * rsum n (fun p => kernel (Nat.min (length x) n / 2) (INR p / INR n - INR j / INR (length x)) * kernel (Nat.min n m / 2) (INR i / INR m - INR p / INR n)))).
Proof.
  intros Hf Hi HL Hn. destruct (resample_formula fft ifft Hf Hi x n) as [y [E [Ly F]]]. destruct (resample_formula fft ifft Hf Hi y m) as [z [E2 [Lz F2]]].
  exists y, z. split; [exact E|]. split; [exact Ly|]. split; [exact E2|]. split; [exact Lz|]. intros i Him. rewrite F2 by exact Him. rewrite Ly.
  set (L := length x) in *. set (h := (Nat.min L n / 2)%nat) in *. set (h2 := (Nat.min n m / 2)%nat).
  rewrite (rsum_ext n _ (fun p => rsum L (fun j => (/ INR L * nth j x 0) * (kernel h (INR p / INR n - INR j / INR L) * kernel h2 (INR i / INR m - INR p / INR n))))).
  2:{ intros p Hp. rewrite F by exact Hp. rewrite <- rsum_scale, <- rsum_scale_r. apply rsum_ext. intros j _. ring. }
  rewrite rsum_swap, <- !rsum_scale. apply rsum_ext. intros j _. rewrite rsum_scale. ring.
Qed.
Lemma kernel_twice_gt n h h2 c u : (h2 < h)%nat -> (2 * h <= n)%nat ->
  / INR n * rsum n (fun m => kernel h (INR m / INR n - c) * kernel h2 (u - INR m / INR n)) = kernel h2 (u - c).
Proof.
  intros H1 H2. rewrite kernel_twice by lia.
  assert (Out : forall k, (h2 < dist k h)%nat -> kept n h2 (dist k h) (- (2 * PI * (INR (dist k h) * c))) u = 0).
  { intros k Hk. unfold kept. destruct (Nat.ltb_spec (dist k h) h2); [lia|]. destruct (Nat.ltb_spec h2 (dist k h)); [reflexivity|lia]. }
  destruct h2 as [|g].
  { unfold kernel. cbn [Nat.mul Nat.add rsum]. apply rsum_zero. intros k Hk. unfold kept. destruct (Nat.ltb_spec (dist k h) 0); [lia|]. rewrite Bool.orb_true_r. reflexivity. }
  set (h2 := S g) in *.
  assert (In : forall k, (dist k h < h2)%nat -> kept n h2 (dist k h) (- (2 * PI * (INR (dist k h) * c))) u = cos (2 * PI * (INR (dist k h) * (u - c)))).
  { intros k Hk. unfold kept. destruct (Nat.ltb_spec (dist k h) h2); [|lia]. f_equal. ring. }
  assert (Ed : forall k, dist k h = h2 -> kept n h2 (dist k h) (- (2 * PI * (INR (dist k h) * c))) u = / 2 * cos (2 * PI * (INR h2 * (u - c)))).
  { intros k Hk. unfold kept. rewrite Hk, Nat.ltb_irrefl. destruct (Nat.eqb_spec h2 0); [unfold h2 in *; lia|]. cbn [orb]. destruct (Nat.eqb_spec (2 * h2) n); [lia|]. f_equal. f_equal. ring. }
  replace (2 * h)%nat with ((h - h2) + (2 * h2 + (h - h2)))%nat by lia. rewrite rsum_add, rsum_add.
  rewrite (rsum_zero (h - h2)) by (intros k Hk; apply Out; unfold dist; lia).
  rewrite (rsum_single (h - h2) 0) by (lia || (intros k Hk Nk; apply Out; unfold dist; lia)). rewrite Ed by (unfold dist; lia).
  unfold kernel. replace (2 * h2)%nat with (S (2 * g + 1)) by (unfold h2; lia). rewrite !(rsum_first (2 * g + 1)). rewrite Ed by (unfold dist; lia).
  rewrite (rsum_ext (2 * g + 1) _ (fun k => cos (2 * PI * ((INR (S k) - INR h2) * (u - c))))).
  2:{ intros k Hk. rewrite In by (unfold dist, h2; lia). rewrite cos_dist. f_equal. f_equal. f_equal. f_equal. unfold dist. lia. }
  rewrite (cos_dist 0 h2). replace (dist 0 h2) with h2 by (unfold dist; lia). lra.
Qed.

(** * C131 *)
(** Resampling to n and from there to m is resampling to m, provided that nothing is lost on the way
    and the two steps do not both end at the same highest frequency. *)
Theorem C131_two_steps fft ifft (x : list R) n m : is_fft fft -> is_ifft ifft -> x <> [] -> (0 < n)%nat ->
  (Nat.min (length x) m <= n)%nat -> (Nat.min (length x) n / 2 <> Nat.min n m / 2)%nat ->
  (let! y := resample fft ifft x n in resample fft ifft y m) = resample fft ifft x m.
Proof.
  intros Hf Hi Hx Hn Hm Hd. assert (HL : (0 < length x)%nat) by (destruct x; [congruence|cbn; lia]).
  destruct (resample_twice fft ifft x n m Hf Hi HL Hn) as (y & z & E & Ly & E2 & Lz & F). rewrite E. cbn [bind]. rewrite E2.
  destruct (resample_formula fft ifft Hf Hi x m) as [w [E3 [Lw F3]]]. rewrite E3. f_equal. apply (nth_ext _ _ 0 0); [congruence|]. intros i Him. rewrite Lz in Him.
  rewrite F, F3 by exact Him. f_equal. apply rsum_ext. intros j _. f_equal. set (L := length x) in *.
  pose proof (Nat.mul_div_le (Nat.min L n) 2 ltac:(discriminate)) as A1. pose proof (Nat.mul_div_le (Nat.min n m) 2 ltac:(discriminate)) as A2.
  destruct (lt_dec (Nat.min L n / 2) (Nat.min n m / 2)) as [Lt|Ge].
  - rewrite kernel_twice_lt by lia. f_equal. f_equal.
    destruct (le_lt_dec L n) as [C|C].
    + rewrite (Nat.min_l L n) in * by lia. destruct (le_lt_dec L m); [rewrite Nat.min_l by lia; reflexivity|]. exfalso. apply (Nat.lt_irrefl (L / 2)). eapply Nat.lt_le_trans; [exact Lt|]. apply Nat.div_le_mono; lia.
    + exfalso. rewrite (Nat.min_r L n) in Lt by lia. apply (Nat.lt_irrefl (n / 2)). eapply Nat.lt_le_trans; [exact Lt|]. apply Nat.div_le_mono; lia.
  - rewrite kernel_twice_gt by lia. f_equal. f_equal.
    destruct (le_lt_dec m n) as [C|C].
    + rewrite (Nat.min_r n m) in * by lia. destruct (le_lt_dec m L); [rewrite Nat.min_r by lia; reflexivity|]. exfalso.
      assert (K : (Nat.min L n / 2 <= m / 2)%nat) by (apply Nat.div_le_mono; lia). lia.
    + exfalso. rewrite (Nat.min_l n m) in * by lia. assert (K : (Nat.min L n / 2 <= n / 2)%nat) by (apply Nat.div_le_mono; lia). lia.
Qed.
Print Assumptions C131_two_steps.

(** Up and back again: half of the component at the highest frequency is lost for even lengths,
    three quarters for odd ones; everything else is returned. *)
Theorem C131_up_and_back fft ifft (x : list R) n : is_fft fft -> is_ifft ifft -> (2 <= length x < n)%nat ->
  exists z, (let! y := resample fft ifft x n in resample fft ifft y (length x)) = Ok z /\ length z = length x /\
  forall i, (i < length x)%nat ->
    nth i z 0 = nth i x 0 - (if Nat.even (length x) then / 2 else 3 / 2) * (/ INR (length x) *
      rsum (length x) (fun j => nth j x 0 * cos (2 * PI * (INR (length x / 2) * (INR i / INR (length x) - INR j / INR (length x)))))).
Proof.
  intros Hf Hi HL. set (L := length x) in *. destruct (resample_twice fft ifft x n L Hf Hi ltac:(fold L; lia) ltac:(lia)) as (y & z & E & Ly & E2 & Lz & F). rewrite E. cbn [bind]. fold L in F.
  exists z. split; [exact E2|]. split; [exact Lz|]. intros i Hii. rewrite F by exact Hii. rewrite (Nat.min_l L n), (Nat.min_r n L) by lia.
  set (h := (L / 2)%nat). assert (Hh : (0 < h)%nat) by (apply Nat.div_str_pos; lia).
  assert (H2 : (2 * h <= L)%nat) by (unfold h; apply Nat.mul_div_le; discriminate).
  rewrite (rsum_ext L _ (fun j => nth j x 0 * kernel h (INR i / INR L - INR j / INR L) - / 2 * (nth j x 0 * cos (2 * PI * (INR h * (INR i / INR L - INR j / INR L)))))).
  2:{ intros j _. rewrite kernel_twice_eq by lia. ring. }
  rewrite rsum_minus, rsum_scale. set (C := rsum L (fun j => nth j x 0 * cos _)).
  assert (K : / INR L * rsum L (fun j => nth j x 0 * kernel h (INR i / INR L - INR j / INR L)) = nth i x 0 - (if Nat.even L then 0 else 1) * (/ INR L * C)).
  { destruct (resample_formula fft ifft Hf Hi x L) as [w [Ew [Lw Fw]]]. fold L in Fw. specialize (Fw i Hii). rewrite Nat.min_id in Fw. fold h in Fw. rewrite <- Fw.
    destruct (Nat.even L) eqn:Ev.
    - destruct (C40_resample_length_and_even_identity_partial fft ifft x L Hf Hi) as [_ I]. specialize (I Ev). fold L in I. rewrite Ew in I. injection I as ->. ring.
    - destruct (C40_resample_odd_exact fft ifft x Hf Hi) as (w' & Ew' & _ & Fo); [unfold Nat.odd; fold L; rewrite Ev; reflexivity|]. fold L in Ew', Fo. rewrite Ew in Ew'. injection Ew' as <-. rewrite Fo by exact Hii. fold h. unfold C. ring. }
  rewrite Rmult_minus_distr_l, K. destruct (Nat.even L); field; apply not_0_INR; lia.
Qed.
Print Assumptions C131_up_and_back.

(** The mean is kept, up or down, as soon as both lengths are at least two. *)
Lemma kernel_mean n h c : (0 < h)%nat -> (2 * h <= n)%nat -> / INR n * rsum n (fun m => kernel h (INR m / INR n - c)) = 1.
Proof.
  intros Hh Hn. unfold kernel. rewrite rsum_swap.
  rewrite (rsum_ext (2 * h) _ (fun k => if Zdivide_dec (Z.of_nat n) (Z.of_nat k - Z.of_nat h) then INR n * cos (- (2 * PI * ((INR k - INR h) * c))) else 0)).
  2:{ intros k _. rewrite <- (cos_sum n (Z.of_nat k - Z.of_nat h) (- (2 * PI * ((INR k - INR h) * c)))) by lia. apply rsum_ext. intros m _. rewrite minus_IZR, <- !INR_IZR_INZ. f_equal. field. apply not_0_INR. lia. }
  rewrite (rsum_single (2 * h) h); [|lia|].
  - destruct (Zdivide_dec _ _) as [_|D]; [|exfalso; apply D; rewrite Z.sub_diag; apply Z.divide_0_r]. replace (- (2 * PI * ((INR h - INR h) * c))) with 0 by ring. rewrite cos_0. field. apply not_0_INR. lia.
  - intros k Hk Nk. destruct (Zdivide_dec _ _) as [D|_]; [|reflexivity]. exfalso. destruct (le_lt_dec h k).
    + revert D. apply nodiv; lia.
    + apply Z.divide_opp_r in D. revert D. apply nodiv; lia.
Qed.
Theorem C131_mean_kept fft ifft (x : list R) n : is_fft fft -> is_ifft ifft -> (2 <= length x)%nat -> (2 <= n)%nat ->
  exists y, resample fft ifft x n = Ok y /\ length y = n /\ Rmean y = Rmean x.
Proof.
  intros Hf Hi HL Hn. destruct (resample_formula fft ifft Hf Hi x n) as [y [E [Ly F]]]. exists y. split; [exact E|]. split; [exact Ly|]. unfold Rmean. rewrite !Rsum_nth, Ly.
  set (L := length x) in *. set (h := (Nat.min L n / 2)%nat) in *.
  assert (H2 : (2 * h <= Nat.min L n)%nat) by (unfold h; apply Nat.mul_div_le; discriminate).
  assert (Hh : (0 < h)%nat) by (apply Nat.div_str_pos; lia).
  rewrite (rsum_ext n _ (fun m => rsum L (fun j => (/ INR L * nth j x 0) * kernel h (INR m / INR n - INR j / INR L)))).
  2:{ intros m Hm. rewrite F by exact Hm. rewrite <- rsum_scale. apply rsum_ext. intros j _. ring. }
  rewrite rsum_swap. unfold Rdiv. rewrite (Rmult_comm _ (/ INR n)), (Rmult_comm _ (/ INR L)), <- !rsum_scale. apply rsum_ext. intros j _. rewrite rsum_scale.
  pose proof (kernel_mean n h (INR j / INR L) Hh ltac:(lia)) as K. unfold Rdiv in K. rewrite <- (Rmult_1_r (/ INR L * nth j x 0)) at 2. rewrite <- K. ring.
Qed.
Print Assumptions C131_mean_kept.

(** Instances with the exact DFT, which meets the contract: 4 samples to 6 and on to 9; up to 6 and
    back, the alternating part halved. *)
Example C131_ex : (let! y := resample dft idft [1; 2; 0; 5] 6 in resample dft idft y 9) = resample dft idft [1; 2; 0; 5] 9 /\
  (let! y := resample dft idft [1; 2; 0; 5] 3 in resample dft idft y 2) <> Panic.
Proof.
  split; [apply C131_two_steps; [apply dft_meets_contract|apply idft_meets_contract|discriminate|lia|cbn; lia|cbn; lia]|].
  destruct (resample_twice dft idft [1; 2; 0; 5] 3 2 dft_meets_contract idft_meets_contract ltac:(cbn; lia) ltac:(lia)) as (y & z & E & _ & E2 & _). rewrite E. cbn [bind]. rewrite E2. discriminate.
Qed.
Example C131_back_ex : exists z, (let! y := resample dft idft [1; -1] 3 in resample dft idft y 2) = Ok z /\ nth 0 z 0 = / 2.
Proof.
  destruct (C131_up_and_back dft idft [1; -1] 3 dft_meets_contract idft_meets_contract ltac:(cbn; lia)) as (z & E & _ & F). exists z. split; [exact E|]. rewrite F by (cbn; lia).
  cbn [length Nat.even nth rsum Nat.div Nat.divmod fst]. replace (2 * PI * (INR 1 * (INR 0 / INR 2 - INR 0 / INR 2))) with 0 by (cbn; field).
  replace (2 * PI * (INR 1 * (INR 0 / INR 2 - INR 1 / INR 2))) with (- PI) by (cbn; field). rewrite cos_neg, cos_PI, cos_0. cbn [INR]. lra.
Qed.
