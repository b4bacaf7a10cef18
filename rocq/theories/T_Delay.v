(** Correlation with a pulse: the largest possible value, and where the pulse is found. *)
From Coq Require Import Reals ZArith List Lia Lra.
From Verif Require Import Base Num M_Complex M_Fourier Cx RSum S_Fourier S_Stats S_Delay P_Stats P_Fourier T_Fourier.
Import ListNotations.
Local Open Scope R_scope.

Lemma energy_rsum x : energy x = rsum (length x) (fun i => nth i x 0 * nth i x 0).
Proof.
  unfold energy. induction x as [|a x IH]; [reflexivity|]. cbn [map length]. rewrite rsum_first. cbn [nth]. rewrite <- IH. reflexivity.
Qed.
Lemma sum_sq_nonneg n f : 0 <= rsum n (fun i => f i * f i).
Proof. induction n as [|n IH]; cbn [rsum]; [lra|]. pose proof (Rle_0_sqr (f n)) as Q. unfold Rsqr in Q. lra. Qed.
Lemma sum_sq_zero n f : rsum n (fun i => f i * f i) = 0 -> forall i, (i < n)%nat -> f i = 0.
Proof.
  induction n as [|n IH]; intros H i Hi; [lia|]. cbn [rsum] in H. pose proof (sum_sq_nonneg n f) as P. pose proof (Rle_0_sqr (f n)) as Q. unfold Rsqr in Q.
  destruct (Nat.eq_dec i n) as [->|Ni]; [apply Rsqr_0_uniq; unfold Rsqr; lra|]. apply IH; [lra|lia].
Qed.
Lemma sum_cauchy n f g : rsum n (fun i => f i * g i) * rsum n (fun i => f i * g i) <= rsum n (fun i => f i * f i) * rsum n (fun i => g i * g i).
Proof.
  set (a := rsum n (fun i => f i * f i)). set (b := rsum n (fun i => f i * g i)). set (c := rsum n (fun i => g i * g i)).
  assert (P : forall t, 0 <= a - 2 * t * b + t * t * c).
  { intros t. replace (a - 2 * t * b + t * t * c) with (rsum n (fun i => (f i - t * g i) * (f i - t * g i))); [apply (sum_sq_nonneg n (fun i => f i - t * g i))|].
    unfold a, b, c. rewrite <- !rsum_scale, <- rsum_minus, <- rsum_plus. apply rsum_ext. intros i _. ring. }
  assert (Hc : 0 <= c) by apply sum_sq_nonneg. destruct (Rle_lt_or_eq_dec 0 c Hc) as [Pc|Zc].
  - specialize (P (b / c)). replace (a - 2 * (b / c) * b + b / c * (b / c) * c) with ((a * c - b * b) / c) in P by (field; lra).
    apply Rmult_le_compat_r with (r := c) in P; [|lra]. unfold Rdiv in P. rewrite Rmult_assoc, Rinv_l in P by lra. lra.
  - assert (B : b = 0); [|rewrite B; rewrite <- Zc; lra]. unfold b. apply rsum_zero. intros i Hi. rewrite (sum_sq_zero n g (eq_sym Zc) i Hi). ring.
Qed.
(** A window of integers cut in three. *)
Lemma window3 (f : Z -> R) M N c n : (- N <= c)%Z -> (c + Z.of_nat n <= Z.of_nat M - N)%Z ->
  rsum M (fun m => f (Z.of_nat m - N)%Z) =
  rsum (Z.to_nat (N + c)) (fun m => f (Z.of_nat m - N)%Z) + rsum n (fun i => f (Z.of_nat i + c)%Z) +
  rsum (M - Z.to_nat (N + c) - n) (fun i => f (Z.of_nat i + (c + Z.of_nat n))%Z).
Proof.
  intros H1 H2. replace M with (Z.to_nat (N + c) + n + (M - Z.to_nat (N + c) - n))%nat at 1 by lia. rewrite !rsum_add.
  f_equal; [f_equal|]; apply rsum_ext; intros i _; f_equal; lia.
Qed.
Lemma at_out x i : (i < 0 \/ Z.of_nat (length x) <= i)%Z -> at_ x i = 0.
Proof. intros H. unfold at_. destruct (Z.ltb_spec i 0); [reflexivity|]. apply nth_overflow. lia. Qed.
Lemma at_in x i : at_ x (Z.of_nat i) = nth i x 0.
Proof. unfold at_. destruct (Z.ltb_spec (Z.of_nat i) 0); [lia|]. rewrite Nat2Z.id. reflexivity. Qed.
(** The squares of [x] read in any window. *)
Lemma window_energy x n c : rsum n (fun i => at_ x (Z.of_nat i + c) * at_ x (Z.of_nat i + c)) <= energy x.
Proof.
  set (f := fun z => at_ x z * at_ x z). set (N := (Z.abs c)%Z). set (M := (Z.to_nat N + Z.to_nat N + n + length x)%nat).
  assert (F : forall z, 0 <= f z) by (intros z; pose proof (Rle_0_sqr (at_ x z)) as Q; exact Q).
  assert (G : forall k (h : nat -> Z), 0 <= rsum k (fun i => f (h i))) by (intros k h; apply (sum_sq_nonneg k (fun i => at_ x (h i)))).
  change (rsum n (fun i => f (Z.of_nat i + c)%Z) <= energy x).
  pose proof (window3 f M N c n ltac:(lia) ltac:(lia)) as A. pose proof (window3 f M N 0 (length x) ltac:(lia) ltac:(lia)) as B.
  rewrite (rsum_zero (Z.to_nat (N + 0))) in B by (intros i Hi; unfold f; rewrite at_out by lia; ring).
  rewrite (rsum_zero (M - _ - _)) in B by (intros i Hi; unfold f; rewrite at_out by lia; ring).
  assert (E : rsum (length x) (fun i => f (Z.of_nat i + 0)%Z) = energy x) by (rewrite energy_rsum; apply rsum_ext; intros i _; unfold f; rewrite Z.add_0_r, at_in; reflexivity).
  pose proof (G (Z.to_nat (N + c)) (fun m => (Z.of_nat m - N)%Z)). pose proof (G (M - Z.to_nat (N + c) - n)%nat (fun i => (Z.of_nat i + (c + Z.of_nat n))%Z)). lra.
Qed.

(** No value of the correlation of [x] with [y] exceeds the geometric mean of their energies. *)
Theorem C137_bounded fft ifft (x y : list R) : is_fft fft -> is_ifft ifft -> x <> [] -> y <> [] ->
  exists r, correlate fft ifft x y Full = Ok r /\ length r = (length x + length y - 1)%nat /\
    forall k, (k < length r)%nat -> nth k r 0 * nth k r 0 <= energy x * energy y.
Proof.
  intros Hf Hi Hx Hy. destruct (C39_correlate_full fft ifft x y Hf Hi Hx Hy) as [r [E [Lr F]]]. exists r. split; [exact E|]. split; [exact Lr|].
  intros k Hk. rewrite F by lia. unfold correlation. set (c := (- Z.of_nat k + Z.of_nat (length y) - 1)%Z).
  rewrite (rsum_ext _ _ (fun i => nth i x 0 * at_ y (Z.of_nat i + c))) by (intros i _; rewrite at_in; f_equal; f_equal; unfold c; lia).
  eapply Rle_trans; [apply sum_cauchy|]. rewrite <- energy_rsum. apply Rmult_le_compat_l; [rewrite energy_rsum; apply sum_sq_nonneg|apply window_energy].
Qed.
Print Assumptions C137_bounded.

(** The correlation of [y] with itself, [l] samples apart. *)
Lemma self_below y l : l <> 0%Z -> (exists v, In v y /\ v <> 0) ->
  rsum (length y) (fun i => nth i y 0 * at_ y (Z.of_nat i + l)) < energy y.
Proof.
  intros Hl [v [Iv Nv]]. set (n := length y). set (N := (Z.abs l + Z.of_nat n)%Z). set (M := (Z.to_nat N + Z.to_nat N + n)%nat).
  set (f := fun z => at_ y z * at_ y z). set (g := fun z => at_ y z * at_ y (z + l)). set (d := fun z => at_ y z - at_ y (z + l)).
  assert (S1 : rsum M (fun m => f (Z.of_nat m - N)%Z) = energy y).
  { rewrite (window3 f M N 0 n) by lia. rewrite (rsum_zero (Z.to_nat _)) by (intros i Hi; unfold f; rewrite at_out by lia; ring).
    rewrite (rsum_zero (M - _ - _)) by (intros i Hi; unfold f; rewrite at_out by (fold n; lia); ring). rewrite energy_rsum. fold n.
    rewrite Rplus_0_l, Rplus_0_r. apply rsum_ext. intros i _. unfold f. rewrite Z.add_0_r, at_in. reflexivity. }
  assert (S2 : rsum M (fun m => f (Z.of_nat m - N + l)%Z) = energy y).
  { rewrite (window3 (fun z => f (z + l)%Z) M N (- l) n) by lia. rewrite (rsum_zero (Z.to_nat _)) by (intros i Hi; unfold f; rewrite at_out by lia; ring).
    rewrite (rsum_zero (M - _ - _)) by (intros i Hi; unfold f; rewrite at_out by (fold n; lia); ring). rewrite energy_rsum. fold n.
    rewrite Rplus_0_l, Rplus_0_r. apply rsum_ext. intros i _. unfold f. replace (Z.of_nat i + - l + l)%Z with (Z.of_nat i) by lia. rewrite at_in. reflexivity. }
  assert (S3 : rsum M (fun m => g (Z.of_nat m - N)%Z) = rsum n (fun i => nth i y 0 * at_ y (Z.of_nat i + l))).
  { rewrite (window3 g M N 0 n) by lia. rewrite (rsum_zero (Z.to_nat _)) by (intros i Hi; unfold g; rewrite at_out by lia; ring).
    rewrite (rsum_zero (M - _ - _)) by (intros i Hi; unfold g; rewrite at_out by (fold n; lia); ring).
    rewrite Rplus_0_l, Rplus_0_r. apply rsum_ext. intros i _. unfold g. rewrite Z.add_0_r, at_in. reflexivity. }
  assert (S4 : rsum M (fun m => d (Z.of_nat m - N)%Z * d (Z.of_nat m - N)%Z) = 2 * energy y - 2 * rsum n (fun i => nth i y 0 * at_ y (Z.of_nat i + l))).
  { rewrite <- S3. rewrite (rsum_ext M _ (fun m => (f (Z.of_nat m - N)%Z + f (Z.of_nat m - N + l)%Z) - 2 * g (Z.of_nat m - N)%Z)) by (intros m _; unfold d, f, g; ring).
    rewrite rsum_minus, rsum_plus, rsum_scale, S1, S2. ring. }
  pose proof (sum_sq_nonneg M (fun m => d (Z.of_nat m - N)%Z)) as P. cbv beta in P. rewrite S4 in P.
  destruct (Rlt_le_dec (rsum n (fun i => nth i y 0 * at_ y (Z.of_nat i + l))) (energy y)) as [?|Ge]; [assumption|exfalso].
  assert (Z0 : forall z, (- N <= z < Z.of_nat M - N)%Z -> at_ y z = at_ y (z + l)).
  { intros z Hz. pose proof (sum_sq_zero M (fun m => d (Z.of_nat m - N)%Z) ltac:(cbv beta; rewrite S4; lra) (Z.to_nat (z + N)) ltac:(lia)) as Q. cbv beta in Q.
    rewrite Z2Nat.id in Q by lia. replace (z + N - N)%Z with z in Q by lia. unfold d in Q. lra. }
  apply Nv. destruct (In_nth y v 0 Iv) as [i [Hi Ei]]. fold n in Hi. rewrite <- Ei, <- at_in.
  destruct (Z_lt_le_dec 0 l) as [Lp|Ln].
  - assert (I : forall j z, (0 <= z)%Z -> (Z.of_nat n - Z.of_nat j <= z)%Z -> at_ y z = 0).
    { induction j as [|j IH]; intros z Hz0 Hz; [apply at_out; fold n; lia|]. destruct (Z_lt_le_dec z (Z.of_nat n)); [|apply at_out; fold n; lia]. rewrite Z0 by lia. apply IH; lia. }
    apply (I n); lia.
  - assert (I : forall j z, (z < Z.of_nat j)%Z -> (z < Z.of_nat n)%Z -> at_ y z = 0).
    { induction j as [|j IH]; intros z Hz Hz2; [apply at_out; lia|]. destruct (Z_lt_le_dec z 0); [apply at_out; lia|]. rewrite Z0 by lia. apply IH; lia. }
    apply (I n); lia.
Qed.

(** A pulse [y], scaled by [A > 0], after [d] zeros: the correlation with [y] is largest at the index
    [d + len y - 1] and nowhere else, and there it is [A] times the energy of the pulse. *)
Theorem C137_delay_found fft ifft (y : list R) d A e : is_fft fft -> is_ifft ifft -> 0 < A -> (exists v, In v y /\ v <> 0) ->
  exists r, correlate fft ifft (echo d A y e) y Full = Ok r /\ length r = (d + length y + e + length y - 1)%nat /\
    nth (d + length y - 1) r 0 = A * energy y /\
    forall k, (k < length r)%nat -> k <> (d + length y - 1)%nat -> nth k r 0 < nth (d + length y - 1) r 0.
Proof.
  intros Hf Hi HA Hv. assert (Hy : y <> []) by (destruct Hv as [v [Iv _]]; intros ->; destruct Iv).
  assert (Lx : length (echo d A y e) = (d + length y + e)%nat) by (unfold echo; rewrite !app_length, map_length, !repeat_length; lia).
  assert (Hn : (0 < length y)%nat) by (destruct y; [congruence|cbn; lia]).
  assert (Hx : echo d A y e <> []) by (intros Q; rewrite Q in Lx; cbn in Lx; lia).
  destruct (C39_correlate_full fft ifft (echo d A y e) y Hf Hi Hx Hy) as [r [E [Lr F]]]. rewrite Lx in *. exists r. split; [exact E|]. split; [exact Lr|].
  assert (V : forall k, (k < length r)%nat -> nth k r 0 = A * rsum (length y) (fun i => nth i y 0 * at_ y (Z.of_nat i + (Z.of_nat (d + length y) - 1 - Z.of_nat k)))).
  { intros k Hk. rewrite F by lia. unfold correlation. rewrite Lx, <- Nat.add_assoc, !rsum_add.
    rewrite (rsum_zero d) by (intros i Hi'; rewrite at_in; unfold echo; rewrite app_nth1, nth_repeat by (rewrite repeat_length; lia); ring).
    rewrite (rsum_zero e) by (intros i Hi'; rewrite at_in; unfold echo; rewrite app_nth2 by (rewrite repeat_length; lia); rewrite repeat_length, app_nth2 by (rewrite map_length; lia); rewrite nth_repeat; ring).
    rewrite Rplus_0_l, Rplus_0_r, <- rsum_scale. apply rsum_ext. intros i Hi'. rewrite at_in. unfold echo. rewrite app_nth2 by (rewrite repeat_length; lia). rewrite repeat_length, app_nth1 by (rewrite map_length; lia).
    replace (d + i - d)%nat with i by lia. rewrite (nth_indep _ 0 (A * 0)) by (rewrite map_length; lia). rewrite (map_nth (fun v => A * v)), Rmult_assoc. f_equal. f_equal. f_equal. lia. }
  assert (T : nth (d + length y - 1) r 0 = A * energy y).
  { rewrite V by lia. f_equal. rewrite energy_rsum. apply rsum_ext. intros i _. f_equal. rewrite <- at_in. f_equal. lia. }
  split; [exact T|]. intros k Hk Nk. rewrite T, V by exact Hk. apply Rmult_lt_compat_l; [exact HA|]. apply self_below; [lia|exact Hv].
Qed.
Print Assumptions C137_delay_found.

(** Noise [w] added to the signal: if the correlation without it is largest at [p] by a margin [g] whose
    square exceeds four times the product of the energies of the noise and the pulse, it is still largest
    at [p]. *)
Theorem C137_delay_noise fft ifft (x w y : list R) p g r : is_fft fft -> is_ifft ifft -> x <> [] -> y <> [] -> length w = length x ->
  correlate fft ifft x y Full = Ok r -> (p < length r)%nat -> 0 <= g -> 4 * (energy w * energy y) < g * g ->
  (forall k, (k < length r)%nat -> k <> p -> nth k r 0 + g <= nth p r 0) ->
  exists r', correlate fft ifft (map (fun ab => fst ab + snd ab) (combine x w)) y Full = Ok r' /\ length r' = length r /\
    forall k, (k < length r')%nat -> k <> p -> nth k r' 0 < nth p r' 0.
Proof.
  intros Hf Hi Hx Hy Lw E Hp Hg Hn Hk. set (z := map (fun ab => fst ab + snd ab) (combine x w)).
  assert (Lz : length z = length x) by (unfold z; rewrite map_length, combine_length; lia).
  assert (Hw : w <> []) by (destruct w; [destruct x; [congruence|discriminate]|discriminate]).
  assert (Hz : z <> []) by (destruct z; [destruct x; [congruence|discriminate]|discriminate]).
  destruct (C39_correlate_full fft ifft x y Hf Hi Hx Hy) as [r0 [E0 [L0 F0]]]. rewrite E in E0. injection E0 as <-.
  destruct (C39_correlate_full fft ifft z y Hf Hi Hz Hy) as [r' [E1 [L1 F1]]].
  destruct (C39_correlate_full fft ifft w y Hf Hi Hw Hy) as [rw [E2 [L2 F2]]].
  destruct (C137_bounded fft ifft w y Hf Hi Hw Hy) as [rw' [E2' [_ B]]]. rewrite E2 in E2'. injection E2' as <-.
  rewrite Lz in *. rewrite Lw in *. exists r'. split; [exact E1|]. split; [congruence|].
  assert (A : forall k, (k < length r)%nat -> nth k r' 0 = nth k r 0 + nth k rw 0).
  { intros k Hk'. rewrite F0, F1, F2 by lia. unfold correlation. rewrite Lz, Lw, <- rsum_plus. apply rsum_ext. intros i Hi'. rewrite !at_in.
    replace (nth i z 0) with (nth i x 0 + nth i w 0); [ring|]. unfold z. rewrite (nth_indep (map _ _) 0 (fst (0, 0) + snd (0, 0))) by (rewrite map_length, combine_length; lia).
    rewrite (map_nth (fun ab => fst ab + snd ab)), combine_nth by lia. reflexivity. }
  assert (Q : forall k, (k < length r)%nat -> Rabs (nth k rw 0) < g / 2).
  { intros k Hk'. specialize (B k ltac:(lia)).  apply Rabs_def1; nra. }
  intros k Hk' Nk. rewrite L1, <- L0 in Hk'. rewrite !A by assumption. pose proof (Hk k Hk' Nk). pose proof (Rabs_def2 _ _ (Q k Hk')). pose proof (Rabs_def2 _ _ (Q p Hp)). lra.
Qed.
Print Assumptions C137_delay_noise.

(** An instance with the exact DFT, which meets the contract: the pulse 1, -2 found after three zeros,
    and a pulse of zeros that cannot be found. *)
Example C137_ex : exists r, correlate dft idft [0; 0; 0; 3; -6; 0] [1; -2] Full = Ok r /\ nth 4 r 0 = 15 /\
  forall k, (k < 7)%nat -> k <> 4%nat -> nth k r 0 < 15.
Proof.
  destruct (C137_delay_found dft idft [1; -2] 3 3 1 dft_meets_contract idft_meets_contract ltac:(lra)) as (r & E & L & T & B); [exists 1; split; [left; reflexivity|lra]|].
  exists r. split.
  - rewrite <- E. f_equal. unfold echo. cbn. repeat (f_equal; try lra).
  - cbn in T, B, L. unfold energy, Rsum in T. cbn in T. assert (T' : nth 4 r 0 = 15) by (rewrite T; lra). split; [exact T'|]. intros k Hk Nk. rewrite <- T'. apply B; lia.
Qed.
(** The same with noise: the pulse 1, -2 with a margin of 5. *)
Example C137_noise_ex : exists r r', correlate dft idft [0; 1; -2] [1; -2] Full = Ok r /\ correlate dft idft [0 + 1 / 4; 1 + 1 / 2; -2 + 0] [1; -2] Full = Ok r' /\
  forall k, (k < 4)%nat -> k <> 2%nat -> nth k r' 0 < nth 2 r' 0.
Proof.
  destruct (C39_correlate_full dft idft [0; 1; -2] [1; -2] dft_meets_contract idft_meets_contract ltac:(discriminate) ltac:(discriminate)) as [r [E [L F]]]. cbn in L.
  destruct (C137_delay_noise dft idft [0; 1; -2] [1 / 4; 1 / 2; 0] [1; -2] 2 5 r dft_meets_contract idft_meets_contract ltac:(discriminate) ltac:(discriminate) eq_refl E ltac:(lia) ltac:(lra)) as [r' [E' [L' B]]].
  - unfold energy, Rsum. cbn. lra.
  - rewrite L. intros k Hk Nk. rewrite !F by (cbn; lia). unfold correlation. destruct k as [|[|[|[|k]]]]; try lia; unfold at_; cbn; unfold Pos.to_nat; cbn; lra.
  - exists r, r'. split; [exact E|]. split; [exact E'|]. intros k Hk. apply B. lia.
Qed.
Example C137_zero_ex : exists r, correlate dft idft [0; 0; 0] [0] Full = Ok r /\ nth 0 r 0 = nth 1 r 0.
Proof.
  destruct (C137_bounded dft idft [0; 0; 0] [0] dft_meets_contract idft_meets_contract ltac:(discriminate) ltac:(discriminate)) as (r & E & L & B). exists r. split; [exact E|]. cbn in L.
  assert (Z : forall k, (k < 3)%nat -> nth k r 0 = 0). { intros k Hk. specialize (B k ltac:(lia)). unfold energy, Rsum in B. cbn in B. apply Rsqr_0_uniq. unfold Rsqr. pose proof (Rle_0_sqr (nth k r 0)) as Q. unfold Rsqr in Q. lra. }
  rewrite !Z by lia. reflexivity.
Qed.
