(** Resampling and the symmetries of one period: turning the signal, running it backwards, exchanging
    the two sides of an inner product, and the power of the output. *)
From Coq Require Import Reals ZArith Znumtheory List Lia Lra.
From Verif Require Import Base Num M_Complex M_Fourier Cx RSum S_Stats S_Fourier P_Stats P_Fourier P_Resample S_Resample S_ResampleSym T_Fourier T_Resample.
Import ListNotations.
Local Open Scope R_scope.

Lemma kernel_period h u : kernel h (u + 1) = kernel h u.
Proof.
  unfold kernel. apply rsum_ext. intros k _. rewrite !INR_IZR_INZ, <- minus_IZR. set (z := (_ - _)%Z).
  replace (2 * PI * (IZR z * (u + 1))) with (2 * PI * (IZR z * u) + 2 * IZR z * PI) by ring.
  destruct (Z_le_gt_dec 0 z) as [P|P].
  - replace (IZR z) with (INR (Z.to_nat z)) by (rewrite INR_IZR_INZ, Z2Nat.id by lia; reflexivity). apply cos_period.
  - rewrite <- (cos_period (_ + _) (Z.to_nat (- z))). f_equal. rewrite (INR_IZR_INZ (Z.to_nat _)), Z2Nat.id by lia. rewrite opp_IZR. ring.
Qed.
Lemma kernel_sym h u : kernel h (- u) = kernel h u.
Proof. unfold kernel. apply rsum_ext. intros k _. rewrite <- cos_neg. f_equal. ring. Qed.
Lemma turned_length s x : length (turned s x) = length x.
Proof. unfold turned. rewrite app_length, skipn_length, firstn_length. lia. Qed.
Lemma nth_firstn_lt (x : list R) s i : (i < s)%nat -> nth i (firstn s x) 0 = nth i x 0.
Proof. revert s i. induction x as [|a x IH]; intros [|s] [|i] H; cbn; try lia; try reflexivity. apply IH. lia. Qed.
Lemma nth_skipn_add (x : list R) s i : nth i (skipn s x) 0 = nth (s + i) x 0.
Proof. revert s i. induction x as [|a x IH]; intros [|s] i; cbn; try reflexivity; [destruct i; reflexivity|apply IH]. Qed.
Lemma turned_nth s x i : (s <= length x)%nat -> (i < length x)%nat ->
  nth i (turned s x) 0 = if Nat.ltb (s + i) (length x) then nth (s + i) x 0 else nth (s + i - length x) x 0.
Proof.
  intros Hs Hi. unfold turned. destruct (Nat.ltb_spec (s + i) (length x)).
  - rewrite app_nth1 by (rewrite skipn_length; lia). apply nth_skipn_add.
  - rewrite app_nth2 by (rewrite skipn_length; lia). rewrite skipn_length, nth_firstn_lt by lia. f_equal. lia.
Qed.
(** Turning a signal against a function of period one. *)
Lemma turned_sum (g : R -> R) s x : (forall u, g (u + 1) = g u) -> (s <= length x)%nat -> x <> [] ->
  rsum (length x) (fun j => nth j (turned s x) 0 * g (INR j / INR (length x))) =
  rsum (length x) (fun i => nth i x 0 * g (INR i / INR (length x) - INR s / INR (length x))).
Proof.
  intros Hg Hs Hx. assert (NL : INR (length x) <> 0) by (apply not_0_INR; destruct x; [congruence|cbn; lia]).
  rewrite (rsum_ext _ _ (fun j => (if Nat.ltb (s + j) (length x) then nth (s + j) x 0 else nth (s + j - length x) x 0) * g (INR j / INR (length x)))) by (intros j Hj; rewrite turned_nth by assumption; reflexivity).
  set (L := length x) in *.
  assert (S1 : forall f, rsum L f = rsum (L - s) f + rsum s (fun i => f (L - s + i)%nat)) by (intros f; rewrite <- rsum_add; f_equal; lia).
  assert (S2 : forall f, rsum L f = rsum s f + rsum (L - s) (fun i => f (s + i)%nat)) by (intros f; rewrite <- rsum_add; f_equal; lia).
  rewrite (S1 (fun j => _ * g (INR j / INR L))), (S2 (fun i => _ * g (_ - _))). rewrite Rplus_comm. f_equal; apply rsum_ext; intros i Hi.
  - destruct (Nat.ltb_spec (s + (L - s + i)) L); [lia|]. replace (s + (L - s + i) - L)%nat with i by lia. f_equal. rewrite <- (Hg (_ - _)). f_equal. rewrite plus_INR, minus_INR by lia. field. exact NL.
  - destruct (Nat.ltb_spec (s + i) L); [|lia]. f_equal. f_equal. rewrite plus_INR. field. exact NL.
Qed.

(** Starting the period later by the same fraction on both sides: s of L input samples, t of n output
    samples. *)
Theorem C136_turned fft ifft (x : list R) n s t : is_fft fft -> is_ifft ifft -> (s <= length x)%nat -> (t <= n)%nat -> (s * n = t * length x)%nat ->
  resample fft ifft (turned s x) n = (let! y := resample fft ifft x n in Ok (turned t y)).
Proof.
  intros Hf Hi Hs Ht Hst. destruct (resample_formula fft ifft Hf Hi x n) as [y [E [Ly F]]].
  destruct (resample_formula fft ifft Hf Hi (turned s x) n) as [z [E2 [Lz F2]]]. rewrite E, E2. cbn [bind]. f_equal.
  apply (nth_ext _ _ 0 0); [rewrite turned_length; congruence|]. intros m Hm. rewrite Lz in Hm. rewrite F2 by exact Hm. rewrite turned_length.
  destruct (list_eq_dec Req_EM_T x []) as [->|Hx].
  { rewrite turned_nth by lia. destruct (Nat.ltb_spec (t + m) (length y)); rewrite F by lia; cbn [length rsum]; ring. }
  set (L := length x) in *. set (h := (Nat.min L n / 2)%nat) in *.
  assert (NL : INR L <> 0) by (apply not_0_INR; unfold L; destruct x; [congruence|cbn; lia]). assert (Nn : INR n <> 0) by (apply not_0_INR; lia).
  assert (R0 : INR s / INR L = INR t / INR n). { apply (f_equal INR) in Hst. rewrite !mult_INR in Hst. field_simplify_eq; [lra|split; assumption]. }
  pose proof (turned_sum (fun v => kernel h (INR m / INR n - v)) s x) as T. cbv beta in T. fold L in T. rewrite T; [|intros u; rewrite <- (kernel_period h (_ - (u + 1))); f_equal; ring|exact Hs|exact Hx].
  rewrite turned_nth, Ly by lia. rewrite R0. destruct (Nat.ltb_spec (t + m) n).
  - rewrite F by lia. f_equal. apply rsum_ext. intros j _. f_equal. f_equal. rewrite plus_INR. field. split; assumption.
  - rewrite F by lia. f_equal. apply rsum_ext. intros j _. f_equal. rewrite <- (kernel_period h (INR (t + m - n) / INR n - _)). f_equal. rewrite minus_INR, plus_INR by lia. field. split; assumption.
Qed.
Print Assumptions C136_turned.

Lemma backwards_length x : length (backwards x) = length x.
Proof. destruct x; [reflexivity|]. cbn. rewrite rev_length. reflexivity. Qed.
Lemma backwards_nth x i : (S i < length x)%nat -> nth (S i) (backwards x) 0 = nth (length x - S i) x 0.
Proof.
  destruct x as [|a x]; cbn [length]; [lia|]. intros H. cbn [backwards nth]. rewrite rev_nth by lia. replace (S (length x) - S i)%nat with (S (length x - S i)) by lia. reflexivity.
Qed.
Lemma backwards_0 x : nth 0 (backwards x) 0 = nth 0 x 0.
Proof. destruct x; reflexivity. Qed.
Lemma backwards_sum (g : R -> R) x : (forall u, g (u + 1) = g u) ->
  rsum (length x) (fun j => nth j (backwards x) 0 * g (INR j / INR (length x))) =
  rsum (length x) (fun i => nth i x 0 * g (- (INR i / INR (length x)))).
Proof.
  intros Hg. destruct (length x) as [|p] eqn:EL; [reflexivity|]. rewrite !rsum_first. f_equal.
  - rewrite backwards_0. f_equal. f_equal. cbn [INR]. unfold Rdiv. ring.
  - rewrite (rsum_rev p). apply rsum_ext. intros i Hi. rewrite backwards_nth by lia. rewrite EL.
    replace (S p - S (p - 1 - i))%nat with (S i) by lia. f_equal. rewrite <- (Hg (- _)). f_equal.
    replace (S (p - 1 - i))%nat with (S p - S i)%nat by lia. rewrite minus_INR by lia. field. apply not_0_INR. lia.
Qed.
(** Running the period backwards. *)
Theorem C136_backwards fft ifft (x : list R) n : is_fft fft -> is_ifft ifft ->
  resample fft ifft (backwards x) n = (let! y := resample fft ifft x n in Ok (backwards y)).
Proof.
  intros Hf Hi. destruct (resample_formula fft ifft Hf Hi x n) as [y [E [Ly F]]].
  destruct (resample_formula fft ifft Hf Hi (backwards x) n) as [z [E2 [Lz F2]]]. rewrite E, E2. cbn [bind]. f_equal.
  apply (nth_ext _ _ 0 0); [rewrite backwards_length; congruence|]. intros m Hm. rewrite Lz in Hm. rewrite F2 by exact Hm. rewrite backwards_length.
  set (L := length x) in *. set (h := (Nat.min L n / 2)%nat) in *.
  pose proof (backwards_sum (fun v => kernel h (INR m / INR n - v)) x) as T. cbv beta in T. fold L in T. rewrite T; [|intros u; rewrite <- (kernel_period h (_ - (u + 1))); f_equal; ring].
  destruct m as [|m].
  - rewrite backwards_0, F by exact Hm. f_equal. apply rsum_ext. intros j _. f_equal. rewrite <- kernel_sym. f_equal. cbn [INR]. unfold Rdiv. ring.
  - rewrite backwards_nth, Ly, F by lia. f_equal. apply rsum_ext. intros j _. f_equal. rewrite <- kernel_sym, <- kernel_period. f_equal. rewrite minus_INR by lia. unfold Rdiv. rewrite Rmult_minus_distr_r, Rinv_r by (apply not_0_INR; lia). ring.
Qed.
Print Assumptions C136_backwards.

Lemma inner_rsum x y : length x = length y -> inner x y = rsum (length x) (fun i => nth i x 0 * nth i y 0).
Proof.
  unfold inner. revert y. induction x as [|a x IH]; intros [|b y] H; cbn in H; try discriminate; [reflexivity|].
  cbn [combine map length]. rewrite rsum_first. cbn [nth]. rewrite <- IH by lia. reflexivity.
Qed.
(** The two sides of an inner product can be exchanged: resampling x to the length of w and comparing
    with w, or resampling w to the length of x and comparing with x, gives the same mean product. *)
Theorem C136_exchange fft ifft (x w : list R) : is_fft fft -> is_ifft ifft ->
  exists y v, resample fft ifft x (length w) = Ok y /\ resample fft ifft w (length x) = Ok v /\
    inner y w / INR (length w) = inner x v / INR (length x).
Proof.
  intros Hf Hi. destruct (resample_formula fft ifft Hf Hi x (length w)) as [y [E [Ly F]]]. destruct (resample_formula fft ifft Hf Hi w (length x)) as [v [E2 [Lv F2]]].
  exists y, v. split; [exact E|]. split; [exact E2|]. rewrite !inner_rsum, Ly by congruence. set (L := length x) in *. set (n := length w) in *.
  rewrite (rsum_ext n _ (fun m => rsum L (fun j => / INR L * nth j x 0 * nth m w 0 * kernel (Nat.min L n / 2) (INR m / INR n - INR j / INR L)))).
  2:{ intros m Hm. rewrite F by exact Hm. rewrite Rmult_assoc, (Rmult_comm _ (nth m w 0)), <- !rsum_scale. apply rsum_ext. intros j _. ring. }
  rewrite (rsum_ext L (fun i => nth i x 0 * nth i v 0) (fun j => rsum n (fun m => / INR n * nth j x 0 * nth m w 0 * kernel (Nat.min L n / 2) (INR m / INR n - INR j / INR L)))).
  2:{ intros j Hj. rewrite F2 by exact Hj. rewrite <- !rsum_scale. apply rsum_ext. intros m _. 
      rewrite (Nat.min_comm n L). fold n. replace (INR j / INR L - INR m / INR n) with (- (INR m / INR n - INR j / INR L)) by ring. rewrite kernel_sym. ring. }
  rewrite rsum_swap. unfold Rdiv. rewrite <- !rsum_scale_r. apply rsum_ext. intros j _. rewrite <- !rsum_scale_r. apply rsum_ext. intros m _. ring.
Qed.
Print Assumptions C136_exchange.

(** The kernel together with its odd companion. *)
Definition kernel_s (h : nat) (u : R) : R := rsum (2 * h) (fun k => sin (2 * PI * ((INR k - INR h) * u))).
Lemma rsum_prod n m f g : rsum n f * rsum m g = rsum n (fun i => rsum m (fun j => f i * g j)).
Proof. rewrite <- rsum_scale_r. apply rsum_ext. intros i _. rewrite rsum_scale. reflexivity. Qed.
Lemma kernel_pair n h a b : (0 < n)%nat -> (2 * h <= n)%nat ->
  rsum n (fun m => kernel h (INR m / INR n - a) * kernel h (INR m / INR n - b) + kernel_s h (INR m / INR n - a) * kernel_s h (INR m / INR n - b)) = INR n * kernel h (a - b).
Proof.
  intros Hn Hh. assert (Nn : INR n <> 0) by (apply not_0_INR; lia).
  rewrite (rsum_ext n _ (fun m => rsum (2 * h) (fun k => rsum (2 * h) (fun l =>
    cos (2 * PI * (IZR (Z.of_nat k - Z.of_nat l) * INR m / INR n) + 2 * PI * ((INR l - INR h) * b - (INR k - INR h) * a)))))).
  2:{ intros m _. unfold kernel, kernel_s. rewrite !rsum_prod, <- rsum_plus. apply rsum_ext. intros k _. rewrite <- rsum_plus. apply rsum_ext. intros l _.
      rewrite <- cos_minus. f_equal. rewrite minus_IZR, <- !INR_IZR_INZ. field. exact Nn. }
  rewrite rsum_swap. unfold kernel. rewrite <- rsum_scale. apply rsum_ext. intros k Hk. rewrite rsum_swap. rewrite (rsum_single (2 * h) k); [|exact Hk|].
  - rewrite cos_sum by exact Hn. destruct (Zdivide_dec _ _) as [_|D]; [|exfalso; apply D; rewrite Z.sub_diag; apply Z.divide_0_r]. f_equal. rewrite <- cos_neg. f_equal. ring.
  - intros l Hl Nl. rewrite cos_sum by exact Hn. destruct (Zdivide_dec _ _) as [D|_]; [|reflexivity]. exfalso.
    destruct (le_lt_dec l k).
    + apply (nodiv n (Z.of_nat k - Z.of_nat l)); [exact Hn|lia|exact D].
    + apply (nodiv n (- (Z.of_nat k - Z.of_nat l))); [exact Hn|lia|apply Z.divide_opp_r; exact D].
Qed.
(** The mean square of what the kernel makes of x, at n points. *)
Lemma kernel_power n h L (c : nat -> R) (p : nat -> R) : (0 < n)%nat -> (2 * h <= n)%nat ->
  rsum n (fun m => rsum L (fun j => c j * kernel h (INR m / INR n - p j)) * rsum L (fun j => c j * kernel h (INR m / INR n - p j))) <=
  INR n * rsum L (fun j => c j * rsum L (fun i => c i * kernel h (p j - p i))).
Proof.
  intros Hn Hh.
  apply Rle_trans with (rsum n (fun m => rsum L (fun j => c j * kernel h (INR m / INR n - p j)) * rsum L (fun j => c j * kernel h (INR m / INR n - p j)) +
     rsum L (fun j => c j * kernel_s h (INR m / INR n - p j)) * rsum L (fun j => c j * kernel_s h (INR m / INR n - p j)))).
  { rewrite rsum_plus. enough (0 <= rsum n (fun m => rsum L (fun j => c j * kernel_s h (INR m / INR n - p j)) * rsum L (fun j => c j * kernel_s h (INR m / INR n - p j)))) by lra.
    clear. set (f := fun m : nat => rsum L (fun j => c j * kernel_s h (INR m / INR n - p j))). change (0 <= rsum n (fun m => f m * f m)). clearbody f. induction n as [|n IH]; cbn [rsum]; [lra|]. pose proof (Rle_0_sqr (f n)) as Q. unfold Rsqr in Q. lra. }
  apply Req_le. rewrite (rsum_ext n _ (fun m => rsum L (fun j => rsum L (fun i => c j * c i *
    (kernel h (INR m / INR n - p j) * kernel h (INR m / INR n - p i) + kernel_s h (INR m / INR n - p j) * kernel_s h (INR m / INR n - p i)))))).
  2:{ intros m _. rewrite !rsum_prod, <- rsum_plus. apply rsum_ext. intros j _. rewrite <- rsum_plus. apply rsum_ext. intros i _. ring. }
  rewrite rsum_swap, <- rsum_scale. apply rsum_ext. intros j _. rewrite rsum_swap, <- !rsum_scale. apply rsum_ext. intros i _.
  rewrite rsum_scale, kernel_pair by assumption. ring.
Qed.
Lemma power_rsum x : power x = rsum (length x) (fun i => nth i x 0 * nth i x 0) / INR (length x).
Proof.
  unfold power. f_equal. induction x as [|a x IH]; [reflexivity|]. cbn [map length]. rewrite rsum_first. cbn [nth]. rewrite <- IH. reflexivity.
Qed.
(** Resampling never adds power. *)
Theorem C136_power fft ifft (x : list R) n : is_fft fft -> is_ifft ifft -> x <> [] -> (0 < n)%nat ->
  exists y, resample fft ifft x n = Ok y /\ length y = n /\ power y <= power x.
Proof.
  intros Hf Hi Hx Hn. destruct (resample_formula fft ifft Hf Hi x n) as [y [E [Ly F]]]. exists y. split; [exact E|]. split; [exact Ly|].
  rewrite !power_rsum, Ly. set (L := length x) in *. set (h := (Nat.min L n / 2)%nat) in *.
  assert (HL : (0 < L)%nat) by (unfold L; destruct x; [congruence|cbn; lia]).
  assert (H2 : (2 * h <= Nat.min L n)%nat) by (unfold h; apply Nat.mul_div_le; discriminate).
  assert (PL : 0 < INR L) by (apply lt_0_INR; lia). assert (Pn : 0 < INR n) by (apply lt_0_INR; lia).
  set (c := fun j => / INR L * nth j x 0). set (p := fun j => INR j / INR L).
  pose proof (kernel_power n h L c p Hn ltac:(lia)) as A. pose proof (kernel_power L h L c p HL ltac:(lia)) as B.
  set (r := fun j => rsum L (fun i => c i * kernel h (p j - p i))) in *.
  match type of A with ?a <= _ => change (a <= INR n * rsum L (fun j => c j * r j)) in A end.
  change (rsum L (fun m => r m * r m) <= INR L * rsum L (fun j => c j * r j)) in B.
  assert (Cx : rsum L (fun j => c j * r j) = / INR L * rsum L (fun j => nth j x 0 * r j)) by (rewrite <- rsum_scale; apply rsum_ext; intros j _; unfold c; ring).
  assert (D : 0 <= rsum L (fun j => (nth j x 0 - r j) * (nth j x 0 - r j))).
  { set (f := fun j => nth j x 0 - r j). change (0 <= rsum L (fun j => f j * f j)). clear. clearbody L f. induction L as [|L IH]; cbn [rsum]; [lra|]. pose proof (Rle_0_sqr (f L)) as Q. unfold Rsqr in Q. lra. }
  rewrite (rsum_ext L _ (fun j => (nth j x 0 * nth j x 0 + r j * r j) - 2 * (nth j x 0 * r j))) in D by (intros j _; ring).
  rewrite rsum_minus, rsum_plus, rsum_scale in D. rewrite Cx in A, B. rewrite <- Rmult_assoc, Rinv_r, Rmult_1_l in B by lra.
  rewrite (rsum_ext n _ (fun m => rsum L (fun j => c j * kernel h (INR m / INR n - p j)) * rsum L (fun j => c j * kernel h (INR m / INR n - p j)))).
  2:{ intros m Hm. rewrite F by exact Hm. rewrite <- rsum_scale. f_equal; apply rsum_ext; intros j _; unfold c, p; ring. }
  apply Rle_trans with (/ INR L * rsum L (fun j => nth j x 0 * r j)).
  - apply Rmult_le_reg_l with (INR n); [exact Pn|]. unfold Rdiv. rewrite (Rmult_comm _ (/ INR n)), <- Rmult_assoc, Rinv_r, Rmult_1_l by lra. exact A.
  - unfold Rdiv. rewrite Rmult_comm. apply Rmult_le_compat_r; [left; apply Rinv_0_lt_compat; exact PL|]. lra.
Qed.
Print Assumptions C136_power.

(** Instances with the exact DFT, which meets the contract: four samples to six, the period started one
    half later (two of four, three of six); and the same backwards. *)
Example C136_ex :
  resample dft idft [0; 5; 1; 2] 6 = (let! y := resample dft idft [1; 2; 0; 5] 6 in Ok (turned 3 y)) /\
  resample dft idft [1; 5; 0; 2] 6 = (let! y := resample dft idft [1; 2; 0; 5] 6 in Ok (backwards y)).
Proof.
  split.
  - apply (C136_turned dft idft [1; 2; 0; 5] 6 2 3 dft_meets_contract idft_meets_contract); cbn; lia.
  - apply (C136_backwards dft idft [1; 2; 0; 5] 6 dft_meets_contract idft_meets_contract).
Qed.
(** The power is lost and not only kept: the alternating signal resampled to one sample. *)
Example C136_power_ex : exists y, resample dft idft [1; -1] 1 = Ok y /\ power y = 0 /\ power [1; -1] = 1.
Proof.
  exists [0]. split; [apply (C41_resample_one_bin_refuted dft idft [1; -1] 1 dft_meets_contract idft_meets_contract); right; lia|]. unfold power, Rsum. cbn. split; lra.
Qed.
