(** Properties C37-C42, C63, C64: convolution, correlation, resampling, square wave. *)
From Coq Require Import List Arith ZArith Znumtheory Reals Lra Lia SpecFloat.
From Verif Require Import Base Num M_Complex M_Fourier M_Wave RSum Cx S_Fourier P_Fourier P_Resample P_Wave.
Import ListNotations.
Local Open Scope R_scope.

Ltac cons_lra := repeat match goal with
  | |- Ok _ = Ok _ => apply f_equal
  | |- _ :: _ = _ :: _ => apply f_equal2; [unfold Pos.to_nat; cbn; lra|]
  | |- [] = [] => reflexivity end.

(** A pair of transforms meeting the contract: the sums themselves. *)
Definition dft (l : list C) : list C :=
  map (fun k => csum (length l) (fun j => cmul (nth j l C0) (W (length l) (- (Z.of_nat j * Z.of_nat k))))) (seq 0 (length l)).
Definition idft (l : list C) : list C :=
  map (fun k => csum (length l) (fun j => cmul (nth j l C0) (W (length l) (Z.of_nat j * Z.of_nat k)))) (seq 0 (length l)).
Lemma nth_map_seq0 {A} (f : nat -> A) n k d : (k < n)%nat -> nth k (map f (seq 0 n)) d = f k.
Proof.
  intros H. rewrite (nth_indep _ d (f 0%nat)) by (rewrite map_length, seq_length; exact H).
  rewrite map_nth, seq_nth by exact H. reflexivity.
Qed.
Example dft_meets_contract : is_fft dft.
Proof. intros l. unfold dft. rewrite map_length, seq_length. split; [reflexivity|]. intros k Hk. rewrite nth_map_seq0 by exact Hk. reflexivity. Qed.
Example idft_meets_contract : is_ifft idft.
Proof. intros l. unfold idft. rewrite map_length, seq_length. split; [reflexivity|]. intros k Hk. rewrite nth_map_seq0 by exact Hk. reflexivity. Qed.

(** C37 *)
Theorem C37_convolve_full fft ifft (x y : list R) :
  is_fft fft -> is_ifft ifft -> x <> [] -> y <> [] ->
  exists r, convolve fft ifft x y Full = Ok r /\
    length r = (length x + length y - 1)%nat /\
    forall i, (i < length x + length y - 1)%nat -> nth i r 0 = convolution x y i.
Proof.
  intros Hf Hi Hx Hy. assert (length x <> 0 /\ length y <> 0)%nat by (split; rewrite length_zero_iff_nil; assumption).
  unfold convolve. rewrite (fftconvolve_eq fft ifft Hf Hi) by lia. exists (full x y).
  split; [reflexivity|]. unfold full. split; [rewrite map_length, seq_length; reflexivity|].
  intros i Hi'. apply nth_map_seq0. exact Hi'.
Qed.
Print Assumptions C37_convolve_full.

Example C37_concrete : convolve dft idft [1; 2; 3] [0; 1; 1 / 2] Full = Ok [0; 1; 5 / 2; 4; 3 / 2].
Proof.
  unfold convolve. rewrite (fftconvolve_eq dft idft dft_meets_contract idft_meets_contract) by (cbn; lia).
  unfold full, convolution, at_. cbn. cons_lra.
Qed.

(** Both signals empty: the length computation underflows. *)
Theorem C37_convolve_empty_panics fft ifft mode : @convolve R RNum fft ifft [] [] mode = Panic.
Proof. reflexivity. Qed.
Print Assumptions C37_convolve_empty_panics.

(** C38.  Valid when the second signal is not the longer one, and Same. *)
Theorem C38_convolve_valid_same_partial fft ifft (x y : list R) :
  is_fft fft -> is_ifft ifft -> y <> [] ->
  ((length y <= length x)%nat ->
   exists r, convolve fft ifft x y Valid = Ok r /\
     length r = (Nat.max (length x) (length y) - Nat.min (length x) (length y) + 1)%nat /\
     forall i, (i < length r)%nat ->
       nth i r 0 = rsum (length y) (fun j => nth j y 0 * nth (i + (length y - 1) - j) x 0)) /\
  (exists r, convolve fft ifft x y Same = Ok r /\
     length r = length x /\
     forall i, (i < length x)%nat -> nth i r 0 = convolution x y ((length y - 1) / 2 + i)).
Proof.
  intros Hf Hi Hy. assert (Ly : (length y <> 0)%nat) by (rewrite length_zero_iff_nil; assumption).
  assert (Hdiv : ((length y - 1) / 2 <= length y - 1)%nat) by (apply Nat.div_le_upper_bound; lia).
  unfold convolve. rewrite !(fftconvolve_eq fft ifft Hf Hi) by lia.
  unfold usub. destruct (Nat.ltb_spec (length y) 1) as [H|H]; [lia|]. cbn [bind]. split.
  - intros Hle. destruct (Nat.leb_spec (length y) (length x)) as [_|]; [|lia].
    rewrite slice_full by lia. eexists. split; [reflexivity|]. rewrite map_length, seq_length.
    split; [lia|]. intros i Hi'.
    rewrite (nth_indep _ 0 (convolution x y 0)) by (rewrite map_length, seq_length; exact Hi').
    rewrite map_nth, seq_nth by exact Hi'. unfold convolution.
    (* only positions i .. i+ly-1 of x contribute *)
    replace (length x) with (i + (length y + (length x - length y - i)))%nat at 1 by lia.
    rewrite rsum_add, (rsum_zero i), Rplus_0_l.
    2:{ intros j Hj. replace (at_ y _) with 0; [ring|]. unfold at_. destruct (Z.ltb_spec (Z.of_nat (length y - 1 + i) - Z.of_nat j) 0); [reflexivity|].
        symmetry. apply nth_overflow. lia. }
    rewrite rsum_add, (rsum_zero (length x - length y - i)), Rplus_0_r.
    2:{ intros j Hj. replace (at_ y _) with 0; [ring|]. unfold at_. destruct (Z.ltb_spec (Z.of_nat (length y - 1 + i) - Z.of_nat (i + (length y + j))) 0); [reflexivity|lia]. }
    rewrite rsum_rev. apply rsum_ext. intros j Hj. unfold at_.
    destruct (Z.ltb_spec (Z.of_nat (i + (length y - 1 - j))) 0); [lia|].
    destruct (Z.ltb_spec (Z.of_nat (length y - 1 + i) - Z.of_nat (i + (length y - 1 - j))) 0); [lia|].
    rewrite Rmult_comm. f_equal; f_equal; lia.
  - rewrite slice_full by lia. eexists. split; [reflexivity|]. rewrite map_length, seq_length.
    replace ((length y - 1) / 2 + length x - (length y - 1) / 2)%nat with (length x) by lia.
    split; [reflexivity|]. intros i Hi'.
    rewrite (nth_indep _ 0 (convolution x y 0)) by (rewrite map_length, seq_length; exact Hi').
    rewrite map_nth, seq_nth by exact Hi'. reflexivity.
Qed.
Print Assumptions C38_convolve_valid_same_partial.
Example C38_concrete :
  convolve dft idft [1; 2; 3; 4] [1; 10] Valid = Ok [12; 23; 34] /\
  convolve dft idft [1; 2; 3; 4] [1; 10; 100] Same = Ok [12; 123; 234; 340].
Proof.
  unfold convolve. rewrite !(fftconvolve_eq dft idft dft_meets_contract idft_meets_contract) by (cbn; lia).
  unfold full, convolution, at_, slice, usub. cbn. split; cons_lra.
Qed.

(** A shorter first signal: Valid returns nothing although max-min+1 positions overlap fully. *)
Theorem C38_convolve_valid_shorter_refuted fft ifft (x y : list R) :
  is_fft fft -> is_ifft ifft -> (length x < length y)%nat ->
  convolve fft ifft x y Valid = Ok [] /\
  (0 < Nat.max (length x) (length y) - Nat.min (length x) (length y) + 1)%nat.
Proof.
  intros Hf Hi H. unfold convolve. rewrite (fftconvolve_eq fft ifft Hf Hi) by lia.
  destruct (Nat.leb_spec (length y) (length x)); [lia|]. split; [reflexivity|lia].
Qed.
Print Assumptions C38_convolve_valid_shorter_refuted.
(** An empty second signal panics in Valid and Same mode. *)
Theorem C38_convolve_empty_second_panics fft ifft (x : list R) :
  is_fft fft -> is_ifft ifft -> x <> [] ->
  convolve fft ifft x [] Valid = Panic /\ convolve fft ifft x [] Same = Panic.
Proof.
  intros Hf Hi Hx. assert (length x <> 0)%nat by (rewrite length_zero_iff_nil; assumption).
  unfold convolve. rewrite !(fftconvolve_eq fft ifft Hf Hi) by (cbn; lia). split; reflexivity.
Qed.
Print Assumptions C38_convolve_empty_second_panics.

(** C39 *)
Theorem C39_correlate_full fft ifft (x y : list R) :
  is_fft fft -> is_ifft ifft -> x <> [] -> y <> [] ->
  exists r, correlate fft ifft x y Full = Ok r /\
    length r = (length x + length y - 1)%nat /\
    forall k, (k < length x + length y - 1)%nat -> nth k r 0 = correlation x y k.
Proof.
  intros Hf Hi Hx Hy. assert (length x <> 0 /\ length y <> 0)%nat by (split; rewrite length_zero_iff_nil; assumption).
  unfold correlate. rewrite (fftconvolve_eq fft ifft Hf Hi) by (rewrite rev_length; lia).
  eexists. split; [reflexivity|]. unfold full. rewrite rev_length. split; [rewrite map_length, seq_length; reflexivity|].
  intros k Hk. rewrite nth_map_seq0 by exact Hk. unfold convolution, correlation. apply rsum_ext. intros i _.
  rewrite at_rev. f_equal. f_equal. lia.
Qed.
Print Assumptions C39_correlate_full.
Example C39_concrete : correlate dft idft [1; 2; 3] [0; 1; 1 / 2] Full = Ok [1 / 2; 2; 7 / 2; 3; 0].
Proof.
  unfold correlate. rewrite (fftconvolve_eq dft idft dft_meets_contract idft_meets_contract) by (cbn; lia).
  unfold full, convolution, at_. cbn. cons_lra.
Qed.

(** C40.  Exactly n values, always; the identity for every even length; for an odd
    length the component at frequency (L-1)/2 is lost, exactly as stated. *)
Theorem C40_resample_length_and_even_identity_partial fft ifft (x : list R) n :
  is_fft fft -> is_ifft ifft ->
  (exists y, resample fft ifft x n = Ok y /\ length y = n) /\
  (Nat.even (length x) = true -> resample fft ifft x (length x) = Ok x).
Proof.
  intros Hf Hi. split.
  - destruct (resample_formula fft ifft Hf Hi x n) as [y [E [L _]]]. exists y. split; assumption.
  - intros He. destruct (resample_formula fft ifft Hf Hi x (length x)) as [y [E [L F]]]. rewrite E. f_equal.
    apply (nth_ext _ _ 0 0); [exact L|]. intros m Hm. rewrite L in Hm. rewrite F by exact Hm. rewrite Nat.min_id.
    rewrite (rsum_single _ m); [|exact Hm|].
    + rewrite kernel_even by assumption. destruct (Nat.eq_dec m m); [|congruence]. field. apply not_0_INR. lia.
    + intros j Hj Hne. rewrite kernel_even by assumption. destruct (Nat.eq_dec m j); [congruence|ring].
Qed.
Print Assumptions C40_resample_length_and_even_identity_partial.
Example C40_concrete : resample dft idft [3; 1; 4; 1] 4 = Ok [3; 1; 4; 1].
Proof.
  exact (proj2 (C40_resample_length_and_even_identity_partial dft idft [3; 1; 4; 1] 4 dft_meets_contract idft_meets_contract) eq_refl).
Qed.
Theorem C40_resample_odd_exact fft ifft (x : list R) :
  is_fft fft -> is_ifft ifft -> Nat.odd (length x) = true ->
  exists y, resample fft ifft x (length x) = Ok y /\ length y = length x /\
  forall m, (m < length x)%nat ->
    nth m y 0 = nth m x 0 - / INR (length x) *
      rsum (length x) (fun j => nth j x 0 *
        cos (2 * PI * (INR (length x / 2) * (INR m / INR (length x) - INR j / INR (length x))))).
Proof.
  intros Hf Hi Ho. destruct (resample_formula fft ifft Hf Hi x (length x)) as [y [E [L F]]].
  exists y. split; [exact E|]. split; [exact L|]. intros m Hm. rewrite F by exact Hm. rewrite Nat.min_id.
  rewrite (rsum_ext _ _ (fun j => nth j x 0 * (if Nat.eq_dec m j then INR (length x) else 0) -
     nth j x 0 * cos (2 * PI * (INR (length x / 2) * (INR m / INR (length x) - INR j / INR (length x)))))).
  2:{ intros j Hj. rewrite kernel_odd by assumption. ring. }
  rewrite rsum_minus, (rsum_single _ m); [|exact Hm|].
  - destruct (Nat.eq_dec m m); [|congruence]. field. apply not_0_INR. lia.
  - intros j Hj Hne. destruct (Nat.eq_dec m j); [congruence|ring].
Qed.
Print Assumptions C40_resample_odd_exact.
Theorem C40_resample_same_length_refuted fft ifft : is_fft fft -> is_ifft ifft ->
  exists x : list R, resample fft ifft x (length x) <> Ok x /\ resample fft ifft x (length x) = Ok [0].
Proof.
  intros Hf Hi. exists [1]. cbn [length]. destruct (resample_formula fft ifft Hf Hi [1] 1) as [y [E [L F]]].
  rewrite E. destruct y as [|v [|w y]]; try discriminate L. specialize (F 0%nat). cbn [nth] in F.
  assert (v = 0) by (rewrite F by lia; unfold kernel; cbn; lra). subst. split; [|reflexivity].
  intros H. injection H. lra.
Qed.
Print Assumptions C40_resample_same_length_refuted.

(** C41.  Constants, as soon as both lengths are at least 2; samples kept by
    integer-factor upsampling of every even-length signal. *)
Theorem C41_resample_constant_and_upsampling_partial fft ifft :
  is_fft fft -> is_ifft ifft ->
  (forall c L n, (2 <= L)%nat -> (2 <= n)%nat ->
     resample fft ifft (repeat c L) n = Ok (repeat c n)) /\
  (forall (x : list R) q, Nat.even (length x) = true -> (1 <= q)%nat ->
     exists y, resample fft ifft x (q * length x) = Ok y /\ length y = (q * length x)%nat /\
     forall i, (i < length x)%nat -> nth (q * i) y 0 = nth i x 0).
Proof.
  intros Hf Hi. split.
  - intros c L n HL Hn. destruct (resample_formula fft ifft Hf Hi (repeat c L) n) as [y [E [Ly F]]]. rewrite E. f_equal.
    apply (nth_ext _ _ 0 0); [rewrite repeat_length; exact Ly|]. intros m Hm. rewrite Ly in Hm.
    rewrite F by exact Hm. rewrite repeat_length.
    rewrite (rsum_ext _ _ (fun j => c * kernel (Nat.min L n / 2) (INR m / INR n - INR j / INR L))).
    2:{ intros j Hj. rewrite (nth_indep _ 0 c) by (rewrite repeat_length; exact Hj). rewrite nth_repeat. reflexivity. }
    rewrite rsum_scale, kernel_const by lia. rewrite (nth_indep _ 0 c) by (rewrite repeat_length; exact Hm).
    rewrite nth_repeat. field. apply not_0_INR. lia.
  - intros x q He Hq. destruct (resample_formula fft ifft Hf Hi x (q * length x)) as [y [E [L F]]].
    exists y. split; [exact E|]. split; [exact L|]. intros i Hii. rewrite F by nia.
    replace (Nat.min (length x) (q * length x)) with (length x) by nia.
    assert (EQ : INR (q * i) / INR (q * length x) = INR i / INR (length x)).
    { rewrite !mult_INR. field. split; apply not_0_INR; lia. }
    rewrite EQ. rewrite (rsum_single _ i); [|exact Hii|].
    + rewrite kernel_even by assumption. destruct (Nat.eq_dec i i); [|congruence]. field. apply not_0_INR. lia.
    + intros j Hj Hne. rewrite kernel_even by assumption. destruct (Nat.eq_dec i j); [congruence|ring].
Qed.
Print Assumptions C41_resample_constant_and_upsampling_partial.
Example C41_concrete : resample dft idft [5; 5; 5] 7 = Ok [5; 5; 5; 5; 5; 5; 5].
Proof.
  exact (proj1 (C41_resample_constant_and_upsampling_partial dft idft dft_meets_contract idft_meets_contract) 5 3%nat 7%nat ltac:(lia) ltac:(lia)).
Qed.
(** With fewer than two bins the result is all zeros. *)
Theorem C41_resample_one_bin_refuted fft ifft (x : list R) n :
  is_fft fft -> is_ifft ifft -> (length x <= 1 \/ n <= 1)%nat ->
  resample fft ifft x n = Ok (repeat 0 n).
Proof.
  intros Hf Hi H. destruct (resample_formula fft ifft Hf Hi x n) as [y [E [L F]]]. rewrite E. f_equal.
  apply (nth_ext _ _ 0 0); [rewrite repeat_length; exact L|]. intros m Hm. rewrite L in Hm. rewrite F by exact Hm.
  rewrite nth_repeat. rewrite rsum_zero; [ring|]. intros j _.
  replace (Nat.min (length x) n / 2)%nat with 0%nat by (symmetry; apply Nat.div_small; lia). unfold kernel. cbn. ring.
Qed.
Print Assumptions C41_resample_one_bin_refuted.
(** Upsampling an odd-length signal does not keep the samples: [1] repeated. *)
Theorem C41_resample_odd_upsampling_refuted fft ifft : is_fft fft -> is_ifft ifft ->
  exists (x : list R) q y, (1 <= q)%nat /\ (3 <= length x)%nat /\ resample fft ifft x (q * length x) = Ok y /\
    exists i, (i < length x)%nat /\ nth (q * i) y 0 <> nth i x 0.
Proof.
  intros Hf Hi. exists [1; 0; 0], 2%nat.
  destruct (resample_formula fft ifft Hf Hi [1; 0; 0] 6) as [y [E [L F]]]. exists y.
  split; [lia|]. split; [cbn; lia|]. split; [exact E|]. exists 0%nat. split; [cbn; lia|].
  rewrite Nat.mul_0_r. rewrite F by lia. cbn [length nth rsum].
  change (Nat.min 3 6 / 2)%nat with 1%nat.
  assert (K : kernel 1 (INR 0 / INR 6 - INR 0 / INR 3) = 2).
  { replace (INR 0 / INR 6 - INR 0 / INR 3) with 0 by (cbn; field). unfold kernel. cbn [Nat.mul Nat.add rsum].
    rewrite !Rmult_0_r, cos_0. ring. }
  rewrite K. cbn. lra.
Qed.
Print Assumptions C41_resample_odd_upsampling_refuted.

(** C63: the output in closed form, for every signal and every n; hence linearity. *)
Theorem C63_resample_closed_form fft ifft (x : list R) n :
  is_fft fft -> is_ifft ifft ->
  exists y, resample fft ifft x n = Ok y /\ length y = n /\
  forall m, (m < n)%nat ->
    nth m y 0 = / INR (length x) *
      rsum (length x) (fun j => nth j x 0 *
        kernel (Nat.min (length x) n / 2) (INR m / INR n - INR j / INR (length x))).
Proof. intros Hf Hi. apply resample_formula; assumption. Qed.
Print Assumptions C63_resample_closed_form.
Theorem C63_resample_linear fft ifft (x y : list R) c d n :
  is_fft fft -> is_ifft ifft -> length x = length y ->
  exists rx ry, resample fft ifft x n = Ok rx /\ resample fft ifft y n = Ok ry /\
    resample fft ifft (map (fun p => c * fst p + d * snd p) (combine x y)) n =
    Ok (map (fun p => c * fst p + d * snd p) (combine rx ry)).
Proof.
  intros Hf Hi Hl. destruct (resample_formula fft ifft Hf Hi x n) as [rx [Ex [Lx Fx]]].
  destruct (resample_formula fft ifft Hf Hi y n) as [ry [Ey [Ly Fy]]].
  set (z := map (fun p => c * fst p + d * snd p) (combine x y)).
  assert (Lz : length z = length x) by (unfold z; rewrite map_length, combine_length; lia).
  assert (Nz : forall (u v : list R) j, length u = length v ->
      nth j (map (fun p => c * fst p + d * snd p) (combine u v)) 0 = c * nth j u 0 + d * nth j v 0).
  { intros u v j Huv. pose proof (map_nth (fun p : R * R => c * fst p + d * snd p) (combine u v) (0, 0) j) as M.
    rewrite combine_nth in M by exact Huv. cbn [fst snd] in M. rewrite <- M. f_equal. ring. }
  destruct (resample_formula fft ifft Hf Hi z n) as [rz [Ez [Lz' Fz]]].
  exists rx, ry. split; [exact Ex|]. split; [exact Ey|]. rewrite Ez. f_equal.
  apply (nth_ext _ _ 0 0); [rewrite map_length, combine_length; lia|]. intros m Hm. rewrite Lz' in Hm.
  rewrite Nz by lia. rewrite Fx, Fy, Fz by exact Hm. rewrite Lz, <- Hl.
  rewrite (rsum_ext _ _ (fun j => c * (nth j x 0 * kernel (Nat.min (length x) n / 2) (INR m / INR n - INR j / INR (length x)))
    + d * (nth j y 0 * kernel (Nat.min (length x) n / 2) (INR m / INR n - INR j / INR (length x))))).
  - rewrite rsum_plus, !rsum_scale. ring.
  - intros j _. unfold z. rewrite Nz by exact Hl. ring.
Qed.
Print Assumptions C63_resample_linear.

(** C42.  In exact arithmetic, with or without debug assertions. *)
Theorem C42_square_exact_partial debug (t : list R) duty : 0 <= duty <= 1 ->
  exists r, square_real debug t duty = Ok r /\
    Forall2 (fun t v =>
      (exists k : Z, 2 * PI * IZR k <= t < 2 * PI * IZR k + 2 * PI * duty) /\ v = 1 \/
      (forall k : Z, ~ 2 * PI * IZR k <= t < 2 * PI * IZR k + 2 * PI * duty) /\ v = -1) t r.
Proof.
  intros Hd. unfold square_real, square. cbn [nleb nzero none nmul RNum].
  unfold Rleb. destruct (Rle_dec 0 duty); [|lra]. destruct (Rle_dec duty 1); [|lra]. cbn [andb rassert bind].
  apply rmap_nth. intros a. apply square_at_real. exact Hd.
Qed.
Print Assumptions C42_square_exact_partial.
Example C42_concrete : exists r, square_real true [0; PI; - (PI / 2)] (1 / 2) = Ok r /\ r = [1; -1; -1].
Proof.
  pose proof PI_RGT_0 as HP.
  destruct (C42_square_exact_partial true [0; PI; - (PI / 2)] (1 / 2)) as [r [E F]]; [lra|]. exists r. split; [exact E|].
  inversion F as [|? a ? l1 Ha F1]; subst. inversion F1 as [|? b ? l2 Hb F2]; subst.
  inversion F2 as [|? c ? l3 Hc F3]; subst. inversion F3; subst.
  apply f_equal2; [|apply f_equal2; [|apply f_equal2; [|reflexivity]]].
  - destruct Ha as [[_ ->]|[N _]]; [reflexivity|]. exfalso. apply (N 0%Z). lra.
  - destruct Hb as [[[k Hk] _]|[_ ->]]; [|reflexivity]. exfalso.
    assert (IZR k < 1) by nra. assert (0 < IZR k) by nra.
    apply lt_IZR in H. apply lt_IZR in H0. lia.
  - destruct Hc as [[[k Hk] _]|[_ ->]]; [|reflexivity]. exfalso.
    assert (IZR k < 0) by nra. assert (-1 < IZR k) by nra.
    apply lt_IZR in H. apply lt_IZR in H0. lia.
Qed.

(** For every number type: a duty outside [0,1] (or not comparable with 0 and 1)
    panics, whatever the array; every value returned is 1 or -1. *)
Theorem C42_square_duty_panics {F} {NF : Num F} two_pi rem debug (t : list F) duty :
  nleb nzero duty = false \/ nleb duty none = false ->
  square two_pi rem debug t duty = Panic.
Proof. unfold square. intros [H|H]; rewrite H; [reflexivity|]. rewrite Bool.andb_false_r. reflexivity. Qed.
Print Assumptions C42_square_duty_panics.
Theorem C42_square_values {F} {NF : Num F} two_pi rem debug (t : list F) duty r :
  square two_pi rem debug t duty = Ok r ->
  length r = length t /\ forall v, In v r -> v = none \/ v = nneg none.
Proof.
  unfold square. destruct (rassert _); try discriminate. cbn [bind].
  revert r. induction t as [|t0 t IH]; intros r H; cbn [rmap] in H.
  - injection H as <-. split; [reflexivity|intros v []].
  - unfold square_at at 1 in H. destruct (rassert _); try discriminate. cbn [bind] in H.
    destruct (rmap _ t) as [bs| | |] eqn:E; try discriminate. cbn [bind] in H. injection H as <-.
    destruct (IH bs eq_refl) as [L V]. split; [cbn [length]; rewrite L; reflexivity|].
    intros v [<-|Hv]; [|apply V; exact Hv].
    match goal with |- context [if ?c then _ else _] => destruct c end; [left|right]; reflexivity.
Qed.
Print Assumptions C42_square_values.
(** In f64, -2^-60 with duty 1 gives -1 : the wrapped position rounds up to 2*pi. *)
Theorem C42_square_f64_refuted debug :
  square_f64 debug [S754_finite true 4503599627370496 (-112)] (@none _ F64Num) = Ok [@nneg _ F64Num (@none _ F64Num)].
Proof. destruct debug; vm_compute; reflexivity. Qed.
Print Assumptions C42_square_f64_refuted.
