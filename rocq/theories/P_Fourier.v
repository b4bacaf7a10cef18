(** Proofs about convolution and resampling. *)
From Coq Require Import List Arith ZArith Znumtheory Reals Lra Lia.
From Verif Require Import Base Num M_Linalg M_Complex M_Fourier RSum Cx S_Fourier.
Import ListNotations.
Local Open Scope R_scope.

Lemma length_copy_real (buf : list C) (v : list R) : length (copy_real buf v) = length buf.
Proof. revert v. induction buf as [|b buf IH]; intros [|x v]; cbn; auto. Qed.
Lemma copy_real_nth N v k : (k < N)%nat ->
  nth k (copy_real (repeat C0 N) v) C0 = RtoC (nth k v 0).
Proof.
  revert v k. induction N as [|N IH]; intros [|x v] k H; cbn [repeat copy_real length] in *; try lia.
  - change (C0 :: repeat C0 N) with (repeat C0 (S N)). rewrite nth_repeat. destruct k; reflexivity.
  - destruct k; [reflexivity|]. cbn [nth]. apply IH. lia.
Qed.
Lemma length_zip {A B} (l : list A) (m : list B) : length (zip l m) = Nat.min (length l) (length m).
Proof. revert m. induction l as [|a l IH]; intros [|b m]; cbn; auto. Qed.
Lemma nth_map_zip_cmul (l m : list C) k : length l = length m ->
  nth k (map (fun p => cmul (fst p) (snd p)) (zip l m)) C0 = cmul (nth k l C0) (nth k m C0).
Proof.
  revert m k. induction l as [|a l IH]; intros [|b m] k H; try discriminate H.
  - destruct k; cbn [zip map nth]; ring.
  - destruct k; cbn [zip map nth fst snd]; [reflexivity|]. apply IH. injection H; auto.
Qed.

Lemma small_divide N m : (0 < N)%nat -> (- Z.of_nat N < m < Z.of_nat N)%Z -> (Z.of_nat N | m)%Z -> m = 0%Z.
Proof. intros HN Hm [q ->]. assert (q = 0)%Z by nia. subst. reflexivity. Qed.

(** The transform of a product of transforms. *)
Lemma circular (N : nat) (a b : nat -> C) i : (0 < N)%nat ->
  csum N (fun k => cmul (cmul (csum N (fun j => cmul (a j) (W N (- (Z.of_nat j * Z.of_nat k)))))
                              (csum N (fun l => cmul (b l) (W N (- (Z.of_nat l * Z.of_nat k))))))
                        (W N (Z.of_nat k * Z.of_nat i)))
  = csum N (fun j => csum N (fun l => cmul (cmul (a j) (b l))
       (if Zdivide_dec (Z.of_nat N) (Z.of_nat i - Z.of_nat j - Z.of_nat l) then RtoC (INR N) else C0))).
Proof.
  intros HN.
  transitivity (csum N (fun k => csum N (fun j => csum N (fun l =>
    cmul (cmul (a j) (b l)) (W N ((Z.of_nat i - Z.of_nat j - Z.of_nat l) * Z.of_nat k)))))).
  - apply csum_ext. intros k _. rewrite <- !csum_scale_r. apply csum_ext. intros j _.
    rewrite <- csum_scale, <- csum_scale_r. apply csum_ext. intros l _.
    replace ((Z.of_nat i - Z.of_nat j - Z.of_nat l) * Z.of_nat k)%Z with
      (- (Z.of_nat j * Z.of_nat k) + (- (Z.of_nat l * Z.of_nat k) + Z.of_nat k * Z.of_nat i))%Z by ring.
    rewrite !W_add. ring.
  - rewrite csum_swap. apply csum_ext. intros j _. rewrite csum_swap. apply csum_ext. intros l _.
    rewrite csum_scale, orthogonality by exact HN. reflexivity.
Qed.

Lemma log2_up_ge n : (n <= next_power_of_two n)%nat.
Proof.
  unfold next_power_of_two. destruct (Nat.le_gt_cases n 1) as [H|H].
  - assert (P : (2 ^ Nat.log2_up n <> 0)%nat) by (apply Nat.pow_nonzero; lia). lia.
  - apply Nat.log2_up_spec in H. lia.
Qed.

Section Conv.
Variables fft ifft : list C -> list C.
Hypothesis Hfft : is_fft fft.
Hypothesis Hifft : is_ifft ifft.

Lemma conv_core (x y : list R) N i :
  (0 < N)%nat -> (length x + length y - 1 <= N)%nat ->
  (i < length x + length y - 1)%nat ->
  let a := copy_real (repeat C0 N) x in
  let b := copy_real (repeat C0 N) y in
  let r := ifft (map (fun p => cmul (fst p) (snd p)) (zip (fft a) (fft b))) in
  length r = N /\ cre (nth i r C0) = INR N * convolution x y i.
Proof.
  intros HN Hn Hi a b r.
  assert (La : length a = N) by (unfold a; rewrite length_copy_real, repeat_length; reflexivity).
  assert (Lb : length b = N) by (unfold b; rewrite length_copy_real, repeat_length; reflexivity).
  destruct (Hfft a) as [LFa Fa]. destruct (Hfft b) as [LFb Fb].
  set (pr := map (fun p => cmul (fst p) (snd p)) (zip (fft a) (fft b))) in *.
  assert (Lp : length pr = N) by (unfold pr; rewrite map_length, length_zip; lia).
  destruct (Hifft pr) as [LI I]. fold r in LI, I. split; [lia|].
  rewrite I by lia. rewrite Lp.
  rewrite (csum_ext N _ (fun k => cmul (cmul (csum N (fun j => cmul (nth j a C0) (W N (- (Z.of_nat j * Z.of_nat k)))))
                              (csum N (fun l => cmul (nth l b C0) (W N (- (Z.of_nat l * Z.of_nat k))))))
                        (W N (Z.of_nat k * Z.of_nat i)))).
  2:{ intros k Hk. unfold pr. rewrite nth_map_zip_cmul by lia. rewrite Fa, Fb by lia. rewrite La, Lb. reflexivity. }
  rewrite circular by exact HN.
  rewrite (csum_ext N _ (fun j => RtoC (INR N * (nth j x 0 * at_ y (Z.of_nat i - Z.of_nat j))))).
  - rewrite csum_RtoC. change (cre (RtoC ?t)) with t. rewrite rsum_scale. f_equal.
    unfold convolution. destruct (Nat.eq_dec (length y) 0) as [y0|y0].
    { apply length_zero_iff_nil in y0. rewrite y0.
      assert (Z0 : forall t, at_ [] t = 0) by (intros t; unfold at_; destruct (t <? 0)%Z, (Z.to_nat t); reflexivity).
      rewrite !rsum_zero; [reflexivity| |]; intros j _; rewrite Z0; ring. }
    replace N with (length x + (N - length x))%nat by lia.
    rewrite rsum_add, (rsum_zero (N - length x)).
    + rewrite Rplus_0_r. apply rsum_ext. intros j _. f_equal. unfold at_.
      destruct (Z.ltb_spec (Z.of_nat j) 0); [lia|]. rewrite Nat2Z.id. reflexivity.
    + intros j _. rewrite (nth_overflow x) by lia. ring.
  - intros j Hj. unfold a, b. rewrite copy_real_nth by exact Hj.
    unfold at_. destruct (Z.ltb_spec (Z.of_nat i - Z.of_nat j) 0) as [Hneg|Hpos].
    + rewrite csum_zero; [cx|]. intros l Hl. rewrite copy_real_nth by exact Hl.
      destruct (Zdivide_dec _ _) as [D|D]; [|ring].
      destruct (Nat.lt_ge_cases j (length x)) as [Jx|Jx]; [|rewrite (nth_overflow x) by lia; cx].
      destruct (Nat.lt_ge_cases l (length y)) as [Ly|Ly]; [|rewrite (nth_overflow y) by lia; cx].
      apply small_divide in D; lia.
    + rewrite (csum_single N (i - j)%nat).
      * rewrite copy_real_nth by lia. destruct (Zdivide_dec _ _) as [D|D].
        -- replace (Z.to_nat (Z.of_nat i - Z.of_nat j)) with (i - j)%nat by lia. cx.
        -- exfalso. apply D. exists 0%Z. lia.
      * lia.
      * intros l Hl Hne. rewrite copy_real_nth by exact Hl.
        destruct (Zdivide_dec _ _) as [D|D]; [|ring].
        destruct (Nat.lt_ge_cases j (length x)) as [Jx|Jx]; [|rewrite (nth_overflow x) by lia; cx].
        destruct (Nat.lt_ge_cases l (length y)) as [Ly|Ly]; [|rewrite (nth_overflow y) by lia; cx].
        apply small_divide in D; lia.
Qed.

Definition full (x y : list R) : list R := map (convolution x y) (seq 0 (length x + length y - 1)).

Lemma firstn_map_seq {A B} (f : A -> B) (l : list A) d n (g : nat -> B) :
  (n <= length l)%nat -> (forall i, (i < n)%nat -> f (nth i l d) = g i) ->
  map f (firstn n l) = map g (seq 0 n).
Proof.
  revert l g. induction n as [|n IH]; intros l g Hl H; [reflexivity|].
  destruct l as [|a l]; cbn [length] in Hl; [lia|]. cbn [firstn map seq]. f_equal.
  - apply (H 0%nat). lia.
  - rewrite <- seq_shift, map_map. apply IH; [lia|]. intros i Hi. apply (H (S i)). lia.
Qed.

Lemma fftconvolve_eq x y mode : (0 < length x + length y)%nat ->
  fftconvolve fft ifft x y mode =
  match mode with
  | Full => Ok (full x y)
  | Valid => if Nat.leb (length y) (length x)
             then let! a := usub (length y) 1 in slice (full x y) a (length x) else Ok []
  | Same => let! a := usub (length y) 1 in slice (full x y) (a / 2)%nat (a / 2 + length x)%nat
  end.
Proof.
  intros H. unfold fftconvolve. unfold usub at 1.
  destruct (Nat.ltb_spec (length x + length y) 1); [lia|]. cbn [bind].
  set (n := (length x + length y - 1)%nat). set (N := next_power_of_two n).
  assert (HN0 : (N <> 0)%nat) by (unfold N, next_power_of_two; apply Nat.pow_nonzero; lia).
  assert (HN : (n <= N)%nat) by apply log2_up_ge.
  assert (G : map (fun z : C => (cre z / nofZ (Z.of_nat N))%num) (firstn n (ifft
      (map (fun p => cmul (fst p) (snd p)) (zip (fft (copy_real (repeat czero N) x)) (fft (copy_real (repeat czero N) y)))))) = full x y).
  2:{ rewrite G. reflexivity. }
  unfold full. fold n. destruct (Nat.eq_dec n 0) as [n0|n0]; [rewrite n0; reflexivity|].
  apply (firstn_map_seq (fun z : C => (cre z / nofZ (Z.of_nat N))%num) _ C0).
  - destruct (conv_core x y N 0) as [L _]; fold n; lia.
  - intros i Hi. destruct (conv_core x y N i) as [_ Q]; try (fold n; lia). cbn [nofZ ndiv RNum].
    change (@czero R RNum) with C0. rewrite Q, <- INR_IZR_INZ. field. apply not_0_INR. exact HN0.
Qed.

Lemma slice_full x y a b : (a <= b)%nat -> (b <= length x + length y - 1)%nat ->
  slice (full x y) a b = Ok (map (convolution x y) (seq a (b - a))).
Proof.
  intros H1 H2. unfold slice, full. rewrite map_length, seq_length.
  destruct (Nat.leb_spec a b); [|lia]. destruct (Nat.leb_spec b (length x + length y - 1)); [|lia]. cbn [andb].
  f_equal. replace (length x + length y - 1)%nat with (a + ((b - a) + (length x + length y - 1 - b)))%nat by lia.
  rewrite seq_app, map_app, skipn_app, map_length, seq_length, Nat.sub_diag.
  rewrite skipn_all2 by (rewrite map_length, seq_length; lia). cbn [app skipn Nat.add].
  rewrite seq_app, map_app, firstn_app, map_length, seq_length, Nat.sub_diag.
  rewrite firstn_all2 by (rewrite map_length, seq_length; lia). cbn [firstn]. apply app_nil_r.
Qed.
End Conv.

Lemma at_rev (y : list R) (t : Z) :
  at_ (rev y) t = at_ y (Z.of_nat (length y) - 1 - t).
Proof.
  unfold at_. destruct (Z.ltb_spec t 0) as [H|H].
  - destruct (Z.ltb_spec (Z.of_nat (length y) - 1 - t) 0); [lia|]. symmetry. apply nth_overflow. lia.
  - destruct (Z.ltb_spec (Z.of_nat (length y) - 1 - t) 0) as [G|G].
    + apply nth_overflow. rewrite rev_length. lia.
    + rewrite rev_nth by lia. f_equal. lia.
Qed.
