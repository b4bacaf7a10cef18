(** Proofs about [resample]. *)
From Coq Require Import List Arith ZArith Znumtheory Reals Lra Lia.
From Verif Require Import Base Num M_Linalg M_Complex M_Fourier RSum Cx S_Fourier P_Fourier.
Import ListNotations.
Local Open Scope R_scope.

Definition spread (X : list C) (n : nat) : list C :=
  let h := (Nat.min (length X) n / 2)%nat in
  firstn h X ++ repeat C0 (n - 2 * h) ++ skipn (length X - h) X.

Lemma half_le a b : (2 * (Nat.min a b / 2) <= a /\ 2 * (Nat.min a b / 2) <= b)%nat.
Proof. pose proof (Nat.mul_div_le (Nat.min a b) 2). lia. Qed.

Lemma resample_unfold fft ifft (x : list R) n :
  resample fft ifft x n =
  let X := fft (map (fun v => (v, 0)) x) in
  Ok (map (fun v => cre v * (1 / IZR (Z.of_nat (length X)))) (ifft (spread X n))).
Proof.
  cbv zeta. unfold resample. cbn [nzero RNum].
  set (X := fft (map (fun v : R => (v, 0)) x)). cbv zeta.
  set (h := (Nat.min (length X) n / 2)%nat).
  pose proof (half_le (length X) n) as [H1 H2]. fold h in H1, H2.
  unfold slice at 1. destruct (Nat.leb_spec 0 h); [|lia]. destruct (Nat.leb_spec h (length X)); [|lia].
  cbn [andb bind]. rewrite Nat.sub_0_r. change (skipn 0 X) with X.
  assert (LF : length (firstn h X) = h) by (rewrite firstn_length; lia).
  unfold copy_at at 1. rewrite LF, Nat.sub_0_r, Nat.eqb_refl.
  destruct (Nat.leb_spec 0 h); [|lia]. rewrite repeat_length. destruct (Nat.leb_spec h n); [|lia].
  cbn [andb bind firstn app].
  unfold usub at 1. destruct (Nat.ltb_spec n h); [lia|]. cbn [bind].
  unfold usub at 1. destruct (Nat.ltb_spec (length X) h); [lia|]. cbn [bind].
  unfold slice at 1. destruct (Nat.leb_spec (length X - h) (length X)); [|lia]. rewrite Nat.leb_refl. cbn [andb bind].
  replace (length X - (length X - h))%nat with h by lia.
  assert (LS : length (skipn (length X - h) X) = h) by (rewrite skipn_length; lia).
  rewrite (firstn_all2 (n := h) (skipn (length X - h) X)) by lia.
  assert (SR : skipn h (repeat C0 n) = repeat C0 (n - h)).
  { replace n with (h + (n - h))%nat at 1 by lia. rewrite repeat_app, skipn_app, repeat_length, Nat.sub_diag.
    rewrite skipn_all2 by (rewrite repeat_length; lia). reflexivity. }
  rewrite SR. assert (LY : length (firstn h X ++ repeat C0 (n - h)) = n) by (rewrite app_length, LF, repeat_length; lia).
  unfold copy_at. rewrite LY, LS. destruct (Nat.leb_spec (n - h) n); [|lia]. rewrite Nat.leb_refl.
  replace (n - (n - h))%nat with h by lia. rewrite Nat.eqb_refl. cbn [andb bind].
  rewrite (skipn_all2 (n := n)) by lia. rewrite app_nil_r.
  assert (FR : firstn (n - h) (firstn h X ++ repeat C0 (n - h)) = firstn h X ++ repeat C0 (n - 2 * h)).
  { rewrite firstn_app, LF. rewrite (firstn_all2 (n := (n - h)%nat)) by lia. f_equal.
    replace (n - h)%nat with ((n - 2 * h) + h)%nat at 2 by lia. rewrite repeat_app, firstn_app, repeat_length.
    replace (n - h - h - (n - 2 * h))%nat with 0%nat by lia.
    rewrite firstn_all2 by (rewrite repeat_length; lia). cbn [firstn]. apply app_nil_r. }
  rewrite FR. unfold spread. fold h. rewrite <- app_assoc. reflexivity.
Qed.

Lemma spread_length X n : length (spread X n) = n.
Proof.
  unfold spread. pose proof (half_le (length X) n) as [H1 H2].
  rewrite !app_length, firstn_length, repeat_length, skipn_length. lia.
Qed.
Lemma spread_low X n k : let h := (Nat.min (length X) n / 2)%nat in
  (k < h)%nat -> nth k (spread X n) C0 = nth k X C0.
Proof.
  intros h H. unfold spread. fold h. pose proof (half_le (length X) n) as [H1 H2]. fold h in H1, H2.
  rewrite app_nth1 by (rewrite firstn_length; lia).
  rewrite <- (firstn_skipn h X) at 2. rewrite app_nth1 by (rewrite firstn_length; lia). reflexivity.
Qed.
Lemma spread_mid X n k : let h := (Nat.min (length X) n / 2)%nat in
  (k < n - 2 * h)%nat -> nth (h + k) (spread X n) C0 = C0.
Proof.
  intros h H. unfold spread. fold h. pose proof (half_le (length X) n) as [H1 H2]. fold h in H1, H2.
  rewrite app_nth2 by (rewrite firstn_length; lia). rewrite firstn_length.
  rewrite app_nth1 by (rewrite repeat_length; lia). apply nth_repeat.
Qed.
Lemma spread_high X n k : let h := (Nat.min (length X) n / 2)%nat in
  nth (h + (n - 2 * h) + k) (spread X n) C0 = nth (length X - h + k) X C0.
Proof.
  intros h. unfold spread. fold h. pose proof (half_le (length X) n) as [H1 H2]. fold h in H1, H2.
  rewrite app_nth2 by (rewrite firstn_length; lia). rewrite firstn_length.
  rewrite app_nth2 by (rewrite repeat_length; lia). rewrite repeat_length.
  replace (h + (n - 2 * h) + k - Nat.min h (length X) - (n - 2 * h))%nat with k by lia.
  transitivity (nth (length X - h + k) (firstn (length X - h) X ++ skipn (length X - h) X) C0);
    [|rewrite firstn_skipn; reflexivity].
  rewrite app_nth2 by (rewrite firstn_length; lia).
  rewrite firstn_length. f_equal. lia.
Qed.

Lemma W_mul_E L n (f j m : Z) :
  cre (cmul (W L (- (j * f))) (W n (f * m))) = cos (2 * PI * (IZR f * (IZR m / INR n - IZR j / INR L))).
Proof.
  unfold W. rewrite <- E_add. unfold E, cre, fst. f_equal. rewrite opp_IZR, !mult_IZR. unfold Rdiv. ring.
Qed.

Section Res.
Variables fft ifft : list C -> list C.
Hypothesis Hfft : is_fft fft.
Hypothesis Hifft : is_ifft ifft.

Lemma resample_formula (x : list R) n : exists y,
  resample fft ifft x n = Ok y /\ length y = n /\
  forall m, (m < n)%nat ->
    nth m y 0 = / INR (length x) *
      rsum (length x) (fun j => nth j x 0 * kernel (Nat.min (length x) n / 2) (INR m / INR n - INR j / INR (length x))).
Proof.
  rewrite resample_unfold. cbv zeta.
  set (xs := map (fun v : R => (v, 0)) x). assert (Lx : @length C xs = length x) by apply map_length.
  destruct (Hfft xs) as [LX FX]. rewrite Lx in LX. rewrite Lx in FX. set (X := fft xs) in *.
  destruct (Hifft (spread X n)) as [LI FI]. rewrite spread_length in LI, FI.
  eexists. split; [reflexivity|]. split; [rewrite map_length; exact LI|].
  intros m Hm.
  rewrite (nth_indep _ 0 (cre C0 * (1 / IZR (Z.of_nat (length X))))) by (rewrite map_length; lia).
  rewrite (map_nth (fun v : C => cre v * (1 / IZR (Z.of_nat (length X))))).
  rewrite FI by exact Hm. rewrite LX, <- INR_IZR_INZ.
  set (L := length x) in *. set (h := (Nat.min L n / 2)%nat).
  pose proof (half_le L n) as [H1 H2]. fold h in H1, H2.
  assert (EX : forall k, nth k xs C0 = RtoC (nth k x 0)).
  { intros k. unfold xs. change C0 with ((fun v : R => (v, 0)) 0). rewrite map_nth. reflexivity. }
  rewrite Rmult_comm. unfold Rdiv at 1. rewrite Rmult_1_l. f_equal.
  replace n with (h + (n - 2 * h) + h)%nat at 1 by lia.
  assert (Eh : h = (Nat.min (length X) n / 2)%nat) by (unfold h; rewrite LX; reflexivity).
  rewrite !csum_add. rewrite (csum_zero (n - 2 * h)).
  2:{ intros k Hk. rewrite Eh, spread_mid by (rewrite <- Eh; exact Hk). ring. }
  transitivity (cre (csum h (fun k => csum L (fun j => cmul (RtoC (nth j x 0))
       (cmul (W L (- (Z.of_nat j * (Z.of_nat k - Z.of_nat h)))) (W n ((Z.of_nat k - Z.of_nat h) * Z.of_nat m)))))
    + csum h (fun k => csum L (fun j => cmul (RtoC (nth j x 0))
       (cmul (W L (- (Z.of_nat j * Z.of_nat k))) (W n (Z.of_nat k * Z.of_nat m))))))%C).
  - f_equal. match goal with |- (?a + C0 + ?b)%C = (?c + ?d)%C => replace c with b; [replace d with a; [ring|]|] end.
    + apply csum_ext. intros k Hk. rewrite Eh in Hk. rewrite spread_low by exact Hk. rewrite <- Eh in Hk.
      rewrite FX by lia. rewrite <- csum_scale_r. apply csum_ext. intros j Hj. rewrite EX. ring.
    + apply csum_ext. intros k Hk. rewrite Eh at 1 2. rewrite spread_high, <- Eh. rewrite LX.
      rewrite FX by lia. rewrite <- csum_scale_r. apply csum_ext. intros j Hj. rewrite EX.
      replace (W L (- (Z.of_nat j * Z.of_nat (L - h + k)))) with (W L (- (Z.of_nat j * (Z.of_nat k - Z.of_nat h)))).
      2:{ rewrite <- (W_period L _ (- Z.of_nat j)) by lia. f_equal. lia. }
      replace (W n (Z.of_nat (h + (n - 2 * h) + k) * Z.of_nat m)) with (W n ((Z.of_nat k - Z.of_nat h) * Z.of_nat m)).
      2:{ rewrite <- (W_period n _ (Z.of_nat m)) by lia. f_equal.
          replace (Z.of_nat (h + (n - 2 * h) + k)) with (Z.of_nat k - Z.of_nat h + Z.of_nat n)%Z by lia. ring. }
      ring.
  - change (cre (?a + ?b)%C) with (cre a + cre b). rewrite !csum_re.
    transitivity (rsum (2 * h) (fun k => rsum L (fun j => nth j x 0 *
       cos (2 * PI * ((INR k - INR h) * (INR m / INR n - INR j / INR L)))))).
    + replace (2 * h)%nat with (h + h)%nat by lia. rewrite rsum_add. f_equal; apply rsum_ext; intros k Hk; rewrite csum_re;
        apply rsum_ext; intros j Hj.
      * transitivity (nth j x 0 * cre (cmul (W L (- (Z.of_nat j * (Z.of_nat k - Z.of_nat h)))) (W n ((Z.of_nat k - Z.of_nat h) * Z.of_nat m)))); [cbn; ring|].
        rewrite W_mul_E, minus_IZR, <- !INR_IZR_INZ. reflexivity.
      * transitivity (nth j x 0 * cre (cmul (W L (- (Z.of_nat j * Z.of_nat k))) (W n (Z.of_nat k * Z.of_nat m)))); [cbn; ring|].
        rewrite W_mul_E, <- !INR_IZR_INZ, plus_INR. do 3 f_equal. ring.
    + rewrite rsum_swap. apply rsum_ext. intros j _. unfold kernel. rewrite <- rsum_scale. reflexivity.
Qed.
End Res.

(** The kernel over a full period. *)
Lemma full_kernel L h i j : (i < L)%nat -> (j < L)%nat ->
  rsum L (fun k => cos (2 * PI * ((INR k - INR h) * (INR i / INR L - INR j / INR L)))) = if Nat.eq_dec i j then INR L else 0.
Proof.
  intros Hi Hj. set (d := (Z.of_nat i - Z.of_nat j)%Z).
  transitivity (cre (cmul (W L (- (Z.of_nat h * d))) (csum L (fun k => W L (d * Z.of_nat k))))).
  - rewrite <- csum_scale, csum_re. apply rsum_ext. intros k _.
    rewrite <- W_add. unfold W, E, cre, fst. f_equal.
    rewrite plus_IZR, opp_IZR, !mult_IZR. unfold d. rewrite minus_IZR, <- !INR_IZR_INZ. unfold Rdiv. ring.
  - rewrite orthogonality by lia. destruct (Nat.eq_dec i j) as [<-|N].
    + replace d with 0%Z by (unfold d; lia). destruct (Zdivide_dec _ _) as [_|D]; [|exfalso; apply D; exists 0%Z; lia].
      rewrite Z.mul_0_r. change (- 0)%Z with 0%Z. rewrite W_0. cbn. ring.
    + destruct (Zdivide_dec _ _) as [D|_]; [|cbn; ring]. apply small_divide in D; unfold d in *; lia.
Qed.
Lemma kernel_even L i j : (i < L)%nat -> (j < L)%nat -> Nat.even L = true ->
  kernel (L / 2) (INR i / INR L - INR j / INR L) = if Nat.eq_dec i j then INR L else 0.
Proof.
  intros Hi Hj He. apply Nat.even_spec in He. destruct He as [h Eh].
  assert (E2 : (L / 2 = h)%nat) by (rewrite Eh, Nat.mul_comm, Nat.div_mul; lia).
  rewrite E2. unfold kernel. rewrite <- Eh. apply full_kernel; assumption.
Qed.
Lemma kernel_odd L i j : (i < L)%nat -> (j < L)%nat -> Nat.odd L = true ->
  kernel (L / 2) (INR i / INR L - INR j / INR L) =
  (if Nat.eq_dec i j then INR L else 0) - cos (2 * PI * (INR (L / 2) * (INR i / INR L - INR j / INR L))).
Proof.
  intros Hi Hj Ho. apply Nat.odd_spec in Ho. destruct Ho as [h Eh].
  assert (E2 : (L / 2 = h)%nat) by (symmetry; apply (Nat.div_unique _ _ _ 1); lia).
  rewrite E2. rewrite <- (full_kernel L h i j Hi Hj). unfold kernel.
  assert (RS : forall g, rsum L g = rsum (2 * h) g + g (2 * h)%nat)
    by (intros g; rewrite Eh; replace (2 * h + 1)%nat with (S (2 * h)) by lia; reflexivity).
  rewrite RS.
  replace (INR (2 * h) - INR h) with (INR h) by (rewrite mult_INR; change (INR 2) with (1 + 1); ring). ring.
Qed.
Lemma kernel_const L n m : (0 < L)%nat -> (2 <= Nat.min L n)%nat ->
  rsum L (fun j => kernel (Nat.min L n / 2) (INR m / INR n - INR j / INR L)) = INR L.
Proof.
  intros HL Hb. set (h := (Nat.min L n / 2)%nat). pose proof (half_le L n) as [H1 _]. fold h in H1.
  assert (h1 : (1 <= h)%nat) by (unfold h; apply Nat.div_le_lower_bound; lia).
  unfold kernel. rewrite rsum_swap. rewrite (rsum_single (2 * h) h); [|lia|].
  - rewrite (rsum_ext L _ (fun _ => 1)); [rewrite rsum_const; ring|]. intros j _.
    replace (2 * PI * ((INR h - INR h) * (INR m / INR n - INR j / INR L))) with 0 by ring. apply cos_0.
  - intros k Hk Hne. set (f := (Z.of_nat k - Z.of_nat h)%Z).
    transitivity (cre (cmul (W n (f * Z.of_nat m)) (csum L (fun j => W L (- f * Z.of_nat j))))).
    + rewrite <- csum_scale, csum_re. apply rsum_ext. intros j _.
      replace (cmul (W n (f * Z.of_nat m)) (W L (- f * Z.of_nat j)))
        with (cmul (W L (- (Z.of_nat j * f))) (W n (f * Z.of_nat m))).
      2:{ replace (- (Z.of_nat j * f))%Z with (- f * Z.of_nat j)%Z by ring. ring. }
      rewrite W_mul_E. unfold f. rewrite minus_IZR, <- !INR_IZR_INZ. reflexivity.
    + rewrite orthogonality by exact HL. destruct (Zdivide_dec _ _) as [D|_]; [|cbn; ring].
      apply small_divide in D; unfold f in *; lia.
Qed.
