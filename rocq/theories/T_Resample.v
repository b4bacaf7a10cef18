(** What resample does to every sinusoid: frequencies below the new and the old Nyquist
    frequency are kept exactly, those above are removed, and the ones at the edge are
    given in closed form. *)
From Coq Require Import Reals ZArith Znumtheory List Lia Lra.
From Verif Require Import Base Num M_Complex M_Fourier Cx RSum S_Fourier P_Fourier P_Resample S_Resample T_Fourier.
Import ListNotations.
Local Open Scope R_scope.

Lemma cos_sum N (p : Z) th : (0 < N)%nat ->
  rsum N (fun j => cos (2 * PI * (IZR p * INR j / INR N) + th)) = if Zdivide_dec (Z.of_nat N) p then INR N * cos th else 0.
Proof.
  intros HN. pose proof (orthogonality N p HN) as O. apply (f_equal (fun z => cre (cmul (E th) z))) in O.
  rewrite <- csum_scale, csum_re in O.
  rewrite (rsum_ext _ _ (fun i => cre (cmul (E th) (W N (p * Z.of_nat i))))).
  - rewrite O. destruct (Zdivide_dec (Z.of_nat N) p); unfold E, RtoC, C0, cmul, cre, cim; cbn; ring.
  - intros j _. unfold W. rewrite <- E_add. unfold E, cre. cbn [fst]. f_equal. rewrite mult_IZR, <- INR_IZR_INZ. ring.
Qed.

(** The interpolation formula applied to one sinusoid, summed over the samples. *)
Lemma kernel_cos L h f phi u : (0 < L)%nat ->
  / INR L * rsum L (fun j => cos (2 * PI * (INR f * (INR j / INR L)) + phi) * kernel h (u - INR j / INR L)) =
  / 2 * (rsum (2 * h) (fun k => if Zdivide_dec (Z.of_nat L) (Z.of_nat f - (Z.of_nat k - Z.of_nat h)) then cos (phi + 2 * PI * ((INR k - INR h) * u)) else 0) +
         rsum (2 * h) (fun k => if Zdivide_dec (Z.of_nat L) (Z.of_nat f + (Z.of_nat k - Z.of_nat h)) then cos (phi - 2 * PI * ((INR k - INR h) * u)) else 0)).
Proof.
  intros HL. assert (NL : INR L <> 0) by (apply not_0_INR; lia).
  rewrite (rsum_ext L _ (fun j => rsum (2 * h) (fun k =>
    / 2 * (cos (2 * PI * (IZR (Z.of_nat f - (Z.of_nat k - Z.of_nat h)) * INR j / INR L) + (phi + 2 * PI * ((INR k - INR h) * u))) +
           cos (2 * PI * (IZR (Z.of_nat f + (Z.of_nat k - Z.of_nat h)) * INR j / INR L) + (phi - 2 * PI * ((INR k - INR h) * u))))))).
  2:{ intros j _. unfold kernel. rewrite <- rsum_scale. apply rsum_ext. intros k _.
      rewrite minus_IZR, plus_IZR, minus_IZR, <- !INR_IZR_INZ.
      set (a := 2 * PI * (INR f * (INR j / INR L)) + phi). set (b := 2 * PI * ((INR k - INR h) * (u - INR j / INR L))).
      replace (2 * PI * ((INR f - (INR k - INR h)) * INR j / INR L) + (phi + 2 * PI * ((INR k - INR h) * u))) with (a + b) by (unfold a, b; field; exact NL).
      replace (2 * PI * ((INR f + (INR k - INR h)) * INR j / INR L) + (phi - 2 * PI * ((INR k - INR h) * u))) with (a - b) by (unfold a, b; field; exact NL).
      rewrite cos_plus, cos_minus. field. }
  rewrite rsum_swap.
  rewrite (rsum_ext (2 * h) _ (fun k => INR L * (/ 2 * (
     (if Zdivide_dec (Z.of_nat L) (Z.of_nat f - (Z.of_nat k - Z.of_nat h)) then cos (phi + 2 * PI * ((INR k - INR h) * u)) else 0) +
     (if Zdivide_dec (Z.of_nat L) (Z.of_nat f + (Z.of_nat k - Z.of_nat h)) then cos (phi - 2 * PI * ((INR k - INR h) * u)) else 0))))).
  - rewrite !rsum_scale, rsum_plus. field. exact NL.
  - intros k _. rewrite rsum_scale, rsum_plus, !cos_sum by exact HL. destruct (Zdivide_dec _ _); destruct (Zdivide_dec _ _); ring.
Qed.

Lemma nodiv L m : (0 < L)%nat -> (0 < m < Z.of_nat L)%Z -> ~ (Z.of_nat L | m)%Z.
Proof. intros HL Hm D. pose proof (small_divide L m HL ltac:(lia) D). lia. Qed.

(** What is left of the sinusoid with f cycles, as a function of time. *)
Definition kept (L h f : nat) (phi t : R) : R :=
  if Nat.ltb f h then cos (2 * PI * (INR f * t) + phi)
  else if Nat.ltb h f || Nat.eqb h 0 then 0
  else if Nat.eqb (2 * h) L then cos phi * cos (2 * PI * (INR f * t))
  else / 2 * cos (2 * PI * (INR f * t) + phi).
Lemma kernel_kept L h f phi u : (0 < L)%nat -> (2 * f <= L)%nat -> (2 * h <= L)%nat ->
  / INR L * rsum L (fun j => cos (2 * PI * (INR f * (INR j / INR L)) + phi) * kernel h (u - INR j / INR L)) = kept L h f phi u.
Proof.
  intros HL Hf Hh. rewrite kernel_cos by exact HL. unfold kept. destruct (Nat.ltb_spec f h) as [Lt|Ge].
  - rewrite (rsum_single _ (h + f)), (rsum_single _ (h - f)); try lia.
    + destruct (Zdivide_dec _ _) as [_|D]; [|exfalso; apply D; replace (_ - _)%Z with 0%Z by lia; apply Z.divide_0_r].
      destruct (Zdivide_dec _ _) as [_|D]; [|exfalso; apply D; replace (_ + _)%Z with 0%Z by lia; apply Z.divide_0_r].
      rewrite plus_INR, minus_INR by lia.
      replace (phi + 2 * PI * ((INR h + INR f - INR h) * u)) with (2 * PI * (INR f * u) + phi) by ring.
      replace (phi - 2 * PI * ((INR h - INR f - INR h) * u)) with (2 * PI * (INR f * u) + phi) by ring. field.
    + intros k Hk Hne. destruct (Zdivide_dec _ _) as [D|_]; [|reflexivity]. apply small_divide in D; lia.
    + intros k Hk Hne. destruct (Zdivide_dec _ _) as [D|_]; [|reflexivity]. apply small_divide in D; lia.
  - destruct (Nat.ltb_spec h f) as [Gt|Le]; cbn [orb].
    + rewrite !rsum_zero; [ring| |]; intros k Hk; (destruct (Zdivide_dec _ _) as [D|_]; [|reflexivity]); exfalso; apply (nodiv L _ HL) in D; lia.
    + assert (f = h) by lia. subst f. destruct (Nat.eqb_spec h 0) as [->|H0]; [cbn; ring|].
      rewrite (rsum_single (2 * h) 0 (fun k => if Zdivide_dec (Z.of_nat L) (Z.of_nat h + _) then _ else _)); [|lia|].
      2:{ intros k Hk Hne. destruct (Zdivide_dec _ _) as [D|_]; [|reflexivity]. exfalso. apply (nodiv L _ HL) in D; lia. }
      destruct (Zdivide_dec (Z.of_nat L) (Z.of_nat h + _)) as [_|D]; [|exfalso; apply D; replace (_ + _)%Z with 0%Z by lia; apply Z.divide_0_r].
      destruct (Nat.eqb_spec (2 * h) L) as [E|NE].
      * rewrite (rsum_single (2 * h) 0); [|lia|].
        2:{ intros k Hk Hne. destruct (Zdivide_dec _ _) as [D|_]; [|reflexivity]. exfalso. apply (nodiv L _ HL) in D; lia. }
        destruct (Zdivide_dec _ _) as [_|D]; [|exfalso; apply D; replace (_ - _)%Z with (Z.of_nat L) by lia; apply Z.divide_refl].
        cbn [INR]. replace (phi + 2 * PI * ((0 - INR h) * u)) with (phi - 2 * PI * (INR h * u)) by ring.
        replace (phi - 2 * PI * ((0 - INR h) * u)) with (phi + 2 * PI * (INR h * u)) by ring. rewrite cos_minus, cos_plus. field.
      * rewrite (rsum_zero (2 * h)).
        2:{ intros k Hk. destruct (Zdivide_dec _ _) as [D|_]; [|reflexivity]. exfalso. apply (nodiv L _ HL) in D; lia. }
        cbn [INR]. replace (phi - 2 * PI * ((0 - INR h) * u)) with (2 * PI * (INR h * u) + phi) by ring. ring.
Qed.
Lemma samples_length n g : length (samples n g) = n.
Proof. unfold samples. rewrite map_length, seq_length. reflexivity. Qed.
Lemma samples_nth n g j : (j < n)%nat -> nth j (samples n g) 0 = g (INR j / INR n).
Proof. intros H. unfold samples. apply (nth_map_seq0 (fun j => g (INR j / INR n)) n j 0 H). Qed.
Lemma half_min L n : (2 * (Nat.min L n / 2) <= L)%nat.
Proof. pose proof (Nat.mul_div_le (Nat.min L n) 2). lia. Qed.

(** Every sinusoid that L samples can tell apart. *)
Theorem C96_resample_sinusoid fft ifft L n f A phi : is_fft fft -> is_ifft ifft -> (0 < L)%nat -> (2 * f <= L)%nat ->
  let h := (Nat.min L n / 2)%nat in
  let x := samples L (fun t => A * cos (2 * PI * (INR f * t) + phi)) in
  ((f < h)%nat -> resample fft ifft x n = Ok (samples n (fun t => A * cos (2 * PI * (INR f * t) + phi)))) /\
  ((h < f)%nat -> resample fft ifft x n = Ok (repeat 0 n)) /\
  (f = h -> (0 < h)%nat -> (2 * h < L)%nat -> resample fft ifft x n = Ok (samples n (fun t => A / 2 * cos (2 * PI * (INR f * t) + phi)))) /\
  (f = h -> (2 * h = L)%nat -> resample fft ifft x n = Ok (samples n (fun t => A * cos phi * cos (2 * PI * (INR f * t))))).
Proof.
  intros Hf Hi HL Hfl h x.
  assert (K : exists y, resample fft ifft x n = Ok y /\ length y = n /\ forall m, (m < n)%nat -> nth m y 0 = A * kept L h f phi (INR m / INR n)).
  { destruct (resample_formula fft ifft Hf Hi x n) as [y [E [Ly F]]]. exists y. split; [exact E|]. split; [exact Ly|]. intros m Hm.
    rewrite F by exact Hm. rewrite <- (kernel_kept L h f phi (INR m / INR n) HL Hfl (half_min L n)).
    unfold x. rewrite samples_length. fold h. rewrite (rsum_ext L _ (fun j => A * (cos (2 * PI * (INR f * (INR j / INR L)) + phi) * kernel h (INR m / INR n - INR j / INR L)))).
    2:{ intros j Hj. rewrite samples_nth by exact Hj. ring. }
    rewrite rsum_scale. ring. }
  destruct K as [y [E [Ly F]]]. rewrite E.
  assert (EX : forall g, (forall t, A * kept L h f phi t = g t) -> Ok y = Ok (samples n g)).
  { intros g G. f_equal. apply (nth_ext _ _ 0 0); [rewrite samples_length; exact Ly|]. intros m Hm. rewrite Ly in Hm.
    rewrite F, samples_nth by exact Hm. apply G. }
  split; [|split; [|split]].
  - intros H. apply EX. intros t. unfold kept. destruct (Nat.ltb_spec f h); [reflexivity|lia].
  - intros H. rewrite (EX (fun _ => 0)).
    + f_equal. apply (nth_ext _ _ 0 0); rewrite samples_length; [rewrite repeat_length; reflexivity|]. intros m Hm. rewrite samples_nth, nth_repeat by exact Hm. reflexivity.
    + intros t. unfold kept. destruct (Nat.ltb_spec f h); [lia|]. destruct (Nat.ltb_spec h f); [cbn; ring|lia].
  - intros H H0 H2. apply EX. intros t. unfold kept. destruct (Nat.ltb_spec f h); [lia|]. destruct (Nat.ltb_spec h f); [lia|].
    destruct (Nat.eqb_spec h 0); [lia|]. destruct (Nat.eqb_spec (2 * h) L); [lia|]. cbn [orb]. field.
  - intros H H2. apply EX. intros t. unfold kept. destruct (Nat.ltb_spec f h); [lia|]. destruct (Nat.ltb_spec h f); [lia|].
    destruct (Nat.eqb_spec h 0); [lia|]. destruct (Nat.eqb_spec (2 * h) L); [|lia]. cbn [orb]. ring.
Qed.
Print Assumptions C96_resample_sinusoid.

Lemma trig_cons c g t : trig (c :: g) t = snd (fst c) * cos (2 * PI * (INR (fst (fst c)) * t) + snd c) + trig g t.
Proof. reflexivity. Qed.
(** Band-limited signals: samples of a sum of sinusoids below both Nyquist frequencies
    become samples of the same sum at the new rate. *)
Theorem C96_resample_bandlimited fft ifft L n (g : list (nat * R * R)) : is_fft fft -> is_ifft ifft ->
  below (Nat.min L n / 2) g -> (0 < L)%nat ->
  resample fft ifft (samples L (trig g)) n = Ok (samples n (trig g)).
Proof.
  intros Hf Hi Hb HL. destruct (resample_formula fft ifft Hf Hi (samples L (trig g)) n) as [y [E [Ly F]]]. rewrite E. f_equal.
  apply (nth_ext _ _ 0 0); [rewrite samples_length; exact Ly|]. intros m Hm. rewrite Ly in Hm.
  rewrite F, samples_nth by exact Hm. rewrite !samples_length. set (h := (Nat.min L n / 2)%nat) in *.
  rewrite (rsum_ext L _ (fun j => trig g (INR j / INR L) * kernel h (INR m / INR n - INR j / INR L))).
  2:{ intros j Hj. rewrite samples_nth by exact Hj. reflexivity. }
  clear E F Ly y. induction Hb as [|c g Hc Hg IH].
  - rewrite rsum_zero; [cbn; ring|]. intros; cbn; ring.
  - rewrite trig_cons, <- IH.
    rewrite (rsum_ext L _ (fun j => snd (fst c) * (cos (2 * PI * (INR (fst (fst c)) * (INR j / INR L)) + snd c) * kernel h (INR m / INR n - INR j / INR L)) + trig g (INR j / INR L) * kernel h (INR m / INR n - INR j / INR L))).
    2:{ intros j _. rewrite trig_cons. ring. }
    rewrite rsum_plus, rsum_scale. pose proof (half_min L n) as HH. fold h in HH.
    pose proof (kernel_kept L h (fst (fst c)) (snd c) (INR m / INR n) HL ltac:(lia) HH) as K. unfold kept in K.
    destruct (Nat.ltb_spec (fst (fst c)) h); [|lia]. rewrite <- K. ring.
Qed.
Print Assumptions C96_resample_bandlimited.
(** Hence there and back again is the identity on them, at every intermediate length that
    keeps their frequencies. *)
Theorem C96_round_trip fft ifft L n (g : list (nat * R * R)) : is_fft fft -> is_ifft ifft ->
  below (Nat.min L n / 2) g -> (0 < L)%nat ->
  (let! y := resample fft ifft (samples L (trig g)) n in resample fft ifft y L) = Ok (samples L (trig g)).
Proof.
  intros Hf Hi Hb HL. rewrite C96_resample_bandlimited by assumption. cbn [bind].
  destruct n as [|n].
  - rewrite Nat.min_0_r in Hb. destruct Hb as [|c g Hc Hg]; [|cbn in Hc; lia].
    destruct (resample_formula fft ifft Hf Hi [] L) as [y [E [Ly F]]]. change (samples 0 (trig [])) with (@nil R). rewrite E. f_equal.
    apply (nth_ext _ _ 0 0); [rewrite samples_length; exact Ly|]. intros m Hm. rewrite Ly in Hm. rewrite F, samples_nth by exact Hm. cbn. ring.
  - apply C96_resample_bandlimited; try assumption; [rewrite Nat.min_comm; exact Hb|lia].
Qed.
Print Assumptions C96_round_trip.
(** At the Nyquist frequency of an even length it is not: upsampling and downsampling
    again halves the component. *)
Theorem C96_nyquist_round_trip_halves fft ifft h n A : is_fft fft -> is_ifft ifft -> (0 < h)%nat -> (2 * h < n)%nat ->
  (let! y := resample fft ifft (samples (2 * h) (fun t => A * cos (2 * PI * (INR h * t) + 0))) n in resample fft ifft y (2 * h)) =
  Ok (samples (2 * h) (fun t => A / 2 * cos (2 * PI * (INR h * t) + 0))).
Proof.
  intros Hf Hi Hh Hn. assert (Dv : (2 * h / 2 = h)%nat) by (rewrite Nat.mul_comm; apply Nat.div_mul; lia).
  destruct (C96_resample_sinusoid fft ifft (2 * h) n h A 0 Hf Hi ltac:(lia) ltac:(lia)) as [_ [_ [_ H4]]].
  rewrite Nat.min_l in H4 by lia. rewrite Dv in H4. rewrite H4 by reflexivity. cbn [bind].
  destruct (C96_resample_sinusoid fft ifft n (2 * h) h A 0 Hf Hi ltac:(lia) ltac:(lia)) as [_ [_ [H3 _]]].
  rewrite Nat.min_r in H3 by lia. rewrite Dv in H3. rewrite <- H3 by (reflexivity || lia). f_equal.
  apply (nth_ext _ _ 0 0); rewrite !samples_length; [reflexivity|]. intros m Hm. rewrite !samples_nth by exact Hm. rewrite cos_0, Rplus_0_r. ring.
Qed.
Print Assumptions C96_nyquist_round_trip_halves.

(** Instances: three components in 8 samples, resampled to 12 and to 7; the exact DFT
    meets the contract. *)
Example C96_concrete : below (Nat.min 8 12 / 2) [(0%nat, 1, 0); (1%nat, 2, PI / 4); (3%nat, -1, 1)] /\
  resample dft idft (samples 8 (trig [(0%nat, 1, 0); (1%nat, 2, PI / 4); (3%nat, -1, 1)])) 12 =
  Ok (samples 12 (trig [(0%nat, 1, 0); (1%nat, 2, PI / 4); (3%nat, -1, 1)])).
Proof.
  assert (H : below (Nat.min 8 12 / 2) [(0%nat, 1, 0); (1%nat, 2, PI / 4); (3%nat, -1, 1)]) by (repeat constructor).
  split; [exact H|]. apply C96_resample_bandlimited; [apply dft_meets_contract|apply idft_meets_contract|exact H|lia].
Qed.
Example C96_nyquist : exists y, resample dft idft (samples 2 (fun t => 1 * cos (2 * PI * (INR 1 * t) + 0))) 4 = Ok y /\
  resample dft idft y 2 = Ok (samples 2 (fun t => 1 / 2 * cos (2 * PI * (INR 1 * t) + 0))).
Proof.
  pose proof (C96_nyquist_round_trip_halves dft idft 1 4 1 dft_meets_contract idft_meets_contract ltac:(lia) ltac:(lia)) as H.
  cbn [Nat.mul Nat.add] in H. destruct (resample dft idft _ 4) as [y| | |] eqn:E; try discriminate H. exists y. split; [reflexivity|exact H].
Qed.
