(** Properties C83 and C84: rounding error of convolution, correlation and resampling
    through the FFT. *)
From Coq Require Import Reals ZArith SpecFloat List Lia Lra Psatz.
From Verif Require Import Base Num M_Complex M_Fourier RSum Cx S_Stats S_Float S_Fourier S_FloatFft P_Stats P_Float P_FloatStats P_Fourier P_Resample P_FloatFft P_FloatRes T_Fourier.
Import ListNotations.
Local Open Scope R_scope.

(** Sum of the magnitudes of a signal. *)
Definition mass (x : list spec_float) : R := Rsum (map (fun v => Rabs (fval v)) x).
(** The error bound: about 12 (eta + u) times the product of the masses. *)
Definition conv_error (prec emax : Z) (eta tau A B : R) : R :=
  let g := 1 + uround prec in
  let tn := ftiny prec emax in
  let M := ((1 + eta) * A + tau) * ((1 + eta) * B + tau) + tn in
  4 * ((1 + eta) * g ^ 3 * M - A * B) + g * (tau + tn).
(** No overflow: the two signals, their spectra's product and the result stay in range. *)
Definition conv_in_range (prec emax : Z) (eta tau cap : R) (n : nat) (A B : R) : Prop :=
  let g := 1 + uround prec in
  let tn := ftiny prec emax in
  let M := ((1 + eta) * A + tau) * ((1 + eta) * B + tau) + tn in
  A <= cap /\ B <= cap /\ 4 * INR (next_power_of_two n) * g ^ 2 * M <= cap /\ cap <= fmax prec emax /\
  4 * (1 + eta) * g ^ 3 * M + g * (tau + tn) <= fmax prec emax.

Theorem C83_convolve_rounding : forall prec emax szero eta tau cap fft ifft (x y : list spec_float),
  (1 < prec < emax)%Z -> 0 <= eta -> 0 <= tau ->
  fft_within prec emax (-1) eta tau cap fft -> fft_within prec emax 1 eta tau cap ifft ->
  x <> [] -> y <> [] -> Forall (finite prec emax) x -> Forall (finite prec emax) y ->
  (Z.of_nat (length x + length y) <= 2 ^ (emax - 1))%Z ->
  conv_in_range prec emax eta tau cap (length x + length y - 1) (mass x) (mass y) ->
  let err := conv_error prec emax eta tau (mass x) (mass y) in
  (exists r, @convolve _ (SFNum prec emax szero) fft ifft x y Full = Ok r /\
     length r = (length x + length y - 1)%nat /\
     forall i, (i < length r)%nat -> finite prec emax (nth i r (S754_zero false)) /\
       Rabs (fval (nth i r (S754_zero false)) - convolution (map fval x) (map fval y) i) <= err) /\
  ((length y <= length x)%nat ->
   exists r, @convolve _ (SFNum prec emax szero) fft ifft x y Valid = Ok r /\
     length r = (length x - length y + 1)%nat /\
     forall i, (i < length r)%nat -> finite prec emax (nth i r (S754_zero false)) /\
       Rabs (fval (nth i r (S754_zero false)) - convolution (map fval x) (map fval y) (length y - 1 + i)) <= err) /\
  (exists r, @convolve _ (SFNum prec emax szero) fft ifft x y Same = Ok r /\
     length r = length x /\
     forall i, (i < length r)%nat -> finite prec emax (nth i r (S754_zero false)) /\
       Rabs (fval (nth i r (S754_zero false)) - convolution (map fval x) (map fval y) ((length y - 1) / 2 + i)) <= err).
Proof.
  intros prec emax sz eta tau cap fft ifft x y Hpe E0 T0 Hf Hi Nx Ny Fx Fy Len [R1 [R2 [R3 [R4 R5]]]]. cbv zeta in *. unfold mass in *.
  assert (Lx : (length x <> 0)%nat) by (rewrite length_zero_iff_nil; assumption). assert (Ly : (length y <> 0)%nat) by (rewrite length_zero_iff_nil; assumption).
  assert (Hdiv : ((length y - 1) / 2 <= length y - 1)%nat) by (apply Nat.div_le_upper_bound; lia).
  pose proof (fftconvolve_close prec emax Hpe sz eta tau cap fft ifft Hf Hi E0 T0 R4 x y Fx Fy Nx Ny Len R1 R2 R3 R5) as K.
  assert (Z : forall mode r', (0 < length x + length y)%nat -> @fftconvolve R RNum (dftl (-1)) (dftl 1) (map fval x) (map fval y) mode = Ok r' ->
    exists r, @convolve _ (SFNum prec emax sz) fft ifft x y mode = Ok r /\ length r = length r' /\
      forall i, (i < length r)%nat -> finite prec emax (nth i r (S754_zero false)) /\
        Rabs (fval (nth i r (S754_zero false)) - nth i r' 0) <= conv_error prec emax eta tau (Rsum (map (fun v => Rabs (fval v)) x)) (Rsum (map (fun v => Rabs (fval v)) y))).
  { intros mode r' _ Hr. specialize (K mode). rewrite Hr in K. unfold convolve. destruct (fftconvolve _ _ x y mode) as [r| | |]; try contradiction.
    exists r. split; [reflexivity|]. split; [exact (Forall2_length' _ _ _ K)|]. intros i Hi'. exact (Forall2_get _ _ _ (S754_zero false) 0 K i Hi'). }
  pose proof (fftconvolve_eq (dftl (-1)) (dftl 1) dftl_fft dftl_ifft (map fval x) (map fval y)) as Q. rewrite !map_length in Q.
  split; [|split].
  - destruct (Z Full (full (map fval x) (map fval y))) as [r [H1 [H2 H3]]]; [lia|apply Q; lia|]. exists r. split; [exact H1|].
    unfold full in H2. rewrite map_length, seq_length, !map_length in H2. split; [exact H2|]. intros i Hi'. specialize (H3 i Hi'). unfold full in H3.
    rewrite !map_length, nth_map_seq' in H3 by lia. exact H3.
  - intros Hle. specialize (Z Valid). rewrite Q in Z by lia. destruct (Nat.leb_spec (length y) (length x)); [|lia]. unfold usub in Z. destruct (Nat.ltb_spec (length y) 1); [lia|]. cbn [bind] in Z.
    rewrite slice_full in Z by (rewrite ?map_length; lia). edestruct Z as [r [H1 [H2 H3]]]; [lia|reflexivity|]. exists r. split; [exact H1|]. rewrite map_length, seq_length in H2.
    split; [lia|]. intros i Hi'. specialize (H3 i Hi'). rewrite (nth_indep _ 0 (convolution (map fval x) (map fval y) 0)) in H3 by (rewrite map_length, seq_length; lia).
    rewrite map_nth, seq_nth in H3 by lia. exact H3.
  - specialize (Z Same). rewrite Q in Z by lia. unfold usub in Z. destruct (Nat.ltb_spec (length y) 1); [lia|]. cbn [bind] in Z.
    rewrite slice_full in Z by (rewrite ?map_length; lia). edestruct Z as [r [H1 [H2 H3]]]; [lia|reflexivity|]. exists r. split; [exact H1|]. rewrite map_length, seq_length in H2.
    split; [lia|]. intros i Hi'. specialize (H3 i Hi'). rewrite (nth_indep _ 0 (convolution (map fval x) (map fval y) 0)) in H3 by (rewrite map_length, seq_length; lia).
    rewrite map_nth, seq_nth in H3 by lia. exact H3.
Qed.
Print Assumptions C83_convolve_rounding.

Lemma mass_rev y : mass (rev y) = mass y.
Proof.
  unfold mass. rewrite map_rev. set (l := map _ y). clearbody l. clear. induction l as [|a l IH]; [reflexivity|].
  cbn [rev]. rewrite Rsum_app, IH, !Rsum_cons. cbn. lra.
Qed.
Theorem C83_correlate_rounding : forall prec emax szero eta tau cap fft ifft (x y : list spec_float),
  (1 < prec < emax)%Z -> 0 <= eta -> 0 <= tau ->
  fft_within prec emax (-1) eta tau cap fft -> fft_within prec emax 1 eta tau cap ifft ->
  x <> [] -> y <> [] -> Forall (finite prec emax) x -> Forall (finite prec emax) y ->
  (Z.of_nat (length x + length y) <= 2 ^ (emax - 1))%Z ->
  conv_in_range prec emax eta tau cap (length x + length y - 1) (mass x) (mass y) ->
  exists r, @correlate _ (SFNum prec emax szero) fft ifft x y Full = Ok r /\
     length r = (length x + length y - 1)%nat /\
     forall k, (k < length r)%nat -> finite prec emax (nth k r (S754_zero false)) /\
       Rabs (fval (nth k r (S754_zero false)) - correlation (map fval x) (map fval y) k) <= conv_error prec emax eta tau (mass x) (mass y).
Proof.
  intros prec emax sz eta tau cap fft ifft x y Hpe E0 T0 Hf Hi Nx Ny Fx Fy Len RG.
  destruct (C83_convolve_rounding prec emax sz eta tau cap fft ifft x (rev y) Hpe E0 T0 Hf Hi Nx) as [[r [H1 [H2 H3]]] _]; try assumption.
  - intros H. apply Ny. apply (f_equal (@rev _)) in H. rewrite rev_involutive in H. exact H.
  - apply Forall_rev, Fy.
  - rewrite rev_length. exact Len.
  - rewrite rev_length, mass_rev. exact RG.
  - exists r. split; [exact H1|]. rewrite rev_length in H2. split; [exact H2|]. intros k Hk. destruct (H3 k Hk) as [F E]. split; [exact F|].
    rewrite mass_rev in E. replace (correlation (map fval x) (map fval y) k) with (convolution (map fval x) (map fval (rev y)) k); [exact E|].
    rewrite map_rev. unfold convolution, correlation. apply rsum_ext. intros i _. rewrite at_rev. f_equal. f_equal. lia.
Qed.
Print Assumptions C83_correlate_rounding.

(** The contract is met by the exact Fourier sums, correctly rounded, with eta = u. *)
Example C83_contract_met : forall prec emax sg, (1 < prec < emax)%Z ->
  fft_within prec emax sg (uround prec) (ftiny prec emax) (fmax prec emax) (rounded_dft prec emax sg).
Proof. intros prec emax sg H. apply rounded_within, H. Qed.
(** The hypotheses are met, e.g. by [1; 2; 3] and [0; 1; 1/2] in f64. *)
Definition f64_1 : spec_float := S754_finite false 4503599627370496 (-52).
Definition f64_2 : spec_float := S754_finite false 4503599627370496 (-51).
Definition f64_3 : spec_float := S754_finite false 6755399441055744 (-51).
Definition f64_half : spec_float := S754_finite false 4503599627370496 (-53).
Example C83_ex : let x := [f64_1; f64_2; f64_3] in let y := [S754_zero false; f64_1; f64_half] in
  Forall (finite 53 1024) x /\ Forall (finite 53 1024) y /\ map fval x = [1; 2; 3] /\ map fval y = [0; 1; 1 / 2] /\
  (Z.of_nat (length x + length y) <= 2 ^ (1024 - 1))%Z /\
  conv_in_range 53 1024 (uround 53) (ftiny 53 1024) (fmax 53 1024) (length x + length y - 1) (mass x) (mass y).
Proof.
  assert (P : forall k m e, (Zpos m = e * 2 ^ Z.of_nat k)%Z -> fval (S754_finite false m (- Z.of_nat k)) = IZR e).
  { intros k m e H. unfold fval. rewrite H, mult_IZR, Rmult_1_l, powerRZ_neg', <- pow_powerRZ, <- pow_IZR by lra. assert (0 < 2 ^ k) by (apply pow_lt; lra). field. lra. }
  assert (V1 : fval f64_1 = 1) by (apply (P 52%nat _ 1%Z); vm_compute; reflexivity).
  assert (V2 : fval f64_2 = 2) by (apply (P 51%nat _ 2%Z); vm_compute; reflexivity).
  assert (V3 : fval f64_3 = 3) by (apply (P 51%nat _ 3%Z); vm_compute; reflexivity).
  assert (Vh : fval f64_half = 1 / 2).
  { assert (H : fval f64_half = fval f64_1 / 2); [|lra]. unfold fval, f64_half, f64_1. change (-52)%Z with (1 + -53)%Z. rewrite powerRZ_add by lra. rewrite powerRZ_1. field. }
  cbv zeta. split; [repeat constructor; vm_compute; reflexivity|]. split; [repeat constructor; vm_compute; reflexivity|].
  split; [cbn [map]; rewrite V1, V2, V3; reflexivity|]. split; [cbn [map]; rewrite V1, Vh; reflexivity|]. split; [vm_compute; discriminate|].
  assert (Mx : mass [f64_1; f64_2; f64_3] = 6) by (unfold mass; cbn [map Rsum fold_right]; rewrite V1, V2, V3, !Rabs_pos_eq by lra; lra).
  assert (My : mass [S754_zero false; f64_1; f64_half] = 3 / 2) by (unfold mass; cbn [map Rsum fold_right]; rewrite V1, Vh; cbn [fval]; rewrite !Rabs_pos_eq by lra; lra).
  rewrite Mx, My. change (length [f64_1; f64_2; f64_3] + length [S754_zero false; f64_1; f64_half] - 1)%nat with 5%nat.
  pose proof (u0 53) as U0. pose proof (u14 53 1024 ltac:(lia)) as U1. pose proof (tn0 53 1024) as T0. pose proof (tn1 53 1024 ltac:(lia)) as T1.
  assert (FMb : 100000 <= fmax 53 1024).
  { eapply Rle_trans; [|exact (FM2p 53 1024 ltac:(lia))]. change 53%Z with (Z.of_nat 53). rewrite <- pow_powerRZ. replace 53%nat with (20 + 33)%nat by reflexivity. rewrite pow_add.
    assert (1 <= 2 ^ 33) by (apply pow_R1_Rle; lra). lra. }
  unfold conv_in_range. replace (INR (next_power_of_two 5)) with 8 by (change (next_power_of_two 5) with 8%nat; cbn; lra). set (u := uround 53) in *. set (t := ftiny 53 1024) in *.
  assert (Q1 : ((1 + u) * 6 + t) * ((1 + u) * (3 / 2) + t) + t <= 20).
  { assert (((1 + u) * 6 + t) * ((1 + u) * (3 / 2) + t) <= 8 * 2) by (apply Rmult_le_compat; lra). lra. }
  assert (Q0 : 0 <= ((1 + u) * 6 + t) * ((1 + u) * (3 / 2) + t) + t) by (apply Rplus_le_le_0_compat; [apply Rmult_le_pos; lra|lra]).
  set (M := ((1 + u) * 6 + t) * ((1 + u) * (3 / 2) + t) + t) in *. clearbody M.
  assert (G2 : 0 <= (1 + u) ^ 2 <= 2) by (split; [apply pow2_ge_0|nra]). assert (G3 : 0 <= (1 + u) ^ 3 <= 4) by (cbn [pow] in *; nra).
  repeat split; try lra.
  - match goal with |- ?l <= _ => replace l with (32 * ((1 + u) ^ 2 * M)) by ring end.
    assert ((1 + u) ^ 2 * M <= 2 * 20) by (apply Rmult_le_compat; try apply pow2_ge_0; lra). set (q := (1 + u) ^ 2 * M) in *. clearbody q. lra.
  - assert ((1 + u) ^ 3 * M <= 4 * 20) by (apply Rmult_le_compat; lra). assert (0 <= (1 + u) ^ 3 * M) by (apply Rmult_le_pos; lra).
    assert ((1 + u) * ((1 + u) ^ 3 * M) <= 2 * 80) by (apply Rmult_le_compat; lra). assert ((1 + u) * (t + t) <= 2 * 1) by (apply Rmult_le_compat; lra).
    replace (4 * (1 + u) * (1 + u) ^ 3 * M) with (4 * ((1 + u) * ((1 + u) ^ 3 * M))) by ring. set (q := (1 + u) * ((1 + u) ^ 3 * M)) in *. clearbody q. lra.
Qed.

(** * C84: resampling.  The error bound is about (2 b / L) A (2 eta + 2 u), where b <= L is
    the number of spectrum entries kept and A the mass of the signal. *)
Definition res_error (prec emax : Z) (eta tau : R) (L n : nat) (A : R) : R :=
  let g := 1 + uround prec in
  let tn := ftiny prec emax in
  let b := INR (2 * (Nat.min L n / 2)) in
  g ^ 2 * ((2 * b * (1 + eta) * ((1 + eta) * A + tau) + tau) * (/ INR L + tn) + tn) - 2 * b * A / INR L.
Definition res_in_range (prec emax : Z) (eta tau cap : R) (L n : nat) (A : R) : Prop :=
  let g := 1 + uround prec in
  let tn := ftiny prec emax in
  let b := INR (2 * (Nat.min L n / 2)) in
  A <= cap /\ 2 * b * ((1 + eta) * A + tau) <= cap /\
  g ^ 2 * ((2 * b * (1 + eta) * ((1 + eta) * A + tau) + tau) * (/ INR L + tn) + tn) <= fmax prec emax.

Theorem C84_resample_rounding : forall prec emax szero eta tau cap fft ifft (x : list spec_float) n,
  (1 < prec < emax)%Z -> 0 <= eta -> 0 <= tau ->
  fft_within prec emax (-1) eta tau cap fft -> fft_within prec emax 1 eta tau cap ifft ->
  x <> [] -> Forall (finite prec emax) x -> (Z.of_nat (length x) <= 2 ^ prec)%Z ->
  res_in_range prec emax eta tau cap (length x) n (mass x) ->
  let err := res_error prec emax eta tau (length x) n (mass x) in
  exists r, @resample _ (SFNum prec emax szero) fft ifft x n = Ok r /\ length r = n /\
    Forall (finite prec emax) r /\
    (forall m, (m < n)%nat ->
       Rabs (fval (nth m r (S754_zero false)) -
         / INR (length x) * rsum (length x) (fun j => fval (nth j x (S754_zero false)) *
           kernel (Nat.min (length x) n / 2) (INR m / INR n - INR j / INR (length x)))) <= err) /\
    (** upsampling an even number of samples by an integer factor keeps them up to rounding *)
    (forall q, Nat.even (length x) = true -> (1 <= q)%nat -> n = (q * length x)%nat ->
       forall i, (i < length x)%nat ->
         Rabs (fval (nth (q * i) r (S754_zero false)) - fval (nth i x (S754_zero false))) <= err).
Proof.
  intros prec emax sz eta tau cap fft ifft x n Hpe E0 T0 Hf Hi Nx Fx Len [R1 [R2 R3]]. cbv zeta in *. unfold mass in *.
  destruct (resample_close prec emax Hpe sz eta tau cap fft ifft Hf Hi E0 T0 x n Fx Nx Len R1 R2 R3) as [r [r' [H1 [H2 [H3 H4]]]]].
  exists r. split; [exact H1|]. split; [exact H3|].
  assert (NV : forall j, nth j (map fval x) 0 = fval (nth j x (S754_zero false))) by (intros j; rewrite <- (map_nth fval); reflexivity).
  split; [|split].
  - clear - H4. induction H4 as [|a b l m H _ IH]; constructor; [exact (proj1 H)|exact IH].
  - intros m Hm. destruct (C63_resample_closed_form (dftl (-1)) (dftl 1) (map fval x) n dftl_fft dftl_ifft) as [y [Y1 [Y2 Y3]]].
    rewrite H2 in Y1. injection Y1 as <-. pose proof (Forall2_get _ _ _ (S754_zero false) 0 H4 m ltac:(lia)) as [_ Q]. rewrite Y3 in Q by exact Hm. rewrite map_length in Q.
    erewrite rsum_ext; [exact Q|]. intros j Hj. cbv beta. rewrite NV. reflexivity.
  - intros q Ev Hq -> i Hi'. destruct (proj2 (C41_resample_constant_and_upsampling_partial (dftl (-1)) (dftl 1) dftl_fft dftl_ifft) (map fval x) q) as [y [Y1 [Y2 Y3]]]; [rewrite map_length; exact Ev|exact Hq|].
    rewrite map_length in Y1, Y3. rewrite H2 in Y1. injection Y1 as <-. pose proof (Forall2_get _ _ _ (S754_zero false) 0 H4 (q * i)%nat ltac:(nia)) as [_ Q].
    rewrite Y3, NV in Q by exact Hi'. exact Q.
Qed.
Print Assumptions C84_resample_rounding.
(** An empty signal: every value returned is infinite or NaN. *)
Theorem C84_resample_empty_refuted : forall prec emax szero eta tau cap fft ifft n,
  (1 < prec < emax)%Z -> 0 <= cap ->
  fft_within prec emax (-1) eta tau cap fft -> fft_within prec emax 1 eta tau cap ifft ->
  exists r, @resample _ (SFNum prec emax szero) fft ifft [] n = Ok r /\ length r = n /\
    Forall (fun v => ~ finite prec emax v) r.
Proof.
  intros prec emax sz eta tau cap fft ifft n Hpe C0' Hf Hi. rewrite resample_gunfold. cbv zeta. cbn [map].
  destruct (Hf []) as [L _]; [constructor|exact C0'|]. cbn [length] in L. apply length_zero_iff_nil in L. replace (fft _) with (@nil (cplx spec_float)) by (symmetry; exact L).
  assert (G : gspread (@czero _ (SFNum prec emax sz)) [] n = repeat (@czero _ (SFNum prec emax sz)) n).
  { unfold gspread. cbn [length Nat.min Nat.div]. change (0 / 2)%nat with 0%nat. cbn. rewrite app_nil_r. f_equal. lia. }
  rewrite G. destruct (Hi (repeat (@czero _ (SFNum prec emax sz)) n)) as [LI KI].
  { apply Forall_forall. intros z Hz. apply repeat_spec in Hz. subst z. split; split; reflexivity || exact I. }
  { eapply Rle_trans; [|exact C0']. clear. induction n as [|n IH]; [cbn; lra|]. unfold csize in *. cbn [repeat map]. rewrite Rsum_cons. cbn in *. rewrite Rabs_R0. lra. }
  rewrite repeat_length in LI, KI. eexists. split; [reflexivity|]. split; [rewrite map_length; exact LI|].
  apply Forall_forall. intros v Hv. apply in_map_iff in Hv. destruct Hv as [z [<- Hz]]. apply (@In_nth (cplx spec_float) _ _ (S754_zero false, S754_zero false)) in Hz.
  destruct Hz as [k [Hk <-]]. destruct (KI k) as [[F _] _]; [unfold cplx in *; lia|]. set (z := cre _) in F |- *.
  change (ndiv none (nofZ (Z.of_nat (length (@nil (cplx spec_float)))))) with (SFdiv prec emax (SpecFloat.binary_normalize prec emax 1 0 false) (S754_zero false)).
  assert (O : exists m e, SpecFloat.binary_normalize prec emax 1 0 false = S754_finite false m e).
  { destruct (fofZ_ok prec emax ltac:(unfold FLX.Prec_gt_0; lia) ltac:(unfold BinarySingleNaN.Prec_lt_emax; lia) 1) as [F1 V1].
    { cbn. change 1%Z with (2 ^ 0)%Z. apply Z.pow_le_mono_r; lia. } { cbn. pose proof (FM4 prec emax Hpe). lra. }
    destruct (SpecFloat.binary_normalize prec emax 1 0 false) as [s|s| |s m e]; try (cbn in V1; lra).
    destruct s; [|exists m, e; reflexivity]. exfalso. cbn in V1. assert (0 < IZR (Zpos m)) by (apply IZR_lt; reflexivity). assert (0 < powerRZ 2 e) by (apply powerRZ_lt; lra). nra. }
  destruct O as [m [e ->]]. cbn [SFdiv]. intros [_ Q]. destruct F as [_ F]. destruct z as [s|s| |s m' e']; cbn in Q, F; try contradiction.
Qed.
Print Assumptions C84_resample_empty_refuted.
Example C84_ex : let x := [f64_1; f64_2; f64_3; f64_half] in
  Forall (finite 53 1024) x /\ map fval x = [1; 2; 3; 1 / 2] /\ (Z.of_nat (length x) <= 2 ^ 53)%Z /\
  res_in_range 53 1024 (uround 53) (ftiny 53 1024) (fmax 53 1024) (length x) 8 (mass x).
Proof.
  assert (P : forall k m e, (Zpos m = e * 2 ^ Z.of_nat k)%Z -> fval (S754_finite false m (- Z.of_nat k)) = IZR e).
  { intros k m e H. unfold fval. rewrite H, mult_IZR, Rmult_1_l, powerRZ_neg', <- pow_powerRZ, <- pow_IZR by lra. assert (0 < 2 ^ k) by (apply pow_lt; lra). field. lra. }
  assert (V1 : fval f64_1 = 1) by (apply (P 52%nat _ 1%Z); vm_compute; reflexivity).
  assert (V2 : fval f64_2 = 2) by (apply (P 51%nat _ 2%Z); vm_compute; reflexivity).
  assert (V3 : fval f64_3 = 3) by (apply (P 51%nat _ 3%Z); vm_compute; reflexivity).
  assert (Vh : fval f64_half = 1 / 2).
  { assert (H : fval f64_half = fval f64_1 / 2); [|lra]. unfold fval, f64_half, f64_1. change (-52)%Z with (1 + -53)%Z. rewrite powerRZ_add by lra. rewrite powerRZ_1. field. }
  cbv zeta. split; [repeat constructor; vm_compute; reflexivity|].
  split; [cbn [map]; rewrite V1, V2, V3, Vh; reflexivity|]. split; [vm_compute; discriminate|].
  assert (Mx : mass [f64_1; f64_2; f64_3; f64_half] = 13 / 2) by (unfold mass; cbn [map Rsum fold_right]; rewrite V1, V2, V3, Vh, !Rabs_pos_eq by lra; lra).
  rewrite Mx. unfold res_in_range. change (length [f64_1; f64_2; f64_3; f64_half]) with 4%nat. replace (INR (2 * (Nat.min 4 8 / 2))) with 4 by (cbn; lra). replace (/ INR 4) with (/ 4) by (cbn; f_equal; lra).
  pose proof (u0 53) as U0. pose proof (u14 53 1024 ltac:(lia)) as U1. pose proof (tn0 53 1024) as T0. pose proof (tn1 53 1024 ltac:(lia)) as T1.
  assert (FMb : 100000 <= fmax 53 1024).
  { eapply Rle_trans; [|exact (FM2p 53 1024 ltac:(lia))]. change 53%Z with (Z.of_nat 53). rewrite <- pow_powerRZ. replace 53%nat with (20 + 33)%nat by reflexivity. rewrite pow_add.
    assert (1 <= 2 ^ 33) by (apply pow_R1_Rle; lra). lra. }
  set (u := uround 53) in *. set (t := ftiny 53 1024) in *.
  assert (Q1 : 0 <= (1 + u) * (13 / 2) + t <= 13) by lra. set (M := (1 + u) * (13 / 2) + t) in *. clearbody M.
  split; [lra|]. split; [lra|].
  assert (Q2 : 0 <= (1 + u) * M) by (apply Rmult_le_pos; lra). assert (Q3 : (1 + u) * M <= 2 * 13) by (apply Rmult_le_compat; lra).
  replace (2 * 4 * (1 + u) * M + t) with (8 * ((1 + u) * M) + t) by ring. set (q := (1 + u) * M) in *. clearbody q.
  assert (Q4 : 0 <= (8 * q + t) * (/ 4 + t)) by (apply Rmult_le_pos; lra). assert (Q5 : (8 * q + t) * (/ 4 + t) <= 210 * 1) by (apply Rmult_le_compat; lra).
  assert (G2 : (1 + u) ^ 2 <= 2) by nra. assert (G0 : 0 <= (1 + u) ^ 2) by apply pow2_ge_0.
  assert ((1 + u) ^ 2 * ((8 * q + t) * (/ 4 + t) + t) <= 2 * 211) by (apply Rmult_le_compat; lra). lra.
Qed.
