(** Energy through a stable cascade at rest: Parseval's identity and the partial sums of
    the frequency response. *)
From Coq Require Import List Arith ZArith Znumtheory Reals Lra Lia.
From Verif Require Import Base Num Trans M_Complex M_Filter M_Design Cx RSum S_Filter S_Design S_Stable S_Fourier S_Energy P_Sosfilt P_Transfer P_Proto P_Fourier T_Convolve P_Stable T_Stable P_ZeroPhase P_FloatResponse.
Import ListNotations.
Local Open Scope R_scope.

Lemma energy_rsum x : energy x = rsum (length x) (fun n => (nth n x 0) ^ 2).
Proof.
  induction x as [|v x IH]; [reflexivity|]. cbn [length]. rewrite rsum_first. cbn [energy fold_right nth]. fold (energy x). rewrite IH. reflexivity.
Qed.
Lemma rsum_le n f g : (forall i, (i < n)%nat -> f i <= g i) -> rsum n f <= rsum n g.
Proof. induction n as [|n IH]; intros Q; cbn [rsum]; [lra|]. pose proof (Q n ltac:(lia)). specialize (IH ltac:(intros; apply Q; lia)). lra. Qed.
Lemma rsum_nonneg n f : (forall i, (i < n)%nat -> 0 <= f i) -> 0 <= rsum n f.
Proof. intros Q. replace 0 with (rsum n (fun _ => 0)) by (apply rsum_zero; reflexivity). apply rsum_le, Q. Qed.
Lemma cconj_csum n f : cconj (csum n f) = csum n (fun i => cconj (f i)).
Proof. induction n as [|n IH]; cbn [csum]; [apply C_ext; cbn; ring|]. rewrite <- IH. apply C_ext; cbn; ring. Qed.

Lemma csum_trunc n m f : (n <= m)%nat -> (forall i, (n <= i < m)%nat -> f i = C0) -> csum m f = csum n f.
Proof. intros L Q. replace m with (n + (m - n))%nat by lia. rewrite csum_add, (csum_zero (m - n)); [ring|]. intros i Hi. apply Q. lia. Qed.

(** ** Parseval *)
Lemma parseval P (a : nat -> C) : (0 < P)%nat ->
  rsum P (fun k => cnorm_sqr (csum P (fun n => a n * W P (- (Z.of_nat n * Z.of_nat k)))%C)) = INR P * rsum P (fun n => cnorm_sqr (a n)).
Proof.
  intros HP. apply RtoC_inj. rewrite <- csum_RtoC.
  transitivity (csum P (fun k => csum P (fun n => csum P (fun m => (a n * cconj (a m)) * W P ((Z.of_nat m - Z.of_nat n) * Z.of_nat k))))%C).
  { apply csum_ext. intros k _. rewrite cnorm_sqr_conj, cconj_csum, <- csum_scale_r. apply csum_ext. intros n _. rewrite <- csum_scale. apply csum_ext. intros m _.
    replace ((Z.of_nat m - Z.of_nat n) * Z.of_nat k)%Z with (- (Z.of_nat n * Z.of_nat k) + Z.of_nat m * Z.of_nat k)%Z by ring. rewrite W_add.
    replace (cconj (a m * W P (- (Z.of_nat m * Z.of_nat k))))%C with (cconj (a m) * W P (Z.of_nat m * Z.of_nat k))%C.
    2:{ rewrite <- (Z.opp_involutive (Z.of_nat m * Z.of_nat k)) at 1. rewrite <- W_conj. apply C_ext; cbn; ring. }
    ring. }
  rewrite csum_swap. rewrite RtoC_mul, <- csum_RtoC, <- csum_scale. apply csum_ext. intros n Hn. rewrite csum_swap.
  rewrite (csum_single P n); [|exact Hn|].
  - rewrite csum_scale, orthogonality by exact HP. destruct (Zdivide_dec _ _) as [_|D]; [|exfalso; apply D; exists 0%Z; lia]. rewrite cnorm_sqr_conj. ring.
  - intros m Hm Hne. rewrite csum_scale, orthogonality by exact HP. destruct (Zdivide_dec _ _) as [D|_]; [|ring]. apply small_divide in D; lia.
Qed.

(** ** Partial sums of the response *)
Definition Hs (l : list (Sos R)) (theta : R) : C := (sos_num l (E theta) / sos_den l (E theta))%C.
Definition Fs (l : list (Sos R)) (theta : R) (n : nat) : C := csum (S n) (fun k => RtoC (ir l k) * E (- (theta * INR k)))%C.

Lemma cout_ir l x n : Forall zero_state l -> cout l x n = rsum (S n) (fun j => x j * ir l (n - j)).
Proof.
  intros Z. rewrite <- (filt_signal l x (S n) n) by lia. rewrite filt_ir by (try exact Z; rewrite map_length, seq_length; lia).
  apply rsum_ext. intros j Hj. f_equal. rewrite (nth_indep _ 0 (x 0%nat)) by (rewrite map_length, seq_length; exact Hj). rewrite map_nth, seq_nth by exact Hj. reflexivity.
Qed.
Lemma cout_tone l theta phi n : Forall zero_state l -> cout l (fun k => cos (theta * INR k + phi)) n = cre (E (theta * INR n + phi) * Fs l theta n)%C.
Proof.
  intros Z. rewrite cout_ir by exact Z. rewrite rsum_rev. unfold Fs. rewrite <- csum_scale, csum_re. apply rsum_ext. intros k Hk.
  replace (S n - 1 - k)%nat with (n - k)%nat by lia. replace (n - (n - k))%nat with k by lia.
  replace (E (theta * INR n + phi) * (RtoC (ir l k) * E (- (theta * INR k))))%C with (RtoC (ir l k) * E (theta * INR n + phi + - (theta * INR k)))%C by (rewrite (E_add (theta * INR n + phi)); ring).
  replace (theta * INR n + phi + - (theta * INR k)) with (theta * INR (n - k) + phi) by (rewrite minus_INR by lia; ring).
  unfold E, RtoC. cbn. ring.
Qed.

Lemma partial_sums l : stable_sections l -> Forall zero_state l ->
  exists K rho, 0 <= K /\ 0 < rho < 1 /\ forall theta n, cnorm (Fs l theta n - Hs l theta)%C <= K * rho ^ n.
Proof.
  intros [HA Hp] Z0. assert (SZ : state_size l = 0). { clear -Z0. unfold state_size. induction Z0 as [|s l [A B] F IH]; [reflexivity|]. cbn [fold_right]. rewrite IH, A, B, Rabs_R0. ring. }
  destruct (cascade_roots l HA Hp) as [rho [Hr Hroots]]. destruct (one_pass l rho (Hroots rho ltac:(lra)) Hr Hroots HA) as (Z & K & _ & HK & P).
  exists (K * 2), rho. split; [lra|]. split; [exact Hr|]. intros theta n. destruct (P theta) as [_ P1].
  destruct (polar (Hs l theta)) as [psi Hpsi]. pose proof (cnorm_pos (Hs l theta)) as Hg. set (g := cnorm (Hs l theta)) in *. destruct (P1 g psi Hg Hpsi) as [_ P2].
  destruct (polar (Fs l theta n - Hs l theta)%C) as [eta Heta]. set (r := cnorm (Fs l theta n - Hs l theta)%C) in *. clearbody r.
  set (phi := - (theta * INR n) - eta).
  pose proof (P2 l (fun k => cos (theta * INR k + phi)) 0%nat (S n) 1 phi 1 0 eq_refl Rle_0_1 (Rle_refl 0)) as B.
  assert (B1 := B ltac:(intros k; apply Rabs_le; apply COS_bound)). clear B.
  assert (B2 := B1 ltac:(intros k _; cbn [Nat.add]; rewrite Rmult_1_l, Rminus_diag_eq, Rabs_R0 by reflexivity; lra) n ltac:(lia)). clear B1. cbn [Nat.add] in B2.
  rewrite SZ, cout_tone, Rabs_R1, !Rmult_1_l in B2 by exact Z0.
  assert (Q : cre (E (theta * INR n + phi) * Fs l theta n)%C - g * cos (theta * INR n + phi + psi) = r).
  { replace (g * cos (theta * INR n + phi + psi)) with (cre (E (theta * INR n + phi) * Hs l theta)%C) by (rewrite Hpsi, (cos_plus (theta * INR n + phi) psi); unfold E, cre, cmul; cbn; unfold cre, cim; cbn; ring).
    transitivity (cre (E (theta * INR n + phi) * (Fs l theta n - Hs l theta))%C); [unfold cre, cmul, csub; cbn; ring|]. rewrite Heta. unfold phi, E. cbn.
    replace (theta * INR n + (- (theta * INR n) - eta)) with (- eta) by ring. rewrite cos_neg, sin_neg. pose proof (sin2_cos2 eta) as SC. unfold Rsqr in SC. transitivity (r * (sin eta * sin eta + cos eta * cos eta)); [ring|rewrite SC; ring]. }
  rewrite Q in B2. pose proof (Rle_abs r). lra.
Qed.

(** ** The energy of the output *)
Section Energy.
Variable l : list (Sos R).
Hypothesis Z0 : Forall zero_state l.
Variable x : nat -> R.
Variable N : nat.
Hypothesis Hx : forall n, (N <= n)%nat -> x n = 0.
Variable M : nat.
Hypothesis HM : (N <= M)%nat.
Let P : nat := (S M + N)%nat.
Let y (n : nat) : R := rsum (S M) (fun j => if (j <=? n)%nat then ir l j * x (n - j) else 0).
Let X (k : nat) : C := csum P (fun n => RtoC (x n) * W P (- (Z.of_nat n * Z.of_nat k)))%C.

Lemma y_eq n : (n <= M)%nat -> y n = rsum (S n) (fun j => x j * ir l (n - j)).
Proof.
  intros Hn. unfold y. replace (S M) with (S n + (M - n))%nat by lia. rewrite rsum_add, (rsum_zero (M - n)), Rplus_0_r.
  - rewrite (rsum_rev (S n) (fun j => x j * ir l (n - j))). apply rsum_ext. intros j Hj. destruct (Nat.leb_spec j n); [|lia].
    replace (S n - 1 - j)%nat with (n - j)%nat by lia. replace (n - (n - j))%nat with j by lia. ring.
  - intros j Hj. destruct (Nat.leb_spec (S n + j) n); [lia|reflexivity].
Qed.
Lemma transform k : (k < P)%nat -> csum P (fun n => RtoC (y n) * W P (- (Z.of_nat n * Z.of_nat k)))%C = (Fs l (2 * PI * (INR k / INR P)) M * X k)%C.
Proof.
  intros Hk. unfold y. assert (HP : INR P <> 0) by (apply not_0_INR; unfold P; lia).
  transitivity (csum P (fun n => csum (S M) (fun j => RtoC (if (j <=? n)%nat then ir l j * x (n - j)%nat else 0)%R * W P (- (Z.of_nat n * Z.of_nat k))))%C).
  { apply csum_ext. intros n _. rewrite <- csum_RtoC, <- csum_scale_r. reflexivity. }
  rewrite csum_swap. unfold Fs. rewrite <- csum_scale_r. apply csum_ext. intros j Hj.
  replace P with (j + (P - j))%nat at 1 by lia. rewrite csum_add, csum_zero.
  2:{ intros n Hn. destruct (Nat.leb_spec j n); [lia|]. change (RtoC 0) with C0. ring. }
  transitivity (RtoC (ir l j) * W P (- (Z.of_nat j * Z.of_nat k)) * csum (P - j) (fun m => RtoC (x m) * W P (- (Z.of_nat m * Z.of_nat k))))%C.
  - rewrite <- csum_scale. transitivity (csum (P - j) (fun i => RtoC (if (j <=? j + i)%nat then ir l j * x (j + i - j)%nat else 0)%R * W P (- (Z.of_nat (j + i) * Z.of_nat k))))%C; [ring|].
    apply csum_ext. intros m _. destruct (Nat.leb_spec j (j + m)); [|lia]. replace (j + m - j)%nat with m by lia.
    replace (- (Z.of_nat (j + m) * Z.of_nat k))%Z with (- (Z.of_nat j * Z.of_nat k) + - (Z.of_nat m * Z.of_nat k))%Z by lia. rewrite W_add, RtoC_mul. ring.
  - apply f_equal2.
    + f_equal. unfold W. f_equal. rewrite opp_IZR, mult_IZR, <- !INR_IZR_INZ. field. exact HP.
    + unfold X. symmetry. apply csum_trunc; [lia|]. intros i Hi. rewrite Hx by (unfold P in *; lia). change (RtoC 0) with C0. ring.
Qed.
Lemma energy_step G : (forall theta, cnorm (Fs l theta M) <= G) -> rsum N (fun n => (rsum (S n) (fun j => x j * ir l (n - j))) ^ 2) <= G ^ 2 * rsum N (fun n => x n ^ 2).
Proof.
  intros HG. assert (HP : 0 < INR P) by (apply lt_0_INR; unfold P; lia). assert (G0 : 0 <= G) by (eapply Rle_trans; [apply cnorm_pos|apply (HG 0)]).
  assert (CS : forall v : R, cnorm_sqr (RtoC v) = v ^ 2) by (intros v; unfold RtoC, cnorm_sqr; cbn; ring).
  assert (A1 : rsum N (fun n => (rsum (S n) (fun j => x j * ir l (n - j))) ^ 2) <= rsum P (fun n => cnorm_sqr (RtoC (y n)))).
  { replace P with (N + S M)%nat by (unfold P; lia). rewrite rsum_add.
    assert (T : 0 <= rsum (S M) (fun i => cnorm_sqr (RtoC (y (N + i))))) by (apply rsum_nonneg; intros i _; rewrite CS; apply pow2_ge_0).
    rewrite (rsum_ext N _ (fun n => cnorm_sqr (RtoC (y n)))); [lra|]. intros n Hn. rewrite CS, y_eq by lia. reflexivity. }
  assert (A2 : rsum P (fun n => cnorm_sqr (RtoC (x n))) = rsum N (fun n => x n ^ 2)).
  { replace P with (N + S M)%nat by (unfold P; lia). rewrite rsum_add, (rsum_zero (S M)), Rplus_0_r; [apply rsum_ext; intros; apply CS|]. intros i _. rewrite CS, Hx by lia. ring. }
  pose proof (parseval P (fun n => RtoC (y n)) ltac:(unfold P; lia)) as PY. pose proof (parseval P (fun n => RtoC (x n)) ltac:(unfold P; lia)) as PX.
  assert (A3 : INR P * rsum P (fun n => cnorm_sqr (RtoC (y n))) <= G ^ 2 * (INR P * rsum P (fun n => cnorm_sqr (RtoC (x n))))).
  { rewrite <- PY, <- PX, <- rsum_scale. apply rsum_le. intros k Hk. rewrite transform by exact Hk. fold (X k). rewrite cnorm_sqr_mul. apply Rmult_le_compat_r.
    - rewrite <- cnorm_sq. pose proof (cnorm_pos (X k)). nra.
    - rewrite <- cnorm_sq. specialize (HG (2 * PI * (INR k / INR P))). pose proof (cnorm_pos (Fs l (2 * PI * (INR k / INR P)) M)). nra. }
  rewrite A2 in A3. eapply Rle_trans; [exact A1|]. apply Rmult_le_reg_l with (INR P); [exact HP|]. lra.
Qed.
End Energy.

Lemma small_pow rho e : 0 < rho < 1 -> 0 < e -> exists n0, forall n, (n0 <= n)%nat -> rho ^ n < e.
Proof.
  intros Hr He. destruct (pow_lt_1_zero rho) with (y := e) as [n0 Q]; [rewrite Rabs_right; lra|exact He|]. exists n0. intros n Hn. specialize (Q n Hn). rewrite Rabs_right in Q; [exact Q|]. apply Rle_ge, pow_le. lra.
Qed.

Lemma energy_le l G : stable_sections l -> Forall zero_state l -> 0 <= G -> (forall theta, cnorm (Hs l theta) <= G) ->
  forall x, energy (fst (filt x l)) <= G ^ 2 * energy x.
Proof.
  intros SS Z0 G0 HG x. destruct (partial_sums l SS Z0) as (K & rho & HK & Hr & B).
  assert (S : forall M, (length x <= M)%nat -> energy (fst (filt x l)) <= (G + K * rho ^ M) ^ 2 * energy x).
  { intros M HM. rewrite !energy_rsum, filt_length_out.
    rewrite (rsum_ext (length x) (fun n => nth n (fst (filt x l)) 0 ^ 2) (fun n => (rsum (S n) (fun j => nth j x 0 * ir l (n - j))) ^ 2)) by (intros n Hn; rewrite filt_ir by (try exact Z0; exact Hn); reflexivity).
    apply (energy_step l (fun j => nth j x 0) (length x) (fun n Hn => nth_overflow x 0 Hn) M HM). intros theta.
    replace (Fs l theta M) with (Hs l theta + (Fs l theta M - Hs l theta))%C by ring. eapply Rle_trans; [apply cnorm_add|]. specialize (HG theta). specialize (B theta M). lra. }
  assert (E0 : 0 <= energy x) by (rewrite energy_rsum; apply rsum_nonneg; intros; apply pow2_ge_0).
  apply Rnot_lt_le. intros L. set (e := energy x) in *. set (f := energy (fst (filt x l))) in *.
  set (d := f - G ^ 2 * e). assert (D : 0 < d) by (unfold d; lra).
  assert (Q : 0 < d / ((2 * G * K + K ^ 2 + 1) * (e + 1))).
  { apply Rdiv_lt_0_compat; [exact D|]. apply Rmult_lt_0_compat; [|lra]. pose proof (Rmult_le_pos _ _ G0 HK). pose proof (pow2_ge_0 K). lra. }
  destruct (small_pow rho _ Hr Q) as [n0 P]. set (M := Nat.max n0 (length x)). specialize (P M ltac:(lia)). specialize (S M ltac:(lia)).
  set (t := rho ^ M) in *. assert (T0 : 0 <= t) by (apply pow_le; lra). assert (T1 : t <= 1) by (unfold t; rewrite <- (pow1 M); apply pow_incr; lra).
  set (c := 2 * G * K + K ^ 2 + 1) in *. assert (C0' : 1 <= c) by (unfold c; pose proof (Rmult_le_pos _ _ G0 HK); pose proof (pow2_ge_0 K); lra).
  assert (P' : t * (c * (e + 1)) < d). { apply Rmult_lt_reg_r with (/ (c * (e + 1))); [apply Rinv_0_lt_compat, Rmult_lt_0_compat; lra|]. rewrite Rmult_assoc, Rinv_r, Rmult_1_r; [exact P|]. apply Rgt_not_eq, Rmult_lt_0_compat; lra. }
  assert (V : (G + K * t) ^ 2 <= G ^ 2 + c * t).
  { replace ((G + K * t) ^ 2) with (G ^ 2 + (2 * G * K + K ^ 2 * t) * t) by ring. apply Rplus_le_compat_l, Rmult_le_compat_r; [exact T0|]. unfold c. pose proof (pow2_ge_0 K). nra. }
  assert (W : (G + K * t) ^ 2 * e <= (G ^ 2 + c * t) * e) by (apply Rmult_le_compat_r; assumption).
  assert (U : 0 <= c * t) by (apply Rmult_le_pos; lra). unfold d in P'. nra.
Qed.

Lemma nat_above d v : 0 < d -> exists N, v < INR N * d.
Proof.
  intros Hd. destruct (archimed (Rmax (v / d) 0)) as [A _]. pose proof (Rmax_l (v / d) 0) as L1. pose proof (Rmax_r (v / d) 0) as L2. set (m := Rmax (v / d) 0) in *.
  exists (Z.to_nat (up m)). assert (U : (0 <= up m)%Z) by (apply le_IZR; lra). rewrite INR_IZR_INZ, Z2Nat.id by exact U.
  replace v with (v / d * d) by (field; lra). apply Rmult_lt_compat_r; lra.
Qed.

(** The converse: the cosine and the sine of one frequency together have energy N. *)
Lemma gain_le l G : stable_sections l -> Forall zero_state l -> 0 <= G -> (forall x, energy (fst (filt x l)) <= G ^ 2 * energy x) ->
  forall theta, cnorm (Hs l theta) <= G.
Proof.
  intros SS Z0 G0 HE theta. destruct (partial_sums l SS Z0) as (K & rho & HK & Hr & B). specialize (B theta). set (h := cnorm (Hs l theta)) in *. assert (H0 : 0 <= h) by apply cnorm_pos.
  assert (S : forall N, rsum N (fun n => cnorm_sqr (Fs l theta n)) <= G ^ 2 * INR N).
  { intros N. pose proof (HE (map (fun k => cos (theta * INR k + 0)) (seq 0 N))) as E1. pose proof (HE (map (fun k => cos (theta * INR k + - (PI / 2))) (seq 0 N))) as E2.
    rewrite !energy_rsum, !filt_length_out, !map_length, !seq_length in E1, E2.
    rewrite (rsum_ext N _ (fun n => (cre (E (theta * INR n + 0) * Fs l theta n)%C) ^ 2)) in E1 by (intros n Hn; rewrite (filt_signal l (fun k => cos (theta * INR k + 0)) N n Hn), cout_tone by exact Z0; reflexivity).
    rewrite (rsum_ext N _ (fun n => (cre (E (theta * INR n + - (PI / 2)) * Fs l theta n)%C) ^ 2)) in E2 by (intros n Hn; rewrite (filt_signal l (fun k => cos (theta * INR k + - (PI / 2))) N n Hn), cout_tone by exact Z0; reflexivity).
    assert (NM : forall f n, (n < N)%nat -> nth n (map f (seq 0 N)) 0 = f n). { intros f n Hn. rewrite (nth_indep _ 0 (f 0%nat)) by (rewrite map_length, seq_length; exact Hn). rewrite map_nth, seq_nth by exact Hn. reflexivity. }
    rewrite (rsum_ext N (fun n => nth n (map (fun k => cos (theta * INR k + 0)) (seq 0 N)) 0 ^ 2) (fun n => cos (theta * INR n) ^ 2)) in E1 by (intros n Hn; rewrite NM by exact Hn; rewrite Rplus_0_r; reflexivity).
    rewrite (rsum_ext N (fun n => nth n (map (fun k => cos (theta * INR k + - (PI / 2))) (seq 0 N)) 0 ^ 2) (fun n => sin (theta * INR n) ^ 2)) in E2.
    2:{ intros n Hn. rewrite NM by exact Hn. rewrite cos_plus, cos_neg, sin_neg, cos_PI2, sin_PI2. f_equal. ring. }
    assert (T : rsum N (fun n => cos (theta * INR n) ^ 2) + rsum N (fun n => sin (theta * INR n) ^ 2) = INR N).
    { rewrite <- rsum_plus, (rsum_ext N _ (fun _ => 1)), rsum_const; [ring|]. intros n _. pose proof (sin2_cos2 (theta * INR n)) as SC. unfold Rsqr in SC. cbn. lra. }
    rewrite <- T, Rmult_plus_distr_l. eapply Rle_trans; [|apply Rplus_le_compat; [exact E1|exact E2]]. rewrite <- rsum_plus. right. apply rsum_ext. intros n _.
    rewrite Rplus_0_r. set (w := theta * INR n). replace (E (w + - (PI / 2))) with (sin w, - cos w) by (unfold E; rewrite cos_plus, sin_plus, cos_neg, sin_neg, cos_PI2, sin_PI2; f_equal; ring).
    pose proof (sin2_cos2 w) as SC. unfold Rsqr in SC. unfold E. destruct (Fs l theta n) as [a b]. unfold cnorm_sqr, cmul, cre, cim. cbn [fst snd nadd nsub nmul RNum pow].
    replace (a * a + b * b) with ((sin w * sin w + cos w * cos w) * (a * a + b * b)) by (rewrite SC; ring). ring. }
  apply Rnot_lt_le. intros L. set (c := 2 * h * K). assert (Hc : 0 <= c) by (unfold c; apply Rmult_le_pos; lra).
  assert (LB : forall N, INR N * h ^ 2 - c / (1 - rho) <= rsum N (fun n => cnorm_sqr (Fs l theta n))).
  { intros N. apply Rle_trans with (rsum N (fun n => h ^ 2 - c * rho ^ n)).
    - assert (GS : rsum N (fun n => rho ^ n) <= / (1 - rho)).
      { assert (Q : rsum N (fun n => rho ^ n) * (1 - rho) = 1 - rho ^ N) by (induction N as [|N IH]; cbn [rsum pow]; [ring|]; rewrite Rmult_plus_distr_r, IH; ring).
        apply Rmult_le_reg_r with (1 - rho); [lra|]. rewrite Q, Rinv_l by lra. pose proof (pow_le rho N ltac:(lra)). lra. }
      rewrite (rsum_minus N (fun _ => h ^ 2) (fun n => c * rho ^ n)), rsum_const, rsum_scale. apply Rplus_le_compat_l, Ropp_le_contravar. unfold Rdiv. apply Rmult_le_compat_l; assumption.
    - apply rsum_le. intros n _. specialize (B n). pose proof (cnorm_ge_diff (Fs l theta n) (Hs l theta)) as D. fold h in D. rewrite <- cnorm_sq. pose proof (cnorm_pos (Fs l theta n)) as F0. set (f := cnorm (Fs l theta n)) in *.
      assert (R0 : 0 <= rho ^ n) by (apply pow_le; lra). assert (KR : 0 <= K * rho ^ n) by (apply Rmult_le_pos; assumption). set (t := K * rho ^ n) in *.
      replace (h ^ 2 - c * rho ^ n) with (h * h - 2 * h * t) by (unfold c, t; ring).
      assert (DF : h - t <= f) by lra. destruct (Rle_dec h t) as [LT|GT]; [nra|]. apply Rle_trans with ((h - t) * (h - t)); [nra|]. apply Rmult_le_compat; lra. }
  assert (D : 0 < h ^ 2 - G ^ 2) by nra.
  destruct (nat_above (h ^ 2 - G ^ 2) (c / (1 - rho)) D) as [N Q]. specialize (LB N). specialize (S N).
  lra.
Qed.
