(** C104: Savitzky-Golay filtering is local least-squares fitting.  With a solver that
    returns least-norm solutions, every output sample, up to the ends of the signal, is the
    derivative, at the sample, of the polynomial that fits the samples of the window best;
    the coefficients are symmetric or antisymmetric; smoothing never amplifies noise. *)
From Coq Require Import Reals List Arith Lia Lra Psatz ZArith.
From Verif Require Import Base Num MachInt M_Special M_Linalg M_Savgol S_Stats S_Special S_Savgol S_SavgolFit RSum P_Stats P_Savgol.
Import ListNotations.
Local Open Scope R_scope.

Lemma quad_zero a b : 0 <= b -> (forall e, 0 <= - (2 * e * a) + e * e * b) -> a = 0.
Proof.
  intros Hb Q. specialize (Q (a / (b + 1))). assert (P : 0 < b + 1) by lra.
  assert (E : - (2 * (a / (b + 1)) * a) + a / (b + 1) * (a / (b + 1)) * b = - (a * a * (b + 2)) / ((b + 1) * (b + 1))) by (field; lra).
  rewrite E in Q. assert (0 <= - (a * a * (b + 2))).
  { apply Rmult_le_reg_r with (/ ((b + 1) * (b + 1))); [apply Rinv_0_lt_compat; nra|]. rewrite Rmult_0_l. exact Q. }
  nra.
Qed.
Lemma rsum_sq_nonneg n f : 0 <= rsum n (fun i => f i * f i).
Proof. induction n; cbn [rsum]; [lra|]. nra. Qed.
Lemma rsum_sq_zero n f : rsum n (fun i => f i * f i) = 0 -> forall i, (i < n)%nat -> f i = 0.
Proof.
  induction n as [|n IH]; intros H i Hi; [lia|]. cbn [rsum] in H. pose proof (rsum_sq_nonneg n f).
  assert (f n * f n = 0 /\ rsum n (fun i => f i * f i) = 0) as [A B] by nra.
  destruct (Nat.eq_dec i n) as [->|]; [nra|]. apply IH; [exact B|lia].
Qed.
Lemma monomial_eval m e t : peval (repeat 0 m ++ [e]) t = e * t ^ m.
Proof. induction m; cbn [repeat app peval pow]; [ring|]. rewrite IHm. ring. Qed.

(** Best fits satisfy, and are found by, the normal equations. *)
Definition normal (w po : nat) (t s : nat -> R) (p : list R) : Prop :=
  forall m, (m <= po)%nat -> rsum w (fun k => (s k - peval p (t k)) * t k ^ m) = 0.
Lemma best_normal w po delta s p : best_fit w po delta s p -> normal w po (tap_time w delta) s p.
Proof.
  intros [Lp B] m Hm. set (t := tap_time w delta) in *.
  apply quad_zero with (rsum w (fun k => t k ^ m * t k ^ m)); [apply (rsum_sq_nonneg w (fun k => t k ^ m))|].
  intros e. specialize (B (padd p (repeat 0 m ++ [e]))). rewrite padd_length, app_length, repeat_length in B. cbn [length] in B. specialize (B ltac:(lia)).
  unfold deviation in B. fold t in B.
  rewrite (rsum_ext w (fun k => (s k - peval (padd p (repeat 0 m ++ [e])) (t k)) ^ 2)
    (fun k => (s k - peval p (t k)) ^ 2 + (- (2 * e) * ((s k - peval p (t k)) * t k ^ m) + e * e * (t k ^ m * t k ^ m)))) in B
    by (intros k _; rewrite padd_eval, monomial_eval; ring).
  rewrite !rsum_plus, !rsum_scale in B. lra.
Qed.
Lemma normal_poly w po t s p q : normal w po t s p -> (length q <= po + 1)%nat -> rsum w (fun k => (s k - peval p (t k)) * peval q (t k)) = 0.
Proof.
  intros Hn Lq. rewrite (rsum_ext w _ (fun k => rsum (po + 1) (fun m => nth m q 0 * ((s k - peval p (t k)) * t k ^ m)))).
  2:{ intros k _. rewrite (peval_sum q _ (po + 1)) by exact Lq. rewrite <- rsum_scale. apply rsum_ext. intros m _. ring. }
  rewrite rsum_swap. apply rsum_zero. intros m Hm. rewrite rsum_scale, Hn by lia. ring.
Qed.
Lemma normal_best w po delta s p : (length p <= po + 1)%nat -> normal w po (tap_time w delta) s p -> best_fit w po delta s p.
Proof.
  intros Lp Hn. split; [exact Lp|]. intros q Lq. unfold deviation. set (t := tap_time w delta) in *.
  rewrite (rsum_ext w (fun k => (s k - peval q (t k)) ^ 2)
    (fun k => (s k - peval p (t k)) ^ 2 + (2 * ((s k - peval p (t k)) * peval (padd p (map (Rmult (-1)) q)) (t k)) +
      peval (padd p (map (Rmult (-1)) q)) (t k) * peval (padd p (map (Rmult (-1)) q)) (t k)))) by (intros k _; rewrite padd_eval, pscale_eval; ring).
  rewrite !rsum_plus, rsum_scale. rewrite (normal_poly w po t s p _ Hn).
  - pose proof (rsum_sq_nonneg w (fun k => peval (padd p (map (Rmult (-1)) q)) (t k))). lra.
  - rewrite padd_length, map_length. lia.
Qed.

(** Orthogonal projection onto finitely many vectors. *)
Lemma projection w (v : nat -> nat -> R) n : forall s, exists a, forall l, (l < n)%nat -> rsum w (fun k => (s k - rsum n (fun j => a j * v j k)) * v l k) = 0.
Proof.
  induction n as [|n IH]; intros s; [exists (fun _ => 0); intros; lia|].
  destruct (IH s) as [a Ha]. destruct (IH (v n)) as [b Hb].
  set (r := fun k => s k - rsum n (fun j => a j * v j k)) in *. set (u := fun k => v n k - rsum n (fun j => b j * v j k)) in *.
  set (U := rsum w (fun k => u k * u k)).
  assert (Ox : forall x, (forall l, (l < n)%nat -> rsum w (fun k => x k * v l k) = 0) -> rsum w (fun k => x k * v n k) = rsum w (fun k => x k * u k)).
  { intros x Hx. unfold u. rewrite (rsum_ext w (fun k => x k * (v n k - rsum n (fun j => b j * v j k))) (fun k => x k * v n k - rsum n (fun j => b j * (x k * v j k)))).
    2:{ intros k _. rewrite Rmult_minus_distr_l. f_equal. rewrite <- rsum_scale. apply rsum_ext. intros j _. ring. }
    rewrite rsum_minus, rsum_swap. rewrite (rsum_zero n (fun j => rsum w (fun i => b j * (x i * v j i)))); [ring|].
    intros j Hj. rewrite rsum_scale, Hx by exact Hj. ring. }
  set (g := if Req_EM_T U 0 then 0 else rsum w (fun k => r k * u k) / U).
  exists (fun j => if (j =? n)%nat then g else a j - g * b j).
  assert (E : forall k, s k - rsum (S n) (fun j => (if (j =? n)%nat then g else a j - g * b j) * v j k) = r k - g * u k).
  { intros k. cbn [rsum]. rewrite Nat.eqb_refl. rewrite (rsum_ext n _ (fun j => a j * v j k - g * (b j * v j k))).
    2:{ intros j Hj. destruct (Nat.eqb_spec j n); [lia|]. ring. }
    rewrite rsum_minus, rsum_scale. unfold r, u. ring. }
  assert (O1 : forall l, (l < n)%nat -> rsum w (fun k => (r k - g * u k) * v l k) = 0).
  { intros l Hl. rewrite (rsum_ext w _ (fun k => r k * v l k - g * (u k * v l k))) by (intros; ring). rewrite rsum_minus, rsum_scale. replace (rsum w (fun k => r k * v l k)) with 0 by (symmetry; apply (Ha l Hl)).
    replace (rsum w (fun k => u k * v l k)) with 0 by (symmetry; apply (Hb l Hl)). ring. }
  intros l Hl. rewrite (rsum_ext w _ (fun k => (r k - g * u k) * v l k)) by (intros k _; rewrite E; reflexivity).
  destruct (Nat.eq_dec l n) as [->|Hn]; [|apply O1; lia].
  rewrite (Ox (fun k => r k - g * u k) O1).
  rewrite (rsum_ext w _ (fun k => r k * u k - g * (u k * u k))) by (intros; ring). rewrite rsum_minus, rsum_scale. fold U.
  unfold g. destruct (Req_EM_T U 0) as [Z|Z]; [|field; exact Z].
  rewrite Z. rewrite (rsum_zero w); [ring|]. intros k Hk. rewrite (rsum_sq_zero w u Z k Hk). ring.
Qed.

(** Best fits exist for all samples. *)
Theorem C104_fit_exists (w po : nat) (delta : R) (s : nat -> R) : exists p, best_fit w po delta s p.
Proof.
  destruct (projection w (fun m k => tap_time w delta k ^ m) (po + 1) s) as [a Ha].
  exists (map a (seq 0 (po + 1))). apply normal_best; [rewrite map_length, seq_length; lia|].
  intros m Hm. rewrite <- (Ha m ltac:(lia)). apply rsum_ext. intros k _. f_equal. f_equal.
  rewrite (peval_sum _ _ (po + 1)) by (rewrite map_length, seq_length; lia). apply rsum_ext. intros j Hj. rewrite nth_map_seq' by exact Hj. reflexivity.
Qed.
Print Assumptions C104_fit_exists.

(** The coefficients have the least norm among those with the right moments. *)
Lemma least_handles lstsq w po der del : solver_least_norm lstsq w po der del -> solver_handles lstsq w po der del.
Proof. intros H A y eps S. destruct (H A y eps S) as [x [E [Sx _]]]. exists x. auto. Qed.
Lemma sumsq_rsum l : Rsum (map (fun v => v * v) l) = rsum (length l) (fun j => nth j l 0 * nth j l 0).
Proof. rewrite Rsum_nth, map_length. apply rsum_ext. intros j Hj. rewrite (nth_indep _ 0 ((fun v => v * v) 0)) by (rewrite map_length; exact Hj). rewrite (map_nth (fun v => v * v)). reflexivity. Qed.
Lemma coeffs_least lstsq md pw w po der del :
  solver_least_norm lstsq w po der del -> (0 < pw)%Z -> (po < w)%nat -> (der <= po)%nat ->
  (Z.of_nat (fact der) <= imax (usize_t pw))%Z ->
  exists c, savgol_coeffs_dyn lstsq md pw w po (Some der) (Some del) = Ok c /\ moments w po der del c /\
    forall c', moments w po der del c' -> rsum w (fun j => nth j c 0 * nth j c 0) <= rsum w (fun j => nth j c' 0 * nth j c' 0).
Proof.
  intros HL Hp Hw Hd Hf. unfold savgol_coeffs_dyn. destruct (Nat.leb_spec w po); [lia|].
  destruct (Nat.ltb_spec po der); [lia|]. rewrite factorial_ok by assumption. cbn [bind].
  set (A := mkmat _ w _). set (y0 := map _ (seq 0 (po + 1))).
  assert (Ly : length y0 = (po + 1)%nat) by (unfold y0; rewrite map_length, seq_length; reflexivity).
  destruct (set_index_nth y0 der (nofZ (Z.of_nat (fact der)) / npowi del der)%num 0 ltac:(lia)) as (y & -> & Ly' & Hy).
  cbn [bind].
  assert (SY : is_savgol_system w po der del A y).
  { split; [reflexivity|]. split; [reflexivity|]. split; [|split; [congruence|]].
    - intros i j Hi Hj. unfold A. cbn [ent]. rewrite npowi_pow. change (@nzero R RNum) with 0.
      rewrite positions_at by exact Hj. rewrite pos_position by lia. reflexivity.
    - intros m Hm. rewrite Hy. destruct (Nat.eqb_spec m der) as [E|N].
      + cbn [ndiv nofZ RNum]. rewrite <- INR_IZR_INZ. rewrite npowi_pow. reflexivity.
      + unfold y0. rewrite nth_map_seq' by lia. destruct (Nat.eqb_spec m der); [contradiction|reflexivity]. }
  destruct (HL A y (nofQ (QArith_base.Qmake 1 1000000000)) SY) as (c & Ec & Sc & Lc').
  rewrite Ec. exists c. split; [reflexivity|]. pose proof SY as (Nr & Nc & _ & _ & Y). destruct Sc as [Lc Sc].
  assert (M : moments w po der del c).
  { split; [congruence|]. intros m Hm. rewrite <- (solves_rsum w po der del A c y SY) by exact Hm. rewrite Sc by lia. apply Y. exact Hm. }
  split; [exact M|]. intros c' [L' M']. specialize (Lc' c').
  rewrite !sumsq_rsum in Lc'. rewrite L' in Lc'. rewrite Lc, Nc in Lc'. apply Lc'. split; [congruence|].
  intros i Hi. rewrite Nr in Hi. rewrite (solves_rsum w po der del A c' y SY) by lia. rewrite M' by lia. symmetry. apply Y. lia.
Qed.

(** Zero moments are orthogonal to least-norm coefficients. *)
Lemma least_orth w po der del c r : moments w po der del c ->
  (forall c', moments w po der del c' -> rsum w (fun j => nth j c 0 * nth j c 0) <= rsum w (fun j => nth j c' 0 * nth j c' 0)) ->
  (forall m, (m <= po)%nat -> rsum w (fun j => position w j ^ m * r j) = 0) -> rsum w (fun j => nth j c 0 * r j) = 0.
Proof.
  intros [Lc M] HL Hr. apply quad_zero with (rsum w (fun j => r j * r j)); [apply rsum_sq_nonneg|]. intros e.
  set (c' := map (fun j => nth j c 0 - e * r j) (seq 0 w)).
  assert (N : forall j, (j < w)%nat -> nth j c' 0 = nth j c 0 - e * r j) by (intros j Hj; unfold c'; rewrite nth_map_seq' by exact Hj; reflexivity).
  specialize (HL c').
  assert (Mc : moments w po der del c').
  { split; [unfold c'; rewrite map_length, seq_length; reflexivity|]. intros m Hm. rewrite <- (M m Hm).
    rewrite (rsum_ext w _ (fun j => position w j ^ m * nth j c 0 - e * (position w j ^ m * r j))) by (intros j Hj; rewrite N by exact Hj; ring).
    rewrite rsum_minus, rsum_scale, Hr by exact Hm. ring. }
  specialize (HL Mc).
  rewrite (rsum_ext w (fun j => nth j c' 0 * nth j c' 0) (fun j => nth j c 0 * nth j c 0 + (- (2 * e) * (nth j c 0 * r j) + e * e * (r j * r j)))) in HL by (intros j Hj; rewrite N by exact Hj; ring).
  rewrite !rsum_plus, !rsum_scale in HL. lra.
Qed.

Lemma tap_position w del j : (w mod 2 = 1)%nat -> (j < w)%nat -> tap_time w del (w - 1 - j) = del * position w j.
Proof.
  intros Ho Hj. rewrite <- pos_position by lia. unfold tap_time, pos_at. rewrite Ho. cbn [Nat.eqb].
  set (h := (w / 2)%nat). assert (Hwh : w = (2 * h + 1)%nat) by (unfold h; pose proof (Nat.div_mod w 2); lia).
  rewrite minus_INR by lia. replace (INR (w - 1)) with (2 * INR h); [ring|]. rewrite Hwh. replace (2 * h + 1 - 1)%nat with (2 * h)%nat by lia. rewrite mult_INR. cbn [INR]. ring.
Qed.

Theorem C104_savgol_is_local_fit lstsq md pw w po der delta (y : list R) :
  solver_least_norm lstsq w po der delta ->
  (0 < pw)%Z -> (w mod 2 = 1)%nat -> (po + 2 <= w)%nat -> (der <= po)%nat ->
  (Z.of_nat (fact der) <= imax (usize_t pw))%Z -> delta <> 0 ->
  exists out, savgol_filter_dyn lstsq md pw y w po (Some der) (Some delta) = Ok out /\ length out = length y /\
    forall i p, (i < length y)%nat -> best_fit w po delta (clamped y (w / 2) i) p ->
      nth i out 0 = peval (pderivs der p) 0.
Proof.
  intros HL Hp Ho Hw Hd Hf Hdel.
  destruct (coeffs_least lstsq md pw w po der delta HL Hp ltac:(lia) Hd Hf) as (c & Ec & M & Lst).
  pose proof (proj1 M) as Lc. eexists. split; [apply savgol_fir_gen; eassumption|].
  rewrite map_length, seq_length. split; [reflexivity|]. intros i p Hi B.
  rewrite nth_map_seq' by exact Hi. rewrite nsum_Rsum, Rsum_seq, rsum_rev.
  set (s := clamped y (w / 2) i) in *. pose proof (best_normal w po delta s p B) as Nm. destruct B as [Lp _].
  rewrite (rsum_ext w _ (fun j => nth j c 0 * peval p (0 + delta * position w j) + nth j c 0 * (s (w - 1 - j)%nat - peval p (delta * position w j)))).
  2:{ intros j Hj. rewrite Rplus_0_l. cbn [nmul RNum nzero]. rewrite Nat.add_0_l. replace (w - 1 - (w - 1 - j))%nat with j by lia. unfold s. change (@clamped R RNum) with (@clamped R RNum). ring. }
  rewrite rsum_plus, (moments_poly w po der delta c p 0 M Lp Hdel Hd).
  rewrite (least_orth w po der delta c (fun j => s (w - 1 - j)%nat - peval p (delta * position w j)) M Lst); [ring|].
  intros m Hm. specialize (Nm m Hm). rewrite rsum_rev in Nm.
  rewrite (rsum_ext w _ (fun j => delta ^ m * (position w j ^ m * (s (w - 1 - j)%nat - peval p (delta * position w j))))) in Nm.
  2:{ intros j Hj. rewrite tap_position by assumption. rewrite Rpow_mult_distr. ring. }
  rewrite rsum_scale in Nm. apply Rmult_integral in Nm. destruct Nm as [Z|Z]; [|exact Z]. exfalso. revert Z. apply pow_nonzero. exact Hdel.
Qed.
Print Assumptions C104_savgol_is_local_fit.

(** Even derivatives have symmetric coefficients, odd ones antisymmetric. *)
Theorem C104_savgol_symmetric lstsq md pw w po der delta :
  solver_least_norm lstsq w po der delta ->
  (0 < pw)%Z -> (po < w)%nat -> (der <= po)%nat -> (Z.of_nat (fact der) <= imax (usize_t pw))%Z ->
  exists c, savgol_coeffs_dyn lstsq md pw w po (Some der) (Some delta) = Ok c /\ length c = w /\
    forall j, (j < w)%nat -> nth (w - 1 - j) c 0 = (-1) ^ der * nth j c 0.
Proof.
  intros HL Hp Hw Hd Hf.
  destruct (coeffs_least lstsq md pw w po der delta HL Hp Hw Hd Hf) as (c & Ec & M & Lst).
  exists c. split; [exact Ec|]. split; [apply M|].
  assert (S1 : (-1) ^ der * (-1) ^ der = 1) by (rewrite <- Rpow_mult_distr; replace (-1 * -1) with 1 by ring; apply pow1).
  assert (Pm : forall j, (j < w)%nat -> position w (w - 1 - j) = - position w j).
  { intros j Hj. unfold position. rewrite !minus_INR by lia. cbn [INR]. field. }
  set (r := fun j => nth j c 0 - (-1) ^ der * nth (w - 1 - j) c 0).
  assert (Hr : forall m, (m <= po)%nat -> rsum w (fun j => position w j ^ m * r j) = 0).
  { intros m Hm. unfold r. destruct M as [_ M].
    rewrite (rsum_ext w _ (fun j => position w j ^ m * nth j c 0 - (-1) ^ der * (position w j ^ m * nth (w - 1 - j) c 0))) by (intros; ring).
    rewrite rsum_minus, rsum_scale. rewrite (rsum_rev w (fun j => position w j ^ m * nth (w - 1 - j) c 0)).
    rewrite (rsum_ext w (fun i => position w (w - 1 - i) ^ m * nth (w - 1 - (w - 1 - i)) c 0) (fun j => (-1) ^ m * (position w j ^ m * nth j c 0))).
    2:{ intros j Hj. rewrite Pm by exact Hj. replace (w - 1 - (w - 1 - j))%nat with j by lia. replace (- position w j) with (-1 * position w j) by ring. rewrite Rpow_mult_distr. ring. }
    rewrite rsum_scale, M by exact Hm. destruct (Nat.eqb_spec m der) as [->|]; [|ring].
    replace (INR (fact der) / delta ^ der - (-1) ^ der * ((-1) ^ der * (INR (fact der) / delta ^ der))) with ((INR (fact der) / delta ^ der) * (1 - (-1) ^ der * (-1) ^ der)) by ring. rewrite S1. ring. }
  pose proof (least_orth w po der delta c r M Lst Hr) as O.
  (* the reflected coefficients have the same norm, so the difference vanishes *)
  assert (O2 : rsum w (fun j => ((-1) ^ der * nth (w - 1 - j) c 0) * r j) = - rsum w (fun j => nth j c 0 * r j)).
  { rewrite (rsum_rev w (fun j => ((-1) ^ der * nth (w - 1 - j) c 0) * r j)).
    replace (- rsum w (fun j => nth j c 0 * r j)) with (-1 * rsum w (fun j => nth j c 0 * r j)) by ring. rewrite <- rsum_scale. apply rsum_ext. intros j Hj. unfold r. replace (w - 1 - (w - 1 - j))%nat with j by lia.
    replace (((-1) ^ der * nth j c 0) * (nth (w - 1 - j) c 0 - (-1) ^ der * nth j c 0)) with (nth j c 0 * ((-1) ^ der * nth (w - 1 - j) c 0 - ((-1) ^ der * (-1) ^ der) * nth j c 0)) by ring. rewrite S1. ring. }
  assert (Z : rsum w (fun j => r j * r j) = 0).
  { rewrite (rsum_ext w _ (fun j => nth j c 0 * r j - ((-1) ^ der * nth (w - 1 - j) c 0) * r j)) by (intros; unfold r; ring).
    rewrite rsum_minus, O2, O. ring. }
  intros j Hj. pose proof (rsum_sq_zero w r Z j Hj) as Rj. unfold r in Rj.
  assert (E : nth j c 0 = (-1) ^ der * nth (w - 1 - j) c 0) by lra. rewrite E, <- Rmult_assoc, S1. ring.
Qed.
Print Assumptions C104_savgol_symmetric.

(** Smoothing: the squares of the coefficients sum to the centre coefficient, which is at
    most one, so that noise is not amplified. *)
Theorem C104_savgol_noise_gain lstsq md pw w po delta :
  solver_least_norm lstsq w po 0 delta -> (0 < pw)%Z -> (w mod 2 = 1)%nat -> (po < w)%nat ->
  exists c, savgol_coeffs_dyn lstsq md pw w po (Some 0%nat) (Some delta) = Ok c /\ length c = w /\
    Rsum (map (fun v => v * v) c) = nth (w / 2) c 0 /\ 0 < nth (w / 2) c 0 <= 1.
Proof.
  intros HL Hp Ho Hw.
  assert (Hf : (Z.of_nat (fact 0) <= imax (usize_t pw))%Z).
  { cbn [fact]. unfold imax, usize_t. cbn. assert (1 <= 2 ^ pw - 1)%Z by (pose proof (Z.pow_le_mono_r 2 1 pw ltac:(lia) ltac:(lia)); lia). lia. }
  destruct (coeffs_least lstsq md pw w po 0 delta HL Hp Hw ltac:(lia) Hf) as (c & Ec & M & Lst).
  exists c. split; [exact Ec|]. pose proof (proj1 M) as Lc. split; [exact Lc|]. rewrite sumsq_rsum, Lc.
  set (h := (w / 2)%nat). assert (Hwh : w = (2 * h + 1)%nat) by (unfold h; pose proof (Nat.div_mod w 2); lia).
  assert (P0 : position w h = 0) by (rewrite Hwh; unfold position; rewrite plus_INR, mult_INR; cbn [INR]; field).
  set (d := fun j => if (j =? h)%nat then 1 else 0).
  assert (Sd : forall f, rsum w (fun j => f j * d j) = f h).
  { intros f. rewrite (rsum_single w h); [unfold d; rewrite Nat.eqb_refl; ring|lia|]. intros j _ Hj. unfold d. destruct (Nat.eqb_spec j h); [contradiction|ring]. }
  assert (O : rsum w (fun j => nth j c 0 * (nth j c 0 - d j)) = 0).
  { apply (least_orth w po 0 delta c (fun j => nth j c 0 - d j) M Lst). intros m Hm.
    rewrite (rsum_ext w _ (fun j => position w j ^ m * nth j c 0 - position w j ^ m * d j)) by (intros; ring). rewrite rsum_minus, Sd, (proj2 M m Hm), P0.
    destruct m; cbn [Nat.eqb pow fact INR]; [field|ring]. }
  rewrite (rsum_ext w _ (fun j => nth j c 0 * nth j c 0 - nth j c 0 * d j)) in O by (intros; ring). rewrite rsum_minus, Sd in O.
  set (S := rsum w (fun j => nth j c 0 * nth j c 0)) in *. assert (E : S = nth h c 0) by lra. split; [exact E|].
  assert (Le : nth h c 0 * nth h c 0 <= S).
  { unfold S. assert (D : rsum w (fun j => nth j c 0 * nth j c 0) = rsum w (fun j => (nth j c 0 * d j) * (nth j c 0 * d j)) + rsum w (fun j => (nth j c 0 * (1 - d j)) * (nth j c 0 * (1 - d j)))).
    { rewrite <- rsum_plus. apply rsum_ext. intros j _. unfold d. destruct (j =? h)%nat; ring. }
    pose proof (rsum_sq_nonneg w (fun j => nth j c 0 * (1 - d j))).
    rewrite (rsum_ext w (fun j => (nth j c 0 * d j) * (nth j c 0 * d j)) (fun j => (nth j c 0 * nth j c 0) * d j)) in D by (intros j _; unfold d; destruct (j =? h)%nat; ring).
    rewrite Sd in D. lra. }
  assert (Pos : 0 < S).
  { assert (0 <= S) by (apply rsum_sq_nonneg). destruct (Req_dec S 0) as [Z|]; [|lra]. exfalso.
    pose proof (proj2 M 0%nat ltac:(lia)) as M0. cbn [Nat.eqb pow fact INR] in M0. rewrite (rsum_zero w) in M0; [lra|].
    intros j Hj. rewrite (rsum_sq_zero w (fun j => nth j c 0) Z j Hj). ring. }
  nra.
Qed.
Print Assumptions C104_savgol_noise_gain.

(** The moving average of three samples: the solver returns the least-norm solution. *)
Definition average3 (A : mat R) (y : list R) (eps : R) : option (list R) := Some [1 / 3; 1 / 3; 1 / 3].
Example C104_hyp_met : solver_least_norm average3 3 1 0 1 /\ (3 mod 2 = 1)%nat /\ (1 + 2 <= 3)%nat /\ (Z.of_nat (fact 0) <= imax (usize_t 64))%Z.
Proof.
  split; [|repeat split; try lia; vm_compute; discriminate].
  intros A y eps H. exists [1 / 3; 1 / 3; 1 / 3]. split; [reflexivity|].
  pose proof H as (Nr & Nc & E & Ly & Y). split.
  - split; [symmetry; exact Nc|]. intros i Hi. rewrite Nr in Hi.
    rewrite (solves_rsum 3 1 0 1 A _ y H) by lia. rewrite Y by lia. unfold position.
    destruct i as [|[|i]]; [| |lia]; cbn; lra.
  - intros x' [Lx Sx]. rewrite Nc in Lx. destruct x' as [|a [|b [|c [|]]]]; try discriminate Lx.
    specialize (Sx 0%nat ltac:(lia)). rewrite (solves_rsum 3 1 0 1 A _ y H) in Sx by lia. rewrite Y in Sx by lia. cbn in Sx. cbn [map Rsum fold_right]. unfold Rsum. cbn.
    assert (c = 1 - a - b) by lra. subst c. pose proof (Rle_0_sqr (a - 1 / 3)). pose proof (Rle_0_sqr (b - 1 / 3)). pose proof (Rle_0_sqr (1 - a - b - 1 / 3)). unfold Rsqr in *. lra.
Qed.
