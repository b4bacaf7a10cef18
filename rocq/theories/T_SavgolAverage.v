(** C148: the lowest orders of Savitzky-Golay filtering, in closed form. *)
From Coq Require Import Reals List Arith Lia Lra Psatz ZArith.
From Verif Require Import Base Num MachInt M_Special M_Linalg M_Stats M_Savgol S_Stats S_Special S_Savgol S_SavgolFit RSum P_Stats P_Savgol T_SavgolFit T_StatsRel.
Import ListNotations.
Local Open Scope R_scope.

Lemma tap_flip w delta k : (w mod 2 = 1)%nat -> (k < w)%nat -> tap_time w delta (w - 1 - k) = - tap_time w delta k.
Proof.
  intros O H. unfold tap_time. pose proof (Nat.div_mod_eq w 2) as D. rewrite O in D. set (h := (w / 2)%nat) in *.
  rewrite D. replace (2 * h + 1 - 1 - k)%nat with (2 * h - k)%nat by lia. rewrite minus_INR by lia. rewrite mult_INR. cbn [INR]. ring.
Qed.
Lemma odd_zero w (f : nat -> R) : (forall k, (k < w)%nat -> f (w - 1 - k)%nat = - f k) -> rsum w f = 0.
Proof.
  intros H. assert (E : rsum w f = - rsum w f); [|lra]. rewrite rsum_rev at 1. rewrite (rsum_ext w _ (fun k => -1 * f k)) by (intros k Hk; rewrite H by exact Hk; ring). rewrite rsum_scale. ring.
Qed.
Lemma taps_sum w delta : (w mod 2 = 1)%nat -> rsum w (tap_time w delta) = 0.
Proof. intros O. apply odd_zero. intros k Hk. apply tap_flip; assumption. Qed.
Lemma taps_cubed w delta : (w mod 2 = 1)%nat -> rsum w (fun k => tap_time w delta k ^ 3) = 0.
Proof. intros O. apply odd_zero. intros k Hk. rewrite tap_flip by assumption. ring. Qed.
Lemma taps_squared w delta : (w mod 2 = 1)%nat -> (1 < w)%nat -> delta <> 0 -> 0 < rsum w (fun k => tap_time w delta k ^ 2).
Proof.
  intros O W D. destruct (Rle_lt_or_eq_dec 0 (rsum w (fun k => tap_time w delta k * tap_time w delta k)) (rsum_sq_nonneg w (tap_time w delta))) as [H|H].
  - rewrite (rsum_ext w _ (fun k => tap_time w delta k * tap_time w delta k)) by (intros; ring). exact H.
  - exfalso. symmetry in H. pose proof (rsum_sq_zero w _ H 0%nat ltac:(lia)) as Z. unfold tap_time in Z. cbn [INR] in Z.
    assert (0 < INR (w / 2)) by (apply lt_0_INR, Nat.div_str_pos; lia). nra.
Qed.

(** The samples in the window around sample [i]; beyond the ends the edge samples are repeated. *)
Definition window (y : list R) (w i : nat) : list R := map (clamped y (w / 2) i) (seq 0 w).
Lemma window_sum y w i : Rsum (window y w i) = rsum w (clamped y (w / 2) i).
Proof. unfold window. rewrite Rsum_nth, map_length, seq_length. apply rsum_ext. intros k Hk. apply nth_map_seq'. exact Hk. Qed.

(** Orders 0 and 1 smooth by the mean of the window. *)
Theorem C148_moving_average lstsq md pw w po delta (y : list R) : solver_least_norm lstsq w po 0 delta ->
  (0 < pw)%Z -> (w mod 2 = 1)%nat -> (po + 2 <= w)%nat -> (po <= 1)%nat -> (1 <= imax (usize_t pw))%Z -> delta <> 0 ->
  exists out, savgol_filter_dyn lstsq md pw y w po (Some 0%nat) (Some delta) = Ok out /\ length out = length y /\
    forall i, (i < length y)%nat -> nth i out 0 = fst (mean (window y w i)).
Proof.
  intros Hs Hp O W Hpo Hm D. destruct (C104_savgol_is_local_fit lstsq md pw w po 0 delta y Hs Hp O W ltac:(lia) ltac:(cbn; exact Hm) D) as [out [E [L F]]].
  exists out. split; [exact E|]. split; [exact L|]. intros i Hi. destruct (C104_fit_exists w po delta (clamped y (w / 2) i)) as [p Bp].
  rewrite (F i p Hi Bp). cbn [pderivs]. pose proof (best_normal _ _ _ _ _ Bp 0%nat ltac:(lia)) as N. destruct Bp as [Lp _].
  assert (WN : window y w i <> []) by (unfold window; destruct w; [cbn in O; lia|discriminate]). rewrite mean_eq by exact WN. cbn [fst]. unfold Rmean. rewrite window_sum. unfold window. rewrite map_length, seq_length.
  assert (WP : 0 < INR w) by (apply lt_0_INR; lia).
  rewrite (rsum_ext w _ (fun k => clamped y (w / 2) i k - (nth 0 p 0 + nth 1 p 0 * tap_time w delta k))) in N.
  2:{ intros k _. rewrite (peval_sum p _ 2) by lia. cbn [rsum pow]. ring. }
  rewrite rsum_minus, rsum_plus, rsum_scale, (taps_sum w delta O) in N.
  assert (C : rsum w (fun _ => nth 0 p 0) = INR w * nth 0 p 0) by (clear; induction w as [|w IH]; [cbn; ring|]; cbn [rsum]; rewrite IH, S_INR; ring). rewrite C in N.
  rewrite (peval_sum p _ 2) by lia. cbn [rsum pow]. apply Rmult_eq_reg_r with (INR w); [|lra]. unfold Rdiv. rewrite Rmult_assoc, Rinv_l by lra. lra.
Qed.
Print Assumptions C148_moving_average.

(** So the output stays between the smallest and the largest sample. *)
Theorem C148_no_overshoot lstsq md pw w po delta (y : list R) lo hi : solver_least_norm lstsq w po 0 delta ->
  (0 < pw)%Z -> (w mod 2 = 1)%nat -> (po + 2 <= w)%nat -> (po <= 1)%nat -> (1 <= imax (usize_t pw))%Z -> delta <> 0 -> (forall v, In v y -> lo <= v <= hi) ->
  exists out, savgol_filter_dyn lstsq md pw y w po (Some 0%nat) (Some delta) = Ok out /\ length out = length y /\ forall v, In v out -> lo <= v <= hi.
Proof.
  intros Hs Hp O W Hpo Hm D B. destruct (C148_moving_average lstsq md pw w po delta y Hs Hp O W Hpo Hm D) as [out [E [L F]]]. exists out. split; [exact E|]. split; [exact L|].
  intros v Hv. apply (In_nth _ _ 0) in Hv. destruct Hv as [i [Hi <-]]. rewrite L in Hi. rewrite (F i Hi).
  assert (WN : window y w i <> []) by (unfold window; destruct w; [cbn in O; lia|discriminate]). rewrite mean_eq by exact WN. cbn [fst]. unfold Rmean. rewrite window_sum. unfold window. rewrite map_length, seq_length.
  assert (WP : 0 < INR w) by (apply lt_0_INR; lia).
  assert (T : forall k, lo <= clamped y (w / 2) i k <= hi) by (intros k; unfold clamped; apply B, nth_In; lia).
  assert (S : INR w * lo <= rsum w (clamped y (w / 2) i) <= INR w * hi).
  { clear -T. set (s := clamped y (w / 2) i) in *. clearbody s. induction w as [|w IH]; [cbn; lra|]. rewrite S_INR. cbn [rsum]. specialize (T w). lra. }
  split; apply Rmult_le_reg_r with (INR w); try exact WP; unfold Rdiv; rewrite Rmult_assoc, Rinv_l by lra; lra.
Qed.
Print Assumptions C148_no_overshoot.

(** With orders 1 and 2 the first derivative is the slope of the regression line of the window. *)
Theorem C148_slope lstsq md pw w po delta (y : list R) : solver_least_norm lstsq w po 1 delta ->
  (0 < pw)%Z -> (w mod 2 = 1)%nat -> (po + 2 <= w)%nat -> (1 <= po <= 2)%nat -> (1 <= imax (usize_t pw))%Z -> delta <> 0 ->
  exists out, savgol_filter_dyn lstsq md pw y w po (Some 1%nat) (Some delta) = Ok out /\ length out = length y /\
    forall i, (i < length y)%nat ->
      nth i out 0 = rsum w (fun k => tap_time w delta k * clamped y (w / 2) i k) / rsum w (fun k => tap_time w delta k ^ 2).
Proof.
  intros Hs Hp O W Hpo Hm D. destruct (C104_savgol_is_local_fit lstsq md pw w po 1 delta y Hs Hp O W ltac:(lia) ltac:(cbn; exact Hm) D) as [out [E [L F]]].
  exists out. split; [exact E|]. split; [exact L|]. intros i Hi. destruct (C104_fit_exists w po delta (clamped y (w / 2) i)) as [p Bp].
  rewrite (F i p Hi Bp). pose proof (best_normal _ _ _ _ _ Bp 1%nat ltac:(lia)) as N. destruct Bp as [Lp _].
  pose proof (taps_squared w delta O ltac:(lia) D) as P.
  rewrite (rsum_ext w _ (fun k => tap_time w delta k * clamped y (w / 2) i k - (nth 0 p 0 * tap_time w delta k + (nth 1 p 0 * tap_time w delta k ^ 2 + nth 2 p 0 * tap_time w delta k ^ 3)))) in N.
  2:{ intros k _. rewrite (peval_sum p _ 3) by lia. cbn [rsum pow]. ring. }
  rewrite rsum_minus, !rsum_plus, !rsum_scale, (taps_sum w delta O), (taps_cubed w delta O) in N.
  assert (V : peval (pderivs 1 p) 0 = nth 1 p 0) by (cbn [pderivs]; destruct p as [|a [|b p']]; cbn; ring). rewrite V.
  apply Rmult_eq_reg_r with (rsum w (fun k => tap_time w delta k ^ 2)); [|lra]. unfold Rdiv. rewrite Rmult_assoc, Rinv_l by lra. lra.
Qed.
Print Assumptions C148_slope.
(** The solver of C104's example on four samples: means of three, edges repeated. *)
Example C148_ex : exists out, savgol_filter_dyn average3 Checked 64 [0; 3; 6; 0] 3 1 (Some 0%nat) (Some 1) = Ok out /\ length out = 4%nat /\ nth 1 out 0 = 3 /\ nth 0 out 0 = 1.
Proof.
  destruct C104_hyp_met as [H _].
  destruct (C148_moving_average average3 Checked 64 3 1 1 [0; 3; 6; 0] H ltac:(lia) eq_refl ltac:(lia) ltac:(lia) ltac:(vm_compute; discriminate) ltac:(lra)) as [out [E [L F]]].
  exists out. split; [exact E|]. split; [exact L|]. rewrite !F by (cbn; lia). unfold window. rewrite !mean_eq by discriminate. cbn [fst]. unfold Rmean, clamped. cbn. split; lra.
Qed.
(** The central difference: the least-norm solution for a window of three and order one. *)
Definition central3 (A : mat R) (y : list R) (eps : R) : option (list R) := Some [1 / 2; 0; - (1 / 2)].
Example C148_slope_ex : solver_least_norm central3 3 1 1 1 /\
  exists out, savgol_filter_dyn central3 Checked 64 [0; 3; 8; 0] 3 1 (Some 1%nat) (Some 1) = Ok out /\ length out = 4%nat /\ nth 1 out 0 = 4 /\ nth 0 out 0 = 3 / 2.
Proof.
  assert (H : solver_least_norm central3 3 1 1 1).
  { intros A y eps H. exists [1 / 2; 0; - (1 / 2)]. split; [reflexivity|]. pose proof H as (Nr & Nc & E & Ly & Y). split.
    - split; [symmetry; exact Nc|]. intros i Hi. rewrite Nr in Hi. rewrite (solves_rsum 3 1 1 1 A _ y H) by lia. rewrite Y by lia. unfold position.
      destruct i as [|[|i]]; [| |lia]; cbn; lra.
    - intros x' [Lx Sx]. rewrite Nc in Lx. destruct x' as [|a [|b [|c [|]]]]; try discriminate Lx.
      pose proof (Sx 0%nat ltac:(lia)) as S0. pose proof (Sx 1%nat ltac:(lia)) as S1. rewrite (solves_rsum 3 1 1 1 A _ y H) in S0, S1 by lia. rewrite Y in S0, S1 by lia. unfold position in S0, S1. cbn in S0, S1. unfold Rsum. cbn.
      assert (c = a - 1) by lra. assert (b = 1 - 2 * a) by lra. subst b c. pose proof (Rle_0_sqr (a - 1 / 2)). unfold Rsqr in *. lra. }
  split; [exact H|].
  destruct (C148_slope central3 Checked 64 3 1 1 [0; 3; 8; 0] H ltac:(lia) eq_refl ltac:(lia) ltac:(lia) ltac:(vm_compute; discriminate) ltac:(lra)) as [out [E [L F]]].
  exists out. split; [exact E|]. split; [exact L|]. rewrite !F by (cbn; lia). unfold tap_time, clamped. cbn. split; field.
Qed.
