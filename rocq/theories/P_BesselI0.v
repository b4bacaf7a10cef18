(** The function e^{-x} I0(x): power series, differential equation, link to I0. *)
From Coq Require Import List Arith ZArith Reals Lra Lia.
From Coquelicot Require Import Coquelicot.
From Verif Require Import S_Bessel P_Bessel P_ZPoly.
Import ListNotations.
Local Open Scope R_scope.

Definition rr (n : nat) : R := - (2 * INR n + 1) / (INR n + 1) ^ 2.
Fixpoint ac (n : nat) : R := match n with O => 1 | S m => rr m * ac m end.
Definition ff : R -> R := PSeries ac.
Definition ff1 : R -> R := PSeries (PS_derive ac).
Definition ff2 : R -> R := PSeries (PS_derive (PS_derive ac)).

Lemma rr_neg n : rr n < 0.
Proof.
  unfold rr. pose proof (pos_INR n). unfold Rdiv. rewrite Ropp_mult_distr_l_reverse.
  assert (0 < (2 * INR n + 1) * / (INR n + 1) ^ 2); [|lra].
  apply Rmult_lt_0_compat; [lra|]. apply Rinv_0_lt_compat, pow_lt. lra.
Qed.
Lemma rr_abs n : Rabs (rr n) <= 2 / (INR n + 1).
Proof.
  rewrite Rabs_left by apply rr_neg. unfold rr. pose proof (pos_INR n).
  apply (Rmult_le_reg_r ((INR n + 1) ^ 2)); [apply pow_lt; lra|].
  replace (- (- (2 * INR n + 1) / (INR n + 1) ^ 2) * (INR n + 1) ^ 2) with (2 * INR n + 1) by (field; lra).
  replace (2 / (INR n + 1) * (INR n + 1) ^ 2) with (2 * INR n + 2) by (field; lra). lra.
Qed.
Lemma ac_neq n : ac n <> 0.
Proof.
  induction n as [|n IH]; cbn [ac]; [lra|]. pose proof (rr_neg n).
  apply Rmult_integral_contrapositive_currified; [lra|exact IH].
Qed.
Lemma lim_inv_succ c : is_lim_seq (fun n => c / (INR n + 1)) 0.
Proof.
  apply (is_lim_seq_ext (fun n => c * / INR (S n))); [intros n; rewrite S_INR; reflexivity|].
  replace (Finite 0) with (Rbar_mult c 0) by (cbn; f_equal; ring).
  apply is_lim_seq_scal_l. apply (is_lim_seq_incr_1 (fun n => / INR n)).
  replace (Finite 0) with (Rbar_inv p_infty) by reflexivity.
  apply is_lim_seq_inv; [apply is_lim_seq_INR|discriminate].
Qed.
Lemma ac_radius : CV_radius ac = p_infty.
Proof.
  apply CV_radius_infinite_DAlembert; [exact ac_neq|].
  apply (is_lim_seq_le_le (fun _ => 0) _ (fun n => 2 / (INR n + 1))).
  - intros n. cbn [ac]. split; [apply Rabs_pos|].
    replace (rr n * ac n / ac n) with (rr n) by (field; apply ac_neq). apply rr_abs.
  - apply is_lim_seq_const.
  - apply lim_inv_succ.
Qed.
Lemma ac_in x : Rbar_lt (Rabs x) (CV_radius ac).
Proof. rewrite ac_radius. exact I. Qed.
Lemma ac1_in x : Rbar_lt (Rabs x) (CV_radius (PS_derive ac)).
Proof. rewrite CV_radius_derive. apply ac_in. Qed.
Lemma ac2_in x : Rbar_lt (Rabs x) (CV_radius (PS_derive (PS_derive ac))).
Proof. rewrite CV_radius_derive. apply ac1_in. Qed.
Lemma in_is a x : Rbar_lt (Rabs x) (CV_radius a) -> is_pseries a x (PSeries a x).
Proof. intros Q. apply PSeries_correct, CV_radius_inside, Q. Qed.

Lemma ff_d x : is_derive ff x (ff1 x).
Proof. apply is_derive_PSeries, ac_in. Qed.
Lemma ff1_d x : is_derive ff1 x (ff2 x).
Proof. apply is_derive_PSeries, ac1_in. Qed.

(** x f'' + (1 + 2x) f' + f = 0. *)
Lemma ff_ode x : x * ff2 x + (1 + 2 * x) * ff1 x + ff x = 0.
Proof.
  pose proof (is_pseries_incr_1 _ _ _ (in_is _ x (ac2_in x))) as A2.
  pose proof (in_is _ x (ac1_in x)) as A1.
  pose proof (is_pseries_scal 2 _ _ _ (Rmult_comm _ _) (is_pseries_incr_1 _ _ _ A1)) as A1'.
  pose proof (in_is _ x (ac_in x)) as A0.
  pose proof (is_pseries_plus _ _ _ _ _ A2 (is_pseries_plus _ _ _ _ _ A1 (is_pseries_plus _ _ _ _ _ A1' A0))) as S.
  apply (is_pseries_ext _ (fun _ => 0)) in S.
  - apply is_pseries_unique in S. rewrite PSeries_const_0 in S.
    unfold plus, scal in S. cbn in S. unfold mult in S. cbn in S.
    unfold ff, ff1, ff2. lra.
  - intros n. destruct n as [|n].
    + match goal with |- ?a = ?b => change (0 + (INR 1 * ac 1 + (2 * 0 + 1)) = 0) end.
      cbn [ac INR]. unfold rr. cbn [INR]. field.
    + match goal with |- ?a = ?b => change
        (INR (Datatypes.S n) * (INR (Datatypes.S (Datatypes.S n)) * (rr (Datatypes.S n) * (rr n * ac n))) +
         (INR (Datatypes.S (Datatypes.S n)) * (rr (Datatypes.S n) * (rr n * ac n)) +
          (2 * (INR (Datatypes.S n) * (rr n * ac n)) + rr n * ac n)) = 0) end.
      unfold rr. rewrite !S_INR. pose proof (pos_INR n). field. lra.
Qed.

(** e^x f(x) = I0(x). *)
Definition ec (n : nat) : R := / INR (fact n).
Lemma ec_neq n : ec n <> 0.
Proof. apply Rinv_neq_0_compat, INR_fact_neq_0. Qed.
Lemma ec_S n : INR (S n) * ec (S n) = ec n.
Proof.
  unfold ec. rewrite fact_simpl, mult_INR. field. split; [apply INR_fact_neq_0|apply not_0_INR; discriminate].
Qed.
Lemma ec_radius : CV_radius ec = p_infty.
Proof.
  apply CV_radius_infinite_DAlembert; [exact ec_neq|].
  apply (is_lim_seq_ext (fun n => 1 / (INR n + 1))); [|apply lim_inv_succ].
  intros n. pose proof (pos_INR n). rewrite <- (ec_S n). rewrite S_INR.
  replace (ec (S n) / ((INR n + 1) * ec (S n))) with (1 / (INR n + 1)) by (field; split; [apply ec_neq|lra]).
  rewrite Rabs_pos_eq; [reflexivity|]. apply Rlt_le, Rdiv_lt_0_compat; lra.
Qed.
Definition conv (a b : nat -> R) (n : nat) : R := sum_f_R0 (fun k => a k * b (n - k)%nat) n.
Lemma conv_theta a n :
  INR (S n) * conv a ec (S n) = conv (fun j => INR j * a j) ec (S n) + conv a ec n.
Proof.
  unfold conv. rewrite scal_sum, !tech5.
  replace (S n - S n)%nat with O by lia.
  replace (sum_f_R0 (fun i => a i * ec (S n - i) * INR (S n)) n) with
    (sum_f_R0 (fun k => INR k * a k * ec (S n - k)%nat) n + sum_f_R0 (fun k => a k * ec (n - k)%nat) n).
  - ring.
  - rewrite <- sum_plus. apply sum_eq. intros i Hi.
    rewrite <- (ec_S (n - i)). replace (S (n - i)) with (S n - i)%nat by lia.
    rewrite (minus_INR (S n) i) by lia. ring.
Qed.
Lemma conv_shift a b n : (forall j, b (S j) = a j) -> b O = 0 -> conv b ec (S n) = conv a ec n.
Proof.
  intros S0 Z0. unfold conv. rewrite (decomp_sum _ (S n)) by lia. rewrite Z0, Rmult_0_l, Rplus_0_l.
  cbn [pred]. apply sum_eq. intros i Hi. rewrite S0. f_equal.
Qed.
Lemma conv_lin a b p q n : conv (fun j => p * a j + q * b j) ec n = p * conv a ec n + q * conv b ec n.
Proof.
  unfold conv. rewrite !scal_sum, <- sum_plus. apply sum_eq. intros i Hi. ring.
Qed.
Lemma conv_ext a b n : (forall j, a j = b j) -> conv a ec n = conv b ec n.
Proof. intros E. apply sum_eq. intros i Hi. rewrite E. reflexivity. Qed.
Lemma conv_rec n : INR (S (S n)) ^ 2 * conv ac ec (S (S n)) = conv ac ec n.
Proof.
  pose proof (conv_theta ac (S n)) as T1.
  pose proof (conv_theta (fun j => INR j * ac j) (S n)) as T2.
  pose proof (conv_theta ac n) as T3.
  assert (T4 : conv (fun j => INR j * (INR j * ac j)) ec (S (S n)) =
               -2 * conv (fun j => INR j * ac j) ec (S n) + -1 * conv ac ec (S n)).
  { rewrite <- conv_lin. apply conv_shift.
    - intros j. cbn [ac]. unfold rr. rewrite S_INR. pose proof (pos_INR j). field. lra.
    - cbn. ring. }
  cbv beta in T2. rewrite T4 in T2.
  replace (INR (S (S n))) with (INR (S n) + 1) in * by (rewrite (S_INR (S n)); ring).
  set (c2 := conv ac ec (S (S n))) in *. set (c1 := conv ac ec (S n)) in *. set (c0 := conv ac ec n) in *.
  set (d2 := conv (fun j => INR j * ac j) ec (S (S n))) in *.
  set (d1 := conv (fun j => INR j * ac j) ec (S n)) in *. set (N := INR (S n)) in *.
  replace ((N + 1) ^ 2 * c2) with ((N + 1) * ((N + 1) * c2)) by ring. rewrite T1.
  replace ((N + 1) * (d2 + c1)) with ((N + 1) * d2 + (N + 1) * c1) by ring. rewrite T2. lra.
Qed.
Lemma conv_values k :
  conv ac ec (2 * k) = / (4 ^ k * INR (fact k) ^ 2) /\ conv ac ec (2 * k + 1) = 0.
Proof.
  induction k as [|k [IH1 IH2]].
  - split; cbn; unfold ec, rr; cbn; field.
  - replace (2 * S k)%nat with (S (S (2 * k))) by lia. replace (S (S (2 * k)) + 1)%nat with (S (S (2 * k + 1))) by lia.
    pose proof (conv_rec (2 * k)) as R1. pose proof (conv_rec (2 * k + 1)) as R2.
    rewrite IH1 in R1. rewrite IH2 in R2. split.
    + assert (P : INR (S (S (2 * k))) = 2 * INR (S k)).
      { replace (S (S (2 * k))) with (2 * S k)%nat by lia. rewrite mult_INR. reflexivity. }
      rewrite P in R1. assert (Q : 0 < INR (S k)) by (apply lt_0_INR; lia).
      apply (Rmult_eq_reg_l ((2 * INR (S k)) ^ 2)); [|apply pow_nonzero; lra].
      rewrite R1. rewrite fact_simpl, mult_INR. cbn [pow]. field.
      repeat split; try lra; try apply INR_fact_neq_0. apply pow_nonzero. lra.
    + assert (Q : 0 < INR (S (S (2 * k + 1)))) by (apply lt_0_INR; lia).
      apply (Rmult_eq_reg_l (INR (S (S (2 * k + 1))) ^ 2)); [lra|apply pow_nonzero; lra].
Qed.
Lemma I0_term x k : ((x / 2) ^ k / INR (fact k)) ^ 2 = conv ac ec (2 * k) * (x ^ 2) ^ k.
Proof.
  destruct (conv_values k) as [-> _]. unfold Rdiv. rewrite Rpow_mult_distr.
  rewrite <- (pow_mult x 2 k), !Rpow_mult_distr, <- !pow_mult.
  replace (k * 2)%nat with (2 * k)%nat by lia. rewrite (pow_mult (/ 2) 2 k).
  replace ((/ 2) ^ 2) with (/ 4) by field. rewrite pow_inv. field.
  split; [apply INR_fact_neq_0|apply pow_nonzero; lra].
Qed.
Lemma I0_value x l : infinite_sum (fun k => ((x / 2) ^ k / INR (fact k)) ^ 2) l -> l = ff x * exp x.
Proof.
  intros S. apply is_series_Reals in S.
  assert (E : is_pseries (fun n => conv ac ec (2 * n)) (x ^ 2) l).
  { apply (is_series_ext (fun k => ((x / 2) ^ k / INR (fact k)) ^ 2)); [|exact S].
    intros n. rewrite I0_term. rewrite <- (pow_n_pow (x ^ 2) n). apply Rmult_comm. }
  assert (O : is_pseries (fun n => conv ac ec (2 * n + 1)) (x ^ 2) 0).
  { apply (is_pseries_ext (fun _ => 0)); [intros n; symmetry; apply conv_values|].
    pose proof (in_is (fun _ => 0) (x ^ 2) ltac:(rewrite CV_radius_const_0; exact I)) as Q.
    rewrite PSeries_const_0 in Q. exact Q. }
  pose proof (is_pseries_odd_even _ _ _ _ E O) as T.
  pose proof (is_pseries_mult ac ec x _ _ (in_is _ x (ac_in x)) (is_exp_Reals x) (ac_in x)
                ltac:(rewrite ec_radius; exact I)) as M.
  apply is_pseries_unique in T, M. fold ff in M.
  change (PS_mult ac ec) with (conv ac ec) in M. rewrite <- M, T. ring.
Qed.
Lemma I0_exists x : exists l, infinite_sum (fun k => ((x / 2) ^ k / INR (fact k)) ^ 2) l.
Proof.
  set (a := fun k => / (4 ^ k * INR (fact k) ^ 2)).
  assert (N : forall k, a k <> 0).
  { intros k. apply Rinv_neq_0_compat, Rmult_integral_contrapositive_currified; apply pow_nonzero; [lra|apply INR_fact_neq_0]. }
  assert (R : CV_radius a = p_infty).
  { apply CV_radius_infinite_DAlembert; [exact N|].
    apply (is_lim_seq_le_le (fun _ => 0) _ (fun n => 1 / (INR n + 1))); [|apply is_lim_seq_const|apply lim_inv_succ].
    intros n. split; [apply Rabs_pos|]. pose proof (pos_INR n).
    replace (a (S n) / a n) with (/ (4 * (INR n + 1) ^ 2)).
    - rewrite Rabs_pos_eq by (left; apply Rinv_0_lt_compat; nra). unfold Rdiv. rewrite Rmult_1_l.
      apply Rinv_le_contravar; nra.
    - unfold a. rewrite fact_simpl, mult_INR, S_INR. cbn [pow]. field.
      repeat split; try lra; try apply INR_fact_neq_0. apply pow_nonzero. lra. }
  exists (PSeries a (x ^ 2)). apply is_series_Reals.
  apply (is_series_ext (fun k => scal (pow_n (x ^ 2) k) (a k))); [|apply in_is; rewrite R; exact I].
  intros n. rewrite I0_term. destruct (conv_values n) as [-> _]. rewrite <- (pow_n_pow (x ^ 2) n). apply Rmult_comm.
Qed.
