(** Property theorem for special/xsf/i0.rs against the Bessel function itself (C72). *)
From Coq Require Import List Arith ZArith QArith Qreals Reals Lra Lia.
From Coquelicot Require Import Coquelicot.
From Verif Require Import Base Num Trans M_Bessel S_Bessel P_Bessel P_ZPoly P_BesselI0 P_BesselNum P_BesselBig T_Bessel.
Import ListNotations.
Local Open Scope R_scope.

Lemma I0_pos x l : is_I0 x l -> 1 <= l.
Proof.
  intros S. apply is_series_Reals in S. apply is_series_unique in S as E.
  rewrite <- E. rewrite Series_incr_1 by (exists l; exact S).
  assert (0 <= Series (fun k => ((x / 2) ^ Datatypes.S k / INR (fact (Datatypes.S k))) ^ 2)).
  { assert (Z : is_series (fun _ : nat => 0) 0).
    { apply is_series_Reals. intros e He. exists O. intros n _. unfold R_dist. rewrite sum_eq_R0 by reflexivity.
      rewrite Rminus_0_r, Rabs_R0. exact He. }
    apply Rle_trans with (Series (fun _ : nat => 0)); [right; symmetry; apply is_series_unique, Z|].
    apply Series_le; [|apply (ex_series_incr_1 (fun k => ((x / 2) ^ k / INR (fact k)) ^ 2)); exists l; exact S].
    intros n. split; [lra|apply pow2_ge_0]. }
  replace (((x / 2) ^ 0 / INR (fact 0)) ^ 2) with 1 by (cbn; field). lra.
Qed.
Lemma ff_pos x : 0 < ff x.
Proof.
  destruct (I0_exists x) as [l S]. pose proof (I0_pos x l S) as P. apply I0_value in S.
  pose proof (exp_pos x). destruct (Rlt_le_dec 0 (ff x)) as [|N]; [assumption|]. nra.
Qed.
Lemma nonincreasing (g g' : R -> R) a b : a <= b ->
  (forall x, a <= x <= b -> is_derive g x (g' x)) -> (forall x, a <= x <= b -> g' x <= 0) -> g b <= g a.
Proof.
  intros ab D N. pose proof (growth (fun _ => 0) (fun _ => 0) (fun x => - g x) (fun x => - g' x) a b ab) as G.
  assert (Q : Rabs (0 - 0) <= - g b - - g a).
  { apply G.
    - intros x Hx. apply (is_derive_const (V := R_NormedModule)).
    - intros x Hx. apply (is_derive_opp (V := R_NormedModule)). apply D, Hx.
    - intros x Hx. rewrite Rabs_R0. pose proof (N x Hx). lra. }
  rewrite Rminus_0_r, Rabs_R0 in Q. lra.
Qed.
Lemma ff1_neg x : 0 <= x -> ff1 x <= 0.
Proof.
  intros Hx. destruct Hx as [Hx|<-].
  - pose proof (nonincreasing (fun x => x * exp (2 * x) * ff1 x) (fun x => - (exp (2 * x) * ff x)) 0 x ltac:(lra)) as G.
    assert (Q : x * exp (2 * x) * ff1 x <= 0 * exp (2 * 0) * ff1 0).
    { apply G.
      - intros y Hy. replace (- (exp (2 * y) * ff y)) with
          ((exp (2 * y) + y * (2 * exp (2 * y))) * ff1 y + y * exp (2 * y) * ff2 y).
        2:{ pose proof (ff_ode y) as O. set (e := exp (2 * y)).
            replace (- (e * ff y)) with (e * (y * ff2 y + (1 + 2 * y) * ff1 y)) by (replace (ff y) with (- (y * ff2 y + (1 + 2 * y) * ff1 y)) by lra; ring). ring. }
        apply (mult_d (fun y => y * exp (2 * y)) ff1); [|apply ff1_d]. auto_derive; [exact I|ring].
      - intros y Hy. pose proof (exp_pos (2 * y)). pose proof (ff_pos y). nra. }
    pose proof (exp_pos (2 * x)). assert (0 < x * exp (2 * x)) by nra. nra.
  - unfold ff1. rewrite PSeries_0. unfold PS_derive. cbn. unfold rr. cbn. lra.
Qed.
Lemma ff_ge8 x : 0 <= x <= 8 -> 1434 / 10000 <= ff x.
Proof.
  intros Hx. pose proof (nonincreasing ff ff1 x 8 ltac:(lra) (fun y _ => ff_d y) (fun y Hy => ff1_neg y ltac:(lra))) as G.
  pose proof ff8 as F. apply Rabs_le_between in F.
  assert (Z : (1434 * 10 ^ 30 + 10 ^ 10 <= 10000 * f8z)%Z) by (vm_compute; discriminate).
  apply IZR_le in Z. rewrite plus_IZR, !mult_IZR in Z.
  assert (E30 : IZR (10 ^ 30) = 10 ^ 30) by (apply (tenZ 30)). rewrite E30 in *.
  assert (E10 : IZR (10 ^ 10) = 10 ^ 10) by (apply (tenZ 10)). rewrite E10 in *.
  assert (P : 0 < 10 ^ 30) by (apply pow_lt; lra).
  assert (P10 : 10 ^ 10 = 10000000000) by (simpl; lra). rewrite P10 in Z.
  set (v := IZR f8z) in *. clearbody v. set (w := 10 ^ 30) in *. clearbody w.
  assert (V : 1434 / 10000 + 1000000 / w <= v / w).
  { apply (Rmult_le_reg_r w); [exact P|]. unfold Rdiv. rewrite Rmult_plus_distr_r, !Rmult_assoc, Rinv_l by lra. lra. }
  assert (0 < / w) by (apply Rinv_0_lt_compat, P). unfold Rdiv in *. lra.
Qed.
Lemma i0e_close y : 0 <= y -> Rabs (i0e_f64 y - ff y) <= / 2 ^ 54 * ff y.
Proof.
  intros Hy. unfold i0e_f64, i0e_gen. cbn [nabs RNum nleb nofZ ndiv nsub nsqrt nofQ].
  change (map (fun q : Q => Q2R q)) with (map Q2R). rewrite (Rabs_pos_eq y Hy).
  destruct (Rleb_spec y 8) as [L|G].
  - pose proof (small_x y ltac:(lra)) as S. pose proof (ff_ge8 y ltac:(lra)) as P.
    eapply Rle_trans; [exact S|].
    assert (5.08 / 10 ^ 18 <= / 2 ^ 54 * (1434 / 10000)) by (simpl; lra).
    assert (0 < / 2 ^ 54) by (apply Rinv_0_lt_compat, pow_lt; lra). nra.
  - apply Rnot_le_lt in G. pose proof (sqrt_lt_R0 y ltac:(lra)) as Sy.
    assert (T : 0 <= 16 / y <= 2).
    { split; [apply Rlt_le, Rdiv_lt_0_compat; lra|]. apply (Rmult_le_reg_r y); [lra|]. unfold Rdiv. rewrite Rmult_assoc, Rinv_l; lra. }
    pose proof (table_close _ T) as C. replace (2 * (16 / y - 1)) with (32 / y - 2) in C by (field; lra).
    pose proof (dd_bound y ltac:(lra)) as D. unfold dd in D. pose proof (qq_low _ T) as Lo.
    set (q := qq (16 / y)) in *. set (c := chbevl _ _) in *. clearbody q c. set (g := sqrt y * ff y) in *.
    replace (c / sqrt y - ff y) with ((c - g) * / sqrt y) by (unfold g; field; lra).
    replace (ff y) with (g * / sqrt y) by (unfold g; field; lra).
    rewrite Rabs_mult, (Rabs_pos_eq (/ _)) by (left; apply Rinv_0_lt_compat, Sy).
    rewrite <- Rmult_assoc. apply Rmult_le_compat_r; [left; apply Rinv_0_lt_compat, Sy|]. clearbody g.
    assert (A : Rabs (c - g) <= 1 / 10 ^ 17 + 5 / 10 ^ 20).
    { replace (c - g) with ((c - q) + (q - g)) by ring. eapply Rle_trans; [apply Rabs_triang|]. lra. }
    assert (B : 38 / 100 <= g). { apply Rabs_le_between in D. assert (5 / 10 ^ 20 <= 1 / 100) by (simpl; lra). lra. }
    eapply Rle_trans; [exact A|].
    assert (1 / 10 ^ 17 + 5 / 10 ^ 20 <= / 2 ^ 54 * (38 / 100)) by (simpl; lra).
    assert (0 < / 2 ^ 54) by (apply Rinv_0_lt_compat, pow_lt; lra). nra.
Qed.
Lemma I0_abs x l : is_I0 x l -> l = ff (Rabs x) * exp (Rabs x).
Proof.
  intros S. apply I0_value. apply is_series_Reals. apply is_series_Reals in S.
  apply (is_series_ext (fun k => ((x / 2) ^ k / INR (fact k)) ^ 2)); [|exact S]. intros n.
  assert (E : forall a b, (a / b) ^ 2 = a ^ 2 * (/ b) ^ 2) by (intros; unfold Rdiv; apply Rpow_mult_distr).
  rewrite !E. f_equal. rewrite <- !pow_mult, !(Nat.mul_comm n), !pow_mult. f_equal.
  rewrite !E. f_equal. symmetry; apply pow2_abs.
Qed.

(** ** C72: i0 and i0e compute the Bessel function to within half an f64 rounding. *)
(** The relative error of the approximation (the tables, the splitting at 8, the
    Chebyshev evaluation with its spurious term), in exact arithmetic, is at most 2^-54
    for every real x. *)
Theorem C72_i0_accuracy : forall x l, is_I0 x l ->
  Rabs (i0_f64 x - l) <= / 2 ^ 54 * l /\
  Rabs (i0e_f64 x - exp (- Rabs x) * l) <= / 2 ^ 54 * (exp (- Rabs x) * l) /\
  Rabs (i0_f32 x - l) <= / 2 ^ 54 * l /\
  Rabs (i0e_f32 x - exp (- Rabs x) * l) <= / 2 ^ 54 * (exp (- Rabs x) * l).
Proof.
  intros x l S. pose proof (I0_abs x l S) as E. set (y := Rabs x) in *.
  assert (Hy : 0 <= y) by apply Rabs_pos. pose proof (i0e_close y Hy) as C.
  assert (Ev : i0e_f64 x = i0e_f64 y).
  { unfold i0e_f64. apply i0_even_gen. cbn [nabs RNum]. unfold y. rewrite Rabs_Rabsolu. reflexivity. }
  assert (El : exp (- y) * l = ff y).
  { rewrite E, Rmult_comm, Rmult_assoc, <- exp_plus. replace (y + - y) with 0 by ring. rewrite exp_0. ring. }
  assert (A : Rabs (i0e_f64 x - exp (- y) * l) <= / 2 ^ 54 * (exp (- y) * l)) by (rewrite El, Ev; exact C).
  assert (B : Rabs (i0_f64 x - l) <= / 2 ^ 54 * l).
  { destruct (C21_scaling x) as [-> _]. fold y. rewrite Ev, E. pose proof (exp_pos y) as Pe.
    replace (exp y * i0e_f64 y - ff y * exp y) with (exp y * (i0e_f64 y - ff y)) by ring.
    rewrite Rabs_mult, (Rabs_pos_eq (exp y)) by lra. nra. }
  assert (F : i0_f32 x = i0_f64 x /\ i0e_f32 x = i0e_f64 x).
  { unfold i0_f32, i0e_f32, i0_f64, i0e_f64. destruct C62_f32_tables as [-> ->]. split; reflexivity. }
  destruct F as [-> ->]. repeat split; assumption.
Qed.
Print Assumptions C72_i0_accuracy.
(** The function is defined everywhere, single-valued and at least 1. *)
Theorem C72_I0_defined : forall x, exists l, is_I0 x l /\ 1 <= l /\ forall l', is_I0 x l' -> l' = l.
Proof.
  intros x. destruct (I0_exists x) as [l S]. exists l. split; [exact S|]. split; [exact (I0_pos x l S)|].
  intros l' S'. rewrite (I0_abs x l S), (I0_abs x l' S'). reflexivity.
Qed.
Print Assumptions C72_I0_defined.
(** Consequences: i0 is at least 1 - 2^-54, and i0e is positive. *)
Corollary C72_positive : forall x, 1 - / 2 ^ 54 <= i0_f64 x /\ 0 < i0e_f64 x.
Proof.
  intros x. destruct (C72_I0_defined x) as [l [S [P _]]]. destruct (C72_i0_accuracy x l S) as [A [B _]].
  apply Rabs_le_between in A, B. assert (T : 0 < / 2 ^ 54 < 1 / 2) by (simpl; lra).
  assert (0 < exp (- Rabs x) * l) by (apply Rmult_lt_0_compat; [apply exp_pos|lra]). split; nra.
Qed.
Print Assumptions C72_positive.
Example C72_ex : is_I0 0 1.
Proof.
  apply is_series_Reals. apply (is_series_decr_1 (fun k => ((0 / 2) ^ k / INR (fact k)) ^ 2)).
  apply (is_series_ext (fun _ => 0)).
  - intros n. cbn [pow]. unfold Rdiv. rewrite Rmult_0_l, !Rmult_0_l. reflexivity.
  - match goal with |- is_series _ ?v => replace v with 0 end.
    + apply is_series_Reals. intros e He. exists O. intros n _. unfold R_dist. rewrite sum_eq_R0 by reflexivity.
      rewrite Rminus_0_r, Rabs_R0. exact He.
    + unfold plus, opp. cbn. field.
Qed.
