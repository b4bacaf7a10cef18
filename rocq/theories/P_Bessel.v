(** chbevl, i0, i0e. *)
From Coq Require Import List Arith ZArith QArith Qreals Reals Lra Lia SpecFloat.
From Verif Require Import Base Num Trans M_Bessel S_Bessel.
Import ListNotations.
Local Open Scope R_scope.

Definition finish (s : R * R * R) : R := let '(b0, _, b2) := s in (b0 - b2) / 2.

Lemma chebT_SS n t : chebT (S (S n)) t = 2 * t * chebT (S n) t - chebT n t.
Proof. reflexivity. Qed.

Lemma clenshaw x l : forall p q r, l <> [] ->
  finish (fold_left (chbevl_step x) l (p, q, r)) =
  p * chebT (length l) (x / 2) - q * chebT (length l - 1) (x / 2) + chebyshev_series l (x / 2).
Proof.
  induction l as [|e l IH]; intros p q r H; [congruence|].
  destruct l as [|e' l].
  - cbn. field.
  - change (fold_left (chbevl_step x) (e :: e' :: l) (p, q, r))
      with (fold_left (chbevl_step x) (e' :: l) (x * p - q + e, p, q)).
    rewrite IH by discriminate.
    change (chebyshev_series (e :: e' :: l) (x / 2)) with
      (e * chebT (length (e' :: l)) (x / 2) + chebyshev_series (e' :: l) (x / 2)).
    cbn [length]. replace (S (length l) - 1)%nat with (length l) by lia.
    replace (S (S (length l)) - 1)%nat with (S (length l)) by lia.
    rewrite chebT_SS. field.
Qed.

Lemma chbevl_value x c l :
  chbevl x (c :: l) = c * chebT (S (length l)) (x / 2) + chebyshev_series (c :: l) (x / 2).
Proof.
  unfold chbevl.
  assert (E : forall s : R * R * R, (let '(b0, _, b2) := s in ((b0 - b2) / nofZ 2)%num) = finish s) by (intros [[? ?] ?]; reflexivity).
  rewrite E, clenshaw by discriminate. change nzero with 0. cbn [length]. ring.
Qed.

Lemma chebT_cos n a : chebT n (cos a) = cos (INR n * a).
Proof.
  enough (H : chebT n (cos a) = cos (INR n * a) /\ chebT (S n) (cos a) = cos (INR (S n) * a)) by tauto.
  induction n as [|n [H1 H2]].
  - cbn [chebT INR]. rewrite Rmult_0_l, cos_0, Rmult_1_l. auto.
  - split; [exact H2|]. rewrite chebT_SS, H1, H2.
    replace (INR (S (S n)) * a) with (INR (S n) * a + a) by (rewrite (S_INR (S n)); ring).
    replace (INR n * a) with (INR (S n) * a - a) by (rewrite (S_INR n); ring).
    rewrite cos_plus, cos_minus. ring.
Qed.
Lemma chebT_bound n t : -1 <= t <= 1 -> Rabs (chebT n t) <= 1.
Proof.
  intros H. rewrite <- (cos_acos t H), chebT_cos. apply Rabs_le. apply COS_bound.
Qed.

Lemma chbevl_error x coef : -2 <= x <= 2 ->
  Rabs (chbevl x coef - chebyshev_series coef (x / 2)) <= Rabs (hd 0 coef).
Proof.
  intros H. destruct coef as [|c l].
  - cbn. rewrite Rminus_0_r, Rabs_R0. lra.
  - rewrite chbevl_value. cbn [hd].
    replace (_ - _) with (c * chebT (S (length l)) (x / 2)) by ring.
    rewrite Rabs_mult. pose proof (chebT_bound (S (length l)) (x / 2) ltac:(lra)).
    pose proof (Rabs_pos c). nra.
Qed.

(** Ranges of the arguments i0 passes. *)
Lemma Rleb_spec a b : Bool.reflect (a <= b) (Rleb a b).
Proof. unfold Rleb. destruct (Rle_dec a b); constructor; assumption. Qed.

Lemma small_range x : 0 <= x <= 8 -> -2 <= x / 2 - 2 <= 2.
Proof. lra. Qed.
Lemma large_range x : 8 < x -> -2 <= 32 / x - 2 <= 2.
Proof.
  intros H. assert (0 < 32 / x < 4); [|lra]. split.
  - apply Rdiv_lt_0_compat; lra.
  - apply (Rmult_lt_reg_r x); [lra|]. unfold Rdiv. rewrite Rmult_assoc, Rinv_l; lra.
Qed.

Lemma i0e_error A B x :
  (Rabs x <= 8 ->
     Rabs (i0e_gen A B x - chebyshev_series A ((Rabs x / 2 - 2) / 2)) <= Rabs (hd 0 A)) /\
  (8 < Rabs x ->
     Rabs (i0e_gen A B x - chebyshev_series B ((32 / Rabs x - 2) / 2) / sqrt (Rabs x)) <= Rabs (hd 0 B) / sqrt (Rabs x)).
Proof.
  unfold i0e_gen. cbn [nabs RNum nleb nofZ ndiv nsub nsqrt]. pose proof (Rabs_pos x) as P.
  split; intros H.
  - destruct (Rleb_spec (Rabs x) 8); [|lra]. apply chbevl_error. apply small_range. lra.
  - destruct (Rleb_spec (Rabs x) 8); [lra|].
    assert (S : 0 < sqrt (Rabs x)) by (apply sqrt_lt_R0; lra).
    unfold Rdiv at 1. rewrite <- (Rmult_minus_distr_r (/ sqrt (Rabs x))) || idtac.
    match goal with |- Rabs (?a * _ - ?b / _) <= _ => replace (a * / sqrt (Rabs x) - b / sqrt (Rabs x)) with ((a - b) / sqrt (Rabs x)) by (unfold Rdiv; ring) end.
    unfold Rdiv at 1. rewrite Rabs_mult, (Rabs_pos_eq (/ sqrt (Rabs x))) by (left; apply Rinv_0_lt_compat; exact S).
    apply Rmult_le_compat_r; [left; apply Rinv_0_lt_compat; exact S|].
    apply chbevl_error. apply large_range. exact H.
Qed.

Lemma i0_even_gen {F} {NF : Num F} {TF : Trans F} A B x y : nabs x = nabs y ->
  i0_gen A B x = i0_gen A B y /\ i0e_gen A B x = i0e_gen A B y.
Proof. intros H. unfold i0_gen, i0e_gen. rewrite H. split; reflexivity. Qed.

Lemma i0_scaled A B x : i0_gen A B x = exp (Rabs x) * i0e_gen A B x.
Proof.
  unfold i0_gen, i0e_gen. cbn [nabs RNum nleb nofZ ndiv nsub nsqrt nmul texp RTrans].
  destruct (Rleb (Rabs x) 8); [reflexivity|]. unfold Rdiv. ring.
Qed.
Lemma i0_scaled_small {F} {NF : Num F} {TF : Trans F} A B x : nleb (nabs x) (nofZ 8) = true ->
  i0_gen A B x = nmul (texp (nabs x)) (i0e_gen A B x).
Proof. intros H. unfold i0_gen, i0e_gen. rewrite H. reflexivity. Qed.

(** Exact evaluation over the rationals. *)
Lemma chbevl_Q (x : Q) (l : list Q) : Q2R (@chbevl Q QNum x l) = chbevl (Q2R x) (map Q2R l).
Proof.
  assert (R1 : forall a, Q2R (Qred a) = Q2R a) by (intros; apply Qeq_eqR, Qred_correct).
  unfold chbevl. destruct l as [|c l']; [cbn; unfold Q2R; cbn; lra|].
  cbn [map]. change (Q2R c :: map Q2R l') with (map Q2R (c :: l')). set (l := c :: l').
  change (@nzero R RNum) with 0.
  assert (G : forall l b0 b1 b2,
    fold_left (chbevl_step (Q2R x)) (map Q2R l) (Q2R b0, Q2R b1, Q2R b2) =
    let '(a, b, c) := fold_left (@chbevl_step Q QNum x) l (b0, b1, b2) in (Q2R a, Q2R b, Q2R c)).
  { clear. intros l. assert (R1 : forall a, Q2R (Qred a) = Q2R a) by (intros; apply Qeq_eqR, Qred_correct).
    induction l as [|e l IH]; intros b0 b1 b2; [reflexivity|].
    cbn [map fold_left]. cbn [chbevl_step]. rewrite <- IH. f_equal. f_equal. f_equal.
    cbn [nadd nsub nmul QNum RNum]. rewrite R1, Q2R_plus, R1, Q2R_minus, R1, Q2R_mult. reflexivity. }
  assert (Z : 0 = Q2R 0) by (unfold Q2R; cbn; lra).
  replace (Q2R c, 0, 0) with (Q2R c, Q2R 0, Q2R 0) by (rewrite <- Z; reflexivity).
  rewrite G. cbn [nzero QNum]. destruct (fold_left _ l _) as [[a b] d].
  cbn [nsub ndiv nofZ QNum RNum]. rewrite R1, Q2R_div by (intros H; discriminate H). rewrite R1, Q2R_minus.
  f_equal. unfold Q2R. cbn. lra.
Qed.
