(** Bounds on pi, from Machin's formula with rational arithmetic. *)
From Coq Require Import Reals QArith Qreals Ratan Machin ZArith Lia Lra.
Local Open Scope R_scope.

Fixpoint qpow (q : Q) (n : nat) : Q := match n with O => 1%Q | S m => Qred (q * qpow q m)%Q end.
Definition qterm (n : nat) : Q :=
  Qred ((if Nat.even n then 1 else -1) * ((2 * qpow (1 # 3) (2 * n + 1) + qpow (1 # 7) (2 * n + 1)) / inject_Z (Z.of_nat (2 * n + 1))))%Q.
Fixpoint qsum (n : nat) : Q := match n with O => qterm 0 | S m => Qred (qsum m + qterm (S m))%Q end.

Lemma Q2R_red q : Q2R (Qred q) = Q2R q.
Proof. apply Qeq_eqR, Qred_correct. Qed.
Lemma qpow_ok q n : Q2R (qpow q n) = Q2R q ^ n.
Proof. induction n as [|n IH]; cbn [qpow pow]; [unfold Q2R; cbn; lra|]. rewrite Q2R_red, Q2R_mult, IH. reflexivity. Qed.
Lemma qterm_ok n : Q2R (qterm n) = tg_alt PI_2_3_7_tg n.
Proof.
  unfold qterm, tg_alt, PI_2_3_7_tg, Ratan_seq.
  assert (NZ : ~ (inject_Z (Z.of_nat (2 * n + 1)) == 0)%Q) by (unfold Qeq, inject_Z; cbn [Qnum Qden]; lia).
  rewrite Q2R_red, Q2R_mult, Q2R_div, Q2R_plus, Q2R_mult, !qpow_ok by exact NZ.
  assert (S : Q2R (if Nat.even n then 1 else -1) = (-1) ^ n).
  { destruct (Nat.even n) eqn:E.
    - apply Nat.even_spec in E. destruct E as [k ->]. rewrite pow_1_even. unfold Q2R; cbn; lra.
    - assert (O : Nat.odd n = true) by (rewrite <- Nat.negb_even, E; reflexivity).
      apply Nat.odd_spec in O. destruct O as [k ->]. rewrite Nat.add_1_r, pow_1_odd. unfold Q2R; cbn; lra. }
  rewrite S.
  replace (Q2R (inject_Z (Z.of_nat (2 * n + 1)))) with (INR (2 * n + 1)) by (unfold Q2R, inject_Z; cbn [Qnum Qden]; rewrite <- INR_IZR_INZ; field).
  replace (Q2R 2) with 2 by (unfold Q2R; cbn; lra).
  replace (Q2R (1 # 3)) with (/ 3) by (unfold Q2R; cbn; lra).
  replace (Q2R (1 # 7)) with (/ 7) by (unfold Q2R; cbn; lra).
  unfold Rdiv. ring.
Qed.
Lemma qsum_ok n : Q2R (qsum n) = sum_f_R0 (tg_alt PI_2_3_7_tg) n.
Proof. induction n as [|n IH]; cbn [qsum sum_f_R0]; [apply qterm_ok|]. rewrite Q2R_red, Q2R_plus, IH, qterm_ok. reflexivity. Qed.

(** pi to 18 decimals. *)
Definition pi_lo : Q := (3141592653589793238 # 1000000000000000000)%Q.
Definition pi_hi : Q := (3141592653589793239 # 1000000000000000000)%Q.
Lemma PI_bounds : Q2R pi_lo <= PI <= Q2R pi_hi.
Proof.
  destruct (PI_2_3_7_ineq 10) as [L H]. rewrite <- qsum_ok in L, H.
  assert (A : Q2R (pi_lo / 4) <= Q2R (qsum (S (2 * 10)))) by (apply Qle_Rle, Qle_bool_iff; vm_compute; reflexivity).
  assert (B : Q2R (qsum (2 * 10)) <= Q2R (pi_hi / 4)) by (apply Qle_Rle, Qle_bool_iff; vm_compute; reflexivity).
  rewrite Q2R_div in A, B by discriminate. replace (Q2R 4) with 4 in A, B by (unfold Q2R; cbn; lra). lra.
Qed.
