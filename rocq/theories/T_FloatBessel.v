(** Property C79: rounding of i0 and i0e at IEEE 754 binary formats. *)
From Coq Require Import Reals ZArith SpecFloat List Lia Lra Psatz.
From Verif Require Import Base Num Trans M_Bessel S_Bessel T_Bessel T_BesselI0 P_BesselI0 S_Float P_Float P_FloatBessel P_FloatI0.
Import ListNotations.
Local Open Scope R_scope.

(** * C79 *)
(** i0e, for every finite float x of every binary format with at least 24 significant
    bits: the result is finite, and its relative error with respect to exp(-|x|) I0(x) is
    at most 365 unit roundoffs plus 2^-53 (the latter covers the approximation itself).
    All operations, the rounded table entries and the square root are accounted for. *)
Theorem C79_i0e_rounding : forall prec emax x l,
  (24 <= prec < emax)%Z -> finite prec emax x -> is_I0 (fval x) l ->
  let v := exp (- Rabs (fval x)) * l in
  forall r, r = @i0e_f64 _ (SFNum prec emax true) x \/ r = @i0e_f32 _ (SFNum prec emax true) x ->
  finite prec emax r /\ Rabs (fval r - v) <= (365 * uround prec + / 2 ^ 53) * v.
Proof.
  intros prec emax x l Hpe Fx S v r Hr.
  assert (Er : r = @i0e_f64 _ (SFNum prec emax true) x).
  { destruct Hr as [-> | ->]; [reflexivity|]. unfold i0e_f32, i0e_f64. destruct C62_f32_tables as [-> ->]. reflexivity. }
  assert (Ev : v = P_BesselI0.ff (Rabs (fval x))).
  { unfold v. rewrite (I0_abs _ _ S), Rmult_comm, Rmult_assoc, <- exp_plus. replace (Rabs (fval x) + - Rabs (fval x)) with 0 by ring. rewrite exp_0. ring. }
  rewrite Ev, Er. exact (i0e_float_core prec emax Hpe x Fx).
Qed.
(** The two formats of the crate: 2^-44 relative at f64, 2^-15 at f32. *)
Theorem C79_i0e_f64_f32 : forall x l, is_I0 (fval x) l ->
  let v := exp (- Rabs (fval x)) * l in
  (finite 53 1024 x -> let r := @i0e_f64 _ F64Num x in finite 53 1024 r /\ Rabs (fval r - v) <= / 2 ^ 44 * v) /\
  (finite 24 128 x -> let r := @i0e_f32 _ F32Num x in finite 24 128 r /\ Rabs (fval r - v) <= / 2 ^ 15 * v).
Proof.
  intros x l S v. assert (V0 : 0 <= v).
  { unfold v. apply Rmult_le_pos; [left; apply exp_pos|]. pose proof (I0_pos _ _ S). lra. }
  assert (U53 : uround 53 = / 2 ^ 53) by reflexivity.
  assert (U24 : uround 24 = / 2 ^ 24) by reflexivity.
  split; intros Fx r.
  - destruct (C79_i0e_rounding 53 1024 x l ltac:(lia) Fx S r (or_introl eq_refl)) as [Fr E]. split; [exact Fr|]. eapply Rle_trans; [exact E|].
    apply Rmult_le_compat_r; [exact V0|]. rewrite U53. cbn. lra.
  - destruct (C79_i0e_rounding 24 128 x l ltac:(lia) Fx S r (or_intror eq_refl)) as [Fr E]. split; [exact Fr|]. eapply Rle_trans; [exact E|].
    apply Rmult_le_compat_r; [exact V0|]. rewrite U24. cbn. lra.
Qed.
(** i0 multiplies by the platform's exponential, about which Rust promises nothing.  If
    that exponential is finite at |x| and has relative error at most rho <= 1/200, i0 is
    finite and has relative error at most 1.01 rho + 375 roundoffs + 2^-52.  In
    particular it never overflows before the exponential does. *)
Theorem C79_i0_rounding : forall (TF : Trans spec_float) prec emax x l rho,
  (24 <= prec < emax)%Z -> finite prec emax x -> is_I0 (fval x) l -> 0 <= rho <= 1 / 200 ->
  let e := texp (SFabs x) in
  finite prec emax e -> Rabs (fval e - exp (Rabs (fval x))) <= rho * exp (Rabs (fval x)) ->
  forall r, r = @i0_f64 _ (SFNum prec emax true) TF x \/ r = @i0_f32 _ (SFNum prec emax true) TF x ->
  finite prec emax r /\ Rabs (fval r - l) <= (101 / 100 * rho + 375 * uround prec + / 2 ^ 52) * l.
Proof.
  intros TF prec emax x l rho Hpe Fx S Hr e Fe Ee r Er0.
  assert (Er : r = @i0_f64 _ (SFNum prec emax true) TF x).
  { destruct Er0 as [-> | ->]; [reflexivity|]. unfold i0_f32, i0_f64. destruct C62_f32_tables as [-> ->]. reflexivity. }
  rewrite Er, (I0_abs _ _ S), (Rmult_comm (P_BesselI0.ff _)). exact (i0_float_core prec emax Hpe TF x rho Hr Fx Fe Ee).
Qed.
(** Outside the finite numbers: i0e of an infinity is zero, of NaN it is NaN. *)
Theorem C79_i0e_special : forall s,
  @i0e_f64 _ F64Num (S754_infinity s) = S754_zero false /\ @i0e_f32 _ F32Num (S754_infinity s) = S754_zero false /\
  @i0e_f64 _ F64Num S754_nan = S754_nan /\ @i0e_f32 _ F32Num S754_nan = S754_nan.
Proof. intros [|]; vm_compute; repeat split. Qed.

(** Non-vacuity: x = 10 at f64 and f32 (the branch with the square root), where I0 is
    defined, and an exponential within 1/200 of the real one exists at 0. *)
Example C79_hypotheses_met : exists l,
  is_I0 (fval (@nofZ _ F64Num 10)) l /\ finite 53 1024 (@nofZ _ F64Num 10) /\ finite 24 128 (@nofZ _ F32Num 10) /\ fval (@nofZ _ F64Num 10) = 10.
Proof.
  destruct (C72_I0_defined (fval (@nofZ _ F64Num 10))) as [l [L _]]. exists l. split; [exact L|]. split; [vm_compute; auto|]. split; [vm_compute; auto|].
  assert (E : @nofZ _ F64Num 10 = S754_finite false 5629499534213120 (-49)) by (vm_compute; reflexivity). rewrite E. cbn -[pow]. change (Pos.to_nat 49) with 49%nat. cbn. lra.
Qed.
(** i0e(10) as an f64: 0.1278333371634286... *)
Example C79_run : @i0e_f64 _ F64Num (@nofZ _ F64Num 10) = S754_finite false 4605681356917952 (-55).
Proof. vm_compute. reflexivity. Qed.
Print Assumptions C79_i0e_rounding.
Print Assumptions C79_i0e_f64_f32.
Print Assumptions C79_i0_rounding.
Print Assumptions C79_i0e_special.
