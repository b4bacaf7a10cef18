(** Specification for C82: when the zeros and poles of a digital design are certainly
    clear of the tolerance (100 epsilon, relative) with which the code tells real roots
    from complex ones, as a condition on the arguments alone. *)
From Coq Require Import Reals List Arith.
From Verif Require Import Base Num Trans M_Design S_Design.
Import ListNotations.
Local Open Scope R_scope.

(** [N] is the order, [wn] the critical frequencies in units of Nyquist.  The prototype's
    poles are (- sh cos phi, - ch sin phi): sh = ch = 1 for Butterworth.
    Low-pass and high-pass: 100 epsilon N ch less than the distance of the cutoff from 0
    and from Nyquist.  Band-pass and band-stop: with T_i = tan(pi w_i / 2), m = sqrt(T_0 T_1)
    the warped centre and b = T_1 - T_0 the warped width, a polynomial inequality; for odd N
    the pole that comes from the prototype's real pole r must in addition stay
    real (b r >= 2 m) or leave the real axis by more than the tolerance. *)
Definition clear_of_tolerance (epsilon : R) (bt : FilterBandType) (N : nat) (ch sh : R) (wn : list R) : Prop :=
  let w0 := nth 0 wn 0 in
  let w1 := nth 1 wn 0 in
  let T0 := tan (PI * w0 / 2) in
  let T1 := tan (PI * w1 / 2) in
  let m := sqrt (T0 * T1) in
  let b := T1 - T0 in
  let band (Q P r : R) :=
    100 * epsilon * (1 + m + b * Q) ^ 2 * (m + b * Q) ^ 2 < 2 * b * P * m ^ 2 /\
    (Nat.Odd N -> b * r < 2 * m -> 100 * epsilon * (1 + m) ^ 2 < sqrt (4 * m ^ 2 - (b * r) ^ 2)) in
  match bt with
  | Lowpass | Highpass => 100 * epsilon * INR N * ch < Rmin w0 (1 - w0)
  | Bandpass => band ch (ch / INR N) sh
  | Bandstop => band (1 / sh) (1 / (INR N * ch)) (1 / sh)
  end.

(** The two semi-axes of the ellipse of Chebyshev I poles, for order N and ripple rp in dB:
    sinh and cosh of arsinh(1 / sqrt(10^(rp/10) - 1)) / N. *)
Definition cheb_axis (N : nat) (rp : R) : R := arcsinh (1 / sqrt (Rpower 10 (rp / 10) - 1)) / INR N.
