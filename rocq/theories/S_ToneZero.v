(** A tone through zero-phase filtering by sections of floats: what comes out away from the
    two ends of the signal. *)
From Coq Require Import Reals ZArith SpecFloat List.
From Verif Require Import Base Num M_Filter S_Float.
Import ListNotations.
Local Open Scope R_scope.

(** Every float signal of more than pad samples that stay within d of A cos(theta n + phi),
    with A + d not near the overflow threshold, is filtered forwards and backwards without
    overflow, and sample n of the output differs from A g cos(theta n + phi) - no change of
    phase - by at most K times: the rounding unit relative to A, plus d, plus the smallest
    positive float, plus a transient that decays like rho^k in the distance k to the nearer
    end.  The bound does not grow with the length of the signal. *)
Definition tone_zero_phase (prec emax : Z) (szero : bool) (pad : nat) (K rho g theta : R) (sections : list (@Sos spec_float)) : Prop :=
  forall A phi d x, (pad < length x)%nat -> 0 <= A -> 0 <= d -> Forall (finite prec emax) x ->
    (forall n, (n < length x)%nat -> Rabs (fval (nth n x (S754_zero false)) - A * cos (theta * INR n + phi)) <= d) ->
    K * (A + d + ftiny prec emax) <= fmax prec emax ->
    exists y, @sosfiltfilt_dyn _ (SFNum prec emax szero) x sections = Ok y /\ length y = length x /\ Forall (finite prec emax) y /\
      forall n, (n < length x)%nat ->
        Rabs (fval (nth n y (S754_zero false)) - A * g * cos (theta * INR n + phi)) <=
          K * (uround prec * A + d + ftiny prec emax + A * (rho ^ n + rho ^ (length x - 1 - n))).
