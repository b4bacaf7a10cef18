(** A tone through sections of floats: what is left of it after the transient. *)
From Coq Require Import Reals ZArith SpecFloat List.
From Verif Require Import Base Num M_Filter S_Float.
Import ListNotations.
Local Open Scope R_scope.

(** Every float signal whose samples stay within d of A cos(theta n + phi), with A + d not
    near the overflow threshold, is filtered by the sections without overflow, and sample n
    of the output differs from A g cos(theta n + phi + psi) by at most K times: the
    rounding unit relative to A, plus d, plus the smallest positive float, plus a transient
    that decays like rho^n.  The bound does not grow with the length of the signal. *)
Definition tone_passes (prec emax : Z) (szero : bool) (K rho g psi theta : R) (sections : list (@Sos spec_float)) : Prop :=
  forall A phi d x, 0 <= A -> 0 <= d -> Forall (finite prec emax) x ->
    (forall n, (n < length x)%nat -> Rabs (fval (nth n x (S754_zero false)) - A * cos (theta * INR n + phi)) <= d) ->
    K * (A + d + ftiny prec emax) <= fmax prec emax ->
    exists y sections', @sosfilt_dyn _ (SFNum prec emax szero) x sections = Ok (y, sections') /\ length y = length x /\ Forall (finite prec emax) y /\
      forall n, (n < length x)%nat ->
        Rabs (fval (nth n y (S754_zero false)) - A * g * cos (theta * INR n + phi + psi)) <= K * (uround prec * A + d + ftiny prec emax + A * rho ^ n).
