(** Numbers and signals with the opposite sign, exactly. *)
From Coq Require Import ZArith SpecFloat List Bool.
From Verif Require Import Base M_Filter.
Import ListNotations.

(** Same class, same magnitude bit for bit, and the opposite sign ([flip] = true) or the same
    sign ([flip] = false).  The sign of a zero is not looked at: 1 - 1 is +0 and so is -1 + 1.
    NaN corresponds to NaN. *)
Definition signed (flip : bool) (x y : spec_float) : Prop :=
  match x, y with
  | S754_zero _, S754_zero _ => True
  | S754_infinity s, S754_infinity t => t = xorb flip s
  | S754_nan, S754_nan => True
  | S754_finite s m e, S754_finite t m' e' => t = xorb flip s /\ m' = m /\ e' = e
  | _, _ => False
  end.
Definition mirrored : spec_float -> spec_float -> Prop := signed true.
Definition same_number : spec_float -> spec_float -> Prop := signed false.

(** The same outcome, with values related by [R]. *)
Definition same_outcome {A B} (R : A -> B -> Prop) (r : res A) (r' : res B) : Prop :=
  match r, r' with
  | Ok a, Ok b => R a b
  | Panic, Panic | UB, UB | OutOfFuel, OutOfFuel => True
  | _, _ => False
  end.

(** Sections with the same coefficients and related delay values. *)
Definition state_signed (flip : bool) (s t : Sos spec_float) : Prop :=
  b0 t = b0 s /\ b1 t = b1 s /\ b2 t = b2 s /\ a0 t = a0 s /\ a1 t = a1 s /\ a2 t = a2 s /\
  signed flip (zi0 s) (zi0 t) /\ signed flip (zi1 s) (zi1 t).
