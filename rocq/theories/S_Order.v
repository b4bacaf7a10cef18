(** Order between floats. *)
From Coq Require Import ZArith SpecFloat List Reals.
From Verif Require Import M_Filter S_Float.
Import ListNotations.

(** [x] is not above [y]: the comparison [x > y] of the language is false.  For two floats that
    are not NaN this is [x <= y]; a NaN is not above anything and nothing is above it. *)
Definition not_above (x y : spec_float) : Prop := SFltb y x = false.

(** Any float of the format: finite, infinite or NaN. *)
Definition format (prec emax : Z) (x : spec_float) : Prop := valid_binary prec emax x = true.

(** A section all of whose weights on the past are non-negative: b0, b1, b2 >= 0 and a1, a2 <= 0,
    finite.  (Exponential smoothing, moving sums, first-order low-pass filters below half the
    Nyquist frequency.) *)
Definition smoothing (prec emax : Z) (s : Sos spec_float) : Prop :=
  Forall (finite prec emax) [b0 s; b1 s; b2 s; a1 s; a2 s] /\
  Forall (fun b => (0 <= fval b)%R) [b0 s; b1 s; b2 s] /\ Forall (fun a => (fval a <= 0)%R) [a1 s; a2 s].

(** The same section with other delay values, none above. *)
Definition state_not_above (prec emax : Z) (s t : Sos spec_float) : Prop :=
  b0 t = b0 s /\ b1 t = b1 s /\ b2 t = b2 s /\ a1 t = a1 s /\ a2 t = a2 s /\
  Forall (format prec emax) [zi0 s; zi1 s; zi0 t; zi1 t] /\
  not_above (zi0 s) (zi0 t) /\ not_above (zi1 s) (zi1 t).
