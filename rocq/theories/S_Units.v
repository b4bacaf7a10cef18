(** Changing the unit of a signal by a power of two. *)
From Coq Require Import ZArith SpecFloat List Reals.
From Verif Require Import S_Float.
Import ListNotations.
Local Open Scope R_scope.

(** [y] is [2^k] times [x], exactly (both finite). *)
Definition times_power (prec emax k : Z) (x y : spec_float) : Prop :=
  finite prec emax x /\ finite prec emax y /\ fval y = fval x * powerRZ 2 k.

(** Zero, or between [2^lo] and [2^hi] in size. *)
Definition ordinary (prec emax lo hi : Z) (x : spec_float) : Prop :=
  finite prec emax x /\ (fval x = 0 \/ powerRZ 2 lo <= Rabs (fval x)) /\ Rabs (fval x) <= powerRZ 2 hi.

(** Signals of at most [2^c] samples whose squared deviations, and sums of them, stay inside the
    exponent range.  For f64 (53, 1024) and up to a million samples: lo = -400, hi = 400
    (1e-120 to 1e120); for f32 (24, 128) and up to 1024 samples: lo = -12, hi = 40. *)
Definition range_fits (prec emax c lo hi : Z) : Prop :=
  (1 < prec < emax)%Z /\ (1 <= c <= prec)%Z /\ (lo <= hi)%Z /\
  (2 - emax <= 2 * (lo - prec - c) - prec - c)%Z /\ (2 * hi + 3 * c + 4 <= emax)%Z.
