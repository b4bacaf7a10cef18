(** Specification of second-order sections designed in floats. *)
From Coq Require Import Reals ZArith SpecFloat List Bool Sorted Permutation.
From Verif Require Import Base Num Trans M_Complex M_Filter M_Design Cx S_Design S_Filter S_Float S_FloatFft S_FloatTrans.
Import ListNotations.
Local Open Scope R_scope.

(** A library whose functions respect the reflection in the real axis: sine and the angle
    of a point are odd, cosine and the length are even; the length is not negative, and zero
    at the origin.  The libraries in use are built so; without it the poles of a pair are
    conjugate only up to rounding. *)
Record symmetric_trans (prec emax : Z) (T : Trans spec_float) : Prop := {
  sym_sin : forall x y, finite prec emax x -> finite prec emax y -> fval y = - fval x -> fval (@tsin _ T y) = - fval (@tsin _ T x);
  sym_cos : forall x y, finite prec emax x -> finite prec emax y -> fval y = - fval x -> fval (@tcos _ T y) = fval (@tcos _ T x);
  sym_hypot : forall x x' y y', finite prec emax x -> finite prec emax x' -> finite prec emax y -> finite prec emax y' ->
    fval x' = fval x -> fval y' = - fval y -> fval (@thypot _ T x' y') = fval (@thypot _ T x y);
  sym_length : forall x y, finite prec emax x -> finite prec emax y -> finite prec emax (@thypot _ T x y) -> 0 <= fval (@thypot _ T x y);
  sym_length0 : forall x y, finite prec emax x -> finite prec emax y -> fval x = 0 -> fval y = 0 ->
    finite prec emax (@thypot _ T x y) /\ fval (@thypot _ T x y) = 0;
  sym_atan2 : forall x x' y y', finite prec emax x -> finite prec emax x' -> finite prec emax y -> finite prec emax y' ->
    fval x' = fval x -> fval y' = - fval y -> fval x <> 0 -> fval y <> 0 -> fval (@tatan2 _ T y' x') = - fval (@tatan2 _ T y x)
}.

(** A sort that puts a list in order whenever the comparison is a total preorder on the
    elements of that list; floats may hold NaN elsewhere. *)
Definition is_list_sort (sort : forall A : Type, (A -> A -> bool) -> list A -> list A) : Prop :=
  forall A (le : A -> A -> bool) (l : list A),
    Permutation l (sort A le l) /\
    ((forall a b, In a l -> In b l -> le a b = true \/ le b a = true) ->
     (forall a b c, In a l -> In b l -> In c l -> le a b = true -> le b c = true -> le a c = true) ->
     StronglySorted (fun a b => le a b = true) (sort A le l)).

(** [F::epsilon()]: the gap between 1 and the next float. *)
Definition machine_eps (prec : Z) : spec_float := S754_finite false (Z.to_pos (2 ^ (prec - 1))) (2 - 2 * prec).

(** A section of floats within [e] of a section of reals: coefficients finite and close,
    the leading coefficient of the denominator exact, delays zero. *)
Definition sos_within (prec emax : Z) (e : R) (s : Sos spec_float) (t : Sos R) : Prop :=
  Forall (finite prec emax) (coefs s) /\ Forall2 (fun x y => Rabs (fval x - y) <= e) (coefs s) (coefs t) /\
  fval (a0 s) = a0 t /\ zi0 s = S754_zero false /\ zi1 s = S754_zero false.
