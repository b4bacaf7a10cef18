(** What "follows the recent signal" means: an envelope, that is a bound that may fall from one
    sample to the next, but at most by a fixed factor. *)
From Coq Require Import Reals ZArith SpecFloat List.
From Verif Require Import S_Float.
Import ListNotations.
Local Open Scope R_scope.

(** [e] bounds the signal [x] sample by sample, and falls by a factor of at most [rho] per
    sample. *)
Definition envelope (rho : R) (e : nat -> R) (x : list spec_float) : Prop :=
  (forall n, 0 <= e n /\ rho * e n <= e (S n)) /\
  (forall n, (n < length x)%nat -> Rabs (fval (nth n x (S754_zero false))) <= e n).
