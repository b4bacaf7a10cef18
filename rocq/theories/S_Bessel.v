(** Specification for the Chebyshev evaluator: independent of the model. *)
From Coq Require Import List Reals.
Import ListNotations.
Local Open Scope R_scope.

(** Chebyshev polynomials of the first kind. *)
Fixpoint chebT (n : nat) (t : R) : R :=
  match n with
  | O => 1
  | S O => t
  | S (S m as k) => 2 * t * chebT k t - chebT m t
  end.
(** Coefficients in reverse order: the last one multiplies T_0, with weight 1/2. *)
Fixpoint chebyshev_series (coef : list R) (t : R) : R :=
  match coef with
  | [] => 0
  | [c] => c / 2
  | c :: l => c * chebT (length l) t + chebyshev_series l t
  end.

(** The modified Bessel function of the first kind of order zero, by its power series:
    [is_I0 x l] says that l = sum over k of ((x/2)^k / k!)^2. *)
Definition is_I0 (x l : R) : Prop := infinite_sum (fun k => ((x / 2) ^ k / INR (fact k)) ^ 2) l.
