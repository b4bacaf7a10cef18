(** Specification side of the rounding theorems of the derived statistics: the error terms
    of the mean, the variance, the standard deviation and the autocovariance. *)
From Coq Require Import Reals ZArith SpecFloat List.
From Verif Require Import S_Stats S_Float.
Import ListNotations.
Local Open Scope R_scope.

Section Errors.
Variables prec emax : Z.
Variable y : list spec_float.
Let g := 1 + uround prec.
Let tn := ftiny prec emax.
Let n := length y.
Let V := Rvar (map fval y).
(** bound of C73 *)
Definition mean_error : R := (g ^ n - 1) * Rmean (map (fun x => Rabs (fval x)) y) + tn.
(** bound of C74 *)
Definition var_error : R := (g ^ (n + 3) - 1) * (V + mean_error ^ 2) + mean_error ^ 2 + (g ^ n + 1) * tn.
(** relative form of the bound of C74 on the standard deviation *)
Definition stdev_error : R := g * (var_error / sqrt V) + uround prec * sqrt V.
(** sum over i of (y[i] - mean) (y[i+k] - mean), divided by n *)
Definition autocov_exact (k : nat) : R := lag_sum (map (fun x => fval x - Rmean (map fval y)) y) k / INR n.
Definition autocov_error : R := (g ^ (n + 4) - 1) * V + g ^ (n + 4) * (2 * mean_error * sqrt V + mean_error ^ 2 + 2 * tn).
(** the squared successive differences *)
Definition sq_diffs : list R :=
  map (fun i => (nth (S i) (map fval y) 0 - nth i (map fval y) 0) ^ 2) (seq 0 (n - 1)).
End Errors.
(** error of a square root of a value known up to [D] *)
Definition sqrt_error (prec : Z) (X D : R) : R := (1 + uround prec) * (D / sqrt X) + uround prec * sqrt X.
(** error of a quotient c / v of values known up to [dc] and [dv] *)
Definition quot_error (prec emax : Z) (c v dc dv : R) : R :=
  (1 + uround prec) * ((dc + Rabs (c / v) * dv) / (v - dv)) + uround prec * Rabs (c / v) + ftiny prec emax.
(** bounds of C75 on the median c and of C86 on the median absolute deviation D *)
Definition median_error (prec emax : Z) (c : R) : R := ((1 + uround prec) ^ 2 - 1) * Rabs c + ftiny prec emax.
Definition mad_error (prec emax : Z) (c D : R) : R :=
  let g := 1 + uround prec in (g ^ 3 - 1) * D + g ^ 3 * median_error prec emax c + ftiny prec emax.
