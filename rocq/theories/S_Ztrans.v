(** The z-transform of a finite signal. *)
From Coq Require Import Reals List.
From Verif Require Import Num M_Complex Cx.
Local Open Scope R_scope.

(** x_0 + x_1 z + x_2 z^2 + ...: the polynomial with coefficients [x], lowest first; at z = exp(-i theta) the
    spectrum of the signal at the angle theta. *)
Definition ztrans (x : list R) (z : C) : C := csum (length x) (fun j => RtoC (nth j x 0) * cpow z j)%C.
