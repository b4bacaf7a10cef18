(** Specification of rounded Chebyshev II band-pass designs. *)
From Coq Require Import Reals Ratan List Permutation.
From Verif Require Import Base Num Trans M_Complex M_Filter M_Design Cx S_Design.
Import ListNotations.
Local Open Scope R_scope.

(** The same filter, its zeros and its poles each listed in another order; polynomial
    coefficients have one order only. *)
Definition upto_orders (h h' : @DigitalFilter R) : Prop :=
  match h, h' with
  | DZpk h, DZpk h' => Permutation (zk_z h) (zk_z h') /\ Permutation (zk_p h) (zk_p h') /\ zk_k h = zk_k h'
  | DBa h, DBa h' => h = h'
  | _, _ => False
  end.

(** The size of the real pole of the Chebyshev II prototype of odd order. *)
Definition cheb2_pole (order : nat) (rs : R) : R := 1 / sinh (arcsinh (sqrt (Rpower 10 (rs / 10) - 1)) / INR order).
