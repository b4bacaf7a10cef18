(** The frequency response of a filter given by its coefficients. *)
From Coq Require Import Reals List.
From Verif Require Import Base Num M_Complex M_Filter M_Design Cx S_Design.
Local Open Scope R_scope.

(** |B(e^(i theta)) / A(e^(i theta))|^2 *)
Definition ba_gain_sqr (b a : list R) (theta : R) : R :=
  cnorm_sqr (cdiv (rpoly_at b (cos theta, sin theta)) (rpoly_at a (cos theta, sin theta))).
(** The denominator has no root on or outside the unit circle. *)
Definition ba_stable (a : list R) : Prop := forall x, 1 <= cnorm x -> rpoly_at a x <> C0.
