(** Convolution with a symmetric kernel. *)
From Coq Require Import List Reals.
From Verif Require Import RSum.
Import ListNotations.
Local Open Scope R_scope.

(** The distance of two sample positions. *)
Definition dist (n j : nat) : nat := ((n - j) + (j - n))%nat.
(** sum_j x_j r(|n - j|): the kernel r applied to the signal around position n. *)
Definition symmetric_convolution (r : nat -> R) (x : list R) (n : nat) : R := rsum (length x) (fun j => nth j x 0 * r (dist n j)).
