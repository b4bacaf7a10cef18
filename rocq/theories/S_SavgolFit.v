(** Savitzky-Golay filtering as local least-squares fitting. *)
From Coq Require Import List Arith Reals.
From Verif Require Import Num M_Linalg Cx S_Stats S_Savgol RSum.
Local Open Scope R_scope.

(** The external solver returns, of all solutions, the one with the least sum of squares
    (what a solver by singular values returns for a consistent system). *)
Definition solver_least_norm (lstsq : mat R -> list R -> R -> option (list R)) (w po der : nat) (delta : R) : Prop :=
  forall A y eps, is_savgol_system w po der delta A y ->
  exists x, lstsq A y eps = Some x /\ solves A x y /\
    forall x', solves A x' y -> Rsum (map (fun v => v * v) x) <= Rsum (map (fun v => v * v) x').

(** The time of tap [k] of a window of [w] samples, relative to its centre. *)
Definition tap_time (w : nat) (delta : R) (k : nat) : R := (INR k - INR (w / 2)) * delta.
(** Sum of the squared deviations of the samples from the polynomial. *)
Definition deviation (w : nat) (delta : R) (s : nat -> R) (p : list R) : R :=
  rsum w (fun k => (s k - peval p (tap_time w delta k)) ^ 2).
(** [p] is a polynomial of degree at most [po] that fits the samples best. *)
Definition best_fit (w po : nat) (delta : R) (s : nat -> R) (p : list R) : Prop :=
  (length p <= po + 1)%nat /\ forall q, (length q <= po + 1)%nat -> deviation w delta s p <= deviation w delta s q.
