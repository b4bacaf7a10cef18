(** Specifications for Savitzky-Golay filtering. *)
From Coq Require Import List Arith Reals Factorial.
From Verif Require Import Num M_Linalg S_Stats.
Import ListNotations.

(** The sample the filter reads at output [i], tap [k] of a window of half-width [h]:
    index i + k - h clamped to 0 .. n-1 (natural subtraction stops at 0). *)
Definition clamped {F} {NF : Num F} (y : list F) (h i k : nat) : F :=
  nth (Nat.min (length y - 1) (i + k - h)) y nzero.

Local Open Scope R_scope.
(** A x = y. *)
Definition solves (A : mat R) (x y : list R) : Prop :=
  length x = ncols A /\
  forall i, (i < nrows A)%nat ->
    Rsum (map (fun j => ent A i j * nth j x 0) (seq 0 (ncols A))) = nth i y 0.
(** Window positions, centred on 0, in descending order. *)
Definition position (w j : nat) : R := (INR w - 1) / 2 - INR j.
(** The Savitzky-Golay system: the moments of order 0..po of the coefficients over
    the window positions vanish, except the der-th, which is der!/delta^der. *)
Definition is_savgol_system (w po der : nat) (delta : R) (A : mat R) (y : list R) : Prop :=
  nrows A = (po + 1)%nat /\ ncols A = w /\
  (forall i j, (i <= po)%nat -> (j < w)%nat -> ent A i j = position w j ^ i) /\
  length y = (po + 1)%nat /\
  (forall m, (m <= po)%nat -> nth m y 0 = if (m =? der)%nat then INR (fact der) / delta ^ der else 0).
(** What is assumed of the external least-squares solver: it solves this (always
    consistent) system exactly. *)
Definition solver_handles (lstsq : mat R -> list R -> R -> option (list R))
  (w po der : nat) (delta : R) : Prop :=
  forall A y eps, is_savgol_system w po der delta A y ->
  exists x, lstsq A y eps = Some x /\ solves A x y.

(** Polynomials as coefficient lists, constant term first. *)
Fixpoint peval (p : list R) (t : R) : R :=
  match p with [] => 0 | c :: p' => c + t * peval p' t end.
Fixpoint pderiv_from (k : R) (p : list R) : list R :=
  match p with [] => [] | c :: p' => k * c :: pderiv_from (k + 1) p' end.
(** Formal derivative. *)
Definition pderiv (p : list R) : list R := match p with [] => [] | _ :: p' => pderiv_from 1 p' end.
Fixpoint pderivs (n : nat) (p : list R) : list R :=
  match n with O => p | S k => pderivs k (pderiv p) end.
