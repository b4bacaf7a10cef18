(** Energy of a signal, and a pulse seen later, scaled and between zeros. *)
From Coq Require Import Reals List.
From Verif Require Import S_Stats.
Import ListNotations.
Local Open Scope R_scope.

Definition energy (x : list R) : R := Rsum (map (fun v => v * v) x).
(** [A] times the pulse [y], after [d] zeros and before [e] zeros. *)
Definition echo (d : nat) (A : R) (y : list R) (e : nat) : list R := repeat 0 d ++ map (fun v => A * v) y ++ repeat 0 e.
