(** Periodic signals: finite sums of sinusoids over one period, and their samples. *)
From Coq Require Import Reals List.
Import ListNotations.
Local Open Scope R_scope.

(** A component (f, A, phi) is the sinusoid with f cycles per period, amplitude A and phase phi. *)
Definition trig (g : list (nat * R * R)) (t : R) : R :=
  fold_right (fun c s => snd (fst c) * cos (2 * PI * (INR (fst (fst c)) * t) + snd c) + s) 0 g.
(** n samples of one period, at the times 0, 1/n, ..., (n-1)/n. *)
Definition samples (n : nat) (g : R -> R) : list R := map (fun j => g (INR j / INR n)) (seq 0 n).
(** All frequencies are below h. *)
Definition below (h : nat) (g : list (nat * R * R)) : Prop := Forall (fun c => (fst (fst c) < h)%nat) g.
