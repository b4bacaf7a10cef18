(** Specifications for the stability theorems. *)
From Coq Require Import List Reals.
From Verif Require Import Num M_Complex M_Filter Cx S_Design.
Import ListNotations.
Local Open Scope R_scope.

(** Sum of the magnitudes of the delay values. *)
Definition state_size (l : list (Sos R)) : R := fold_right (fun s acc => Rabs (zi0 s) + Rabs (zi1 s) + acc) 0 l.
(** Normalised sections (a0 = 1), every root of whose denominators is inside the unit circle. *)
Definition stable_sections (l : list (Sos R)) : Prop :=
  Forall (fun s => a0 s = 1) l /\ forall x, sos_den l x = C0 -> cnorm_sqr x < 1.
(** The sampled sinusoid A cos(theta n + phi), n = 0 .. N-1. *)
Definition sinusoid (A theta phi : R) (N : nat) : list R := map (fun n => A * cos (theta * INR n + phi)) (seq 0 N).
(** In the steady state, sosfilt multiplies the amplitude of a sinusoid of angular frequency
    theta by g and advances its phase by psi: whatever the delay state of the
    sections, output minus ideal output dies out geometrically, at a rate [rho] that
    depends on the sections only. *)
Definition steady_response (l : list (Sos R)) (theta g psi : R) : Prop :=
  exists rho, 0 < rho < 1 /\ forall l0 A phi, map (fun s => (b0 s, b1 s, b2 s, a0 s, a1 s, a2 s)) l0 = map (fun s => (b0 s, b1 s, b2 s, a0 s, a1 s, a2 s)) l ->
  exists G, forall N, exists y l', sosfilt_dyn (sinusoid A theta phi N) l0 = Base.Ok (y, l') /\ length y = N /\
    forall n, (n < N)%nat -> Rabs (nth n y 0 - A * g * cos (theta * INR n + phi + psi)) <= G * rho ^ n.
