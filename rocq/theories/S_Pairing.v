(** Specification of the "nearest" pairing of zeros and poles in second-order sections
    (SciPy's documentation of zpk2sos, to which zpk2sos.rs:20-24 refers). *)
From Coq Require Import List Reals.
From Verif Require Import Num M_Complex M_Filter Cx S_Design.
Import ListNotations.
Local Open Scope R_scope.

(** The roots of one section. *)
Record roots4 := mkRoots { pole1 : C; pole2 : C; zero1 : C; zero2 : C }.
Definition poles_of (g : roots4) : list C := [pole1 g; pole2 g].
Definition zeros_of (g : roots4) : list C := [zero1 g; zero2 g].
(** A section with these roots and leading numerator coefficient c, and zero state. *)
Definition has_roots (c : R) (s : Sos R) (g : roots4) : Prop :=
  a0 s = 1 /\ zi0 s = 0 /\ zi1 s = 0 /\ forall x,
    rpoly_at [b0 s; b1 s; b2 s] x = (RtoC c * ((x - zero1 g) * (x - zero2 g)))%C /\
    rpoly_at [a0 s; a1 s; a2 s] x = ((x - pole1 g) * (x - pole2 g))%C.
(** Distance from the unit circle, and between two points. *)
Definition circle_dist (q : C) : R := Rabs (1 - cnorm q).
Definition dist (q w : C) : R := cnorm (q - w)%C.
(** How bad a pole is: its distance from the boundary of stability, which is the unit circle
    for digital filters and the imaginary axis for analog ones. *)
Definition badness (analog : bool) (q : C) : R := if analog then Rabs (cre q) else circle_dist q.
(** Two real numbers, or a conjugate pair. *)
Definition real_pair (q w : C) : Prop := (cim q = 0 /\ cim w = 0) \/ (cim q <> 0 /\ w = cconj q).

(** The first pole of the last section is the worst (closest to the boundary) of all; its
    first zero is the closest to that pole; a real pole takes with it the next worst
    real pole, a real zero the real zero next closest to that
    pole.  The section before it is made the same way from what is left, and so on. *)
Definition chosen_from (analog : bool) (g : roots4) (poles zeros : list C) : Prop :=
  (forall r, In r poles -> badness analog (pole1 g) <= badness analog r) /\
  (forall r, In r poles -> cim (pole1 g) = 0 -> cim r = 0 -> badness analog (pole2 g) <= badness analog r) /\
  (forall r, In r zeros -> dist (zero1 g) (pole1 g) <= dist r (pole1 g)) /\
  (forall r, In r zeros -> cim (zero1 g) = 0 -> cim r = 0 -> dist (zero2 g) (pole1 g) <= dist r (pole1 g)).
Definition nearest_pairing (analog : bool) (gs : list roots4) : Prop :=
  (forall g, In g gs -> real_pair (pole1 g) (pole2 g) /\ real_pair (zero1 g) (zero2 g) /\
     badness analog (pole1 g) <= badness analog (pole2 g) /\ dist (zero1 g) (pole1 g) <= dist (zero2 g) (pole1 g)) /\
  (forall i j g h, (i < j)%nat -> nth_error gs i = Some g -> nth_error gs j = Some h -> chosen_from analog h (poles_of g) (zeros_of g)).
