(** The energy of a signal. *)
From Coq Require Import List Reals.
From Verif Require Import Base Num M_Filter.
Import ListNotations.
Local Open Scope R_scope.

(** The sum of the squares of the samples. *)
Definition energy (x : list R) : R := fold_right (fun v s => v ^ 2 + s) 0 x.
(** Its root, the length of the signal as a vector. *)
Definition norm2 (x : list R) : R := sqrt (energy x).
(** g is the energy gain of the sections: sosfilt multiplies the root energy of every signal
    by at most g, and g is the smallest number with that property. *)
Definition energy_gain (l : list (Sos R)) (g : R) : Prop :=
  forall G, 0 <= G -> ((forall x, exists y l', sosfilt_dyn x l = Ok (y, l') /\ length y = length x /\ energy y <= G ^ 2 * energy x) <-> g <= G).
