(** Infinities and NaN. *)
From Coq Require Import List SpecFloat.
From Verif Require Import Num M_Filter.
Import ListNotations.

(** Neither a zero nor a finite number. *)
Definition not_finite (v : spec_float) : Prop := v = S754_nan \/ exists s, v = S754_infinity s.
(** Sections whose delays all are infinite or NaN. *)
Definition poisoned (sections : list (Sos spec_float)) : Prop := Forall (fun s => not_finite (zi0 s) /\ not_finite (zi1 s)) sections.
