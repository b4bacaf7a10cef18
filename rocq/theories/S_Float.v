(** Specification side of the rounding theorems: what number a float stands for, and the
    three constants of a binary format.  Independent of the model and of any library
    beyond the standard one. *)
From Coq Require Import Reals ZArith SpecFloat List.
From Verif Require Import M_Filter.
Import ListNotations.
Local Open Scope R_scope.

(** The number represented by a float (0 for infinities and NaN, which the theorems
    exclude by [finite]). *)
Definition fval (x : spec_float) : R :=
  match x with
  | S754_finite s m e => (if s then -1 else 1) * IZR (Zpos m) * powerRZ 2 e
  | _ => 0
  end.
(** A float of the format with [prec] significant bits and exponents below [emax]
    (f32: 24, 128; f64: 53, 1024), neither infinite nor NaN. *)
Definition finite (prec emax : Z) (x : spec_float) : Prop :=
  valid_binary prec emax x = true /\
  match x with S754_zero _ | S754_finite _ _ _ => True | _ => False end.
(** Unit roundoff, largest finite number, half of the smallest positive number. *)
Definition uround (prec : Z) : R := powerRZ 2 (- prec).
Definition fmax (prec emax : Z) : R := (powerRZ 2 prec - 1) * powerRZ 2 (emax - prec).
Definition ftiny (prec emax : Z) : R := powerRZ 2 (3 - emax - prec) / 2.

(** Second-order sections of floats: their values, and all entries finite. *)
Definition sos_val (s : Sos spec_float) : Sos R :=
  mkSos (fval (b0 s)) (fval (b1 s)) (fval (b2 s)) (fval (a0 s)) (fval (a1 s)) (fval (a2 s)) (fval (zi0 s)) (fval (zi1 s)).
Definition finite_sos (prec emax : Z) (s : Sos spec_float) : Prop :=
  Forall (finite prec emax) [b0 s; b1 s; b2 s; a1 s; a2 s; zi0 s; zi1 s].
