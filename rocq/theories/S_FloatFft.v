(** Specification side of the rounding theorems for convolution: what is assumed of the
    external FFT crate at floats. *)
From Coq Require Import Reals ZArith SpecFloat List.
From Verif Require Import Num M_Complex RSum Cx S_Stats S_Float.
Import ListNotations.
Local Open Scope R_scope.

(** A complex float: both parts finite; the complex number it stands for. *)
Definition cfinite (prec emax : Z) (z : cplx spec_float) : Prop := finite prec emax (cre z) /\ finite prec emax (cim z).
Definition cval (z : cplx spec_float) : C := (fval (cre z), fval (cim z)).
(** Sum of the magnitudes of all real and imaginary parts. *)
Definition csize (l : list (cplx spec_float)) : R := Rsum (map (fun z => Rabs (fval (cre z)) + Rabs (fval (cim z))) l).
(** The exact Fourier sum: sum_j l_j exp(sg 2 pi i j k / N), sg = -1 forward and 1 backward. *)
Definition dft_at (sg : Z) (l : list C) (k : nat) : C :=
  csum (length l) (fun j => cmul (nth j l C0) (W (length l) (sg * (Z.of_nat j * Z.of_nat k)))).
(** A transform at floats with relative error [eta], absolute error [tau] (underflow) and no
    overflow for inputs up to [cap]: finite inputs give as many finite outputs, every part
    within eta times the size of the input, plus tau, of the exact sum. *)
Definition fft_within (prec emax sg : Z) (eta tau cap : R) (fft : list (cplx spec_float) -> list (cplx spec_float)) : Prop :=
  forall l, Forall (cfinite prec emax) l -> csize l <= cap ->
  length (fft l) = length l /\
  forall k, (k < length l)%nat ->
    let z := nth k (fft l) (S754_zero false, S754_zero false) in
    cfinite prec emax z /\
    Rabs (fval (cre z) - cre (dft_at sg (map cval l) k)) <= eta * csize l + tau /\
    Rabs (fval (cim z) - cim (dft_at sg (map cval l) k)) <= eta * csize l + tau.
