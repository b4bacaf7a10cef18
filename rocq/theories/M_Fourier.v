(** Model of sci-rs/src/signal/convolve.rs and resample.rs.  The external crate
    rustfft is a pair of parameters [fft], [ifft]; what is assumed of them is stated
    in the theorems.  No proofs in this file. *)
From Coq Require Import List Arith ZArith.
From Verif Require Import Base Num M_Linalg M_Complex.
Import ListNotations.

Inductive ConvolveMode := Full | Valid | Same.   (* convolve.rs:6-13 *)

(** [usize::next_power_of_two]. *)
Definition next_power_of_two (n : nat) : nat := 2 ^ Nat.log2_up n.

Section Fourier.
Context {F : Type} {NF : Num F}.
Variables fft ifft : list (cplx F) -> list (cplx F).
Local Open Scope num_scope.

(** [buf.iter_mut().zip(in.iter()).for_each(|(p, &v)| *p = Complex::new(v, 0))]. *)
Fixpoint copy_real (buf : list (cplx F)) (v : list F) : list (cplx F) :=
  match buf, v with
  | _ :: buf', x :: v' => (x, 0) :: copy_real buf' v'
  | _, _ => buf
  end.
(** Slicing [v[a..b]] (panics when out of range). *)
Definition slice {A} (v : list A) (a b : nat) : res (list A) :=
  if Nat.leb a b && Nat.leb b (length v) then Ok (firstn (b - a) (skipn a v)) else Panic.

(** convolve.rs:29-89 [fftconvolve]. *)
Definition fftconvolve (in1 in2 : list F) (mode : ConvolveMode) : res (list F) :=
  let n1 := length in1 in
  let n2 := length in2 in
  let! n := usub (n1 + n2) 1 in
  let fft_size := next_power_of_two n in
  let padded_in1 := copy_real (repeat czero fft_size) in1 in
  let padded_in2 := copy_real (repeat czero fft_size) in2 in
  let padded_in1 := fft padded_in1 in
  let padded_in2 := fft padded_in2 in
  let result_freq := map (fun p => cmul (fst p) (snd p)) (zip padded_in1 padded_in2) in
  let result_freq := ifft result_freq in
  let size := nofZ (Z.of_nat fft_size) in
  let full_convolution := map (fun x => cre x / size) (firstn n result_freq) in
  match mode with
  | Full => Ok full_convolution
  | Valid =>
      if Nat.leb n2 n1 then
        let! a := usub n2 1 in
        slice full_convolution a n1
      else Ok []
  | Same =>
      let! a := usub n2 1 in
      let start := (a / 2)%nat in
      slice full_convolution start (start + n1)
  end.
(** convolve.rs:100-102 [convolve]. *)
Definition convolve := fftconvolve.
(** convolve.rs:116-121 [correlate]. *)
Definition correlate (in1 in2 : list F) (mode : ConvolveMode) : res (list F) :=
  fftconvolve in1 (rev in2) mode.

(** [dst[a..].copy_from_slice(src)] and [dst[..b].copy_from_slice(src)] are the
    replacement of a block of [length src] elements at offset [a]; panics when the
    block is not exactly the destination slice. *)
Definition copy_at {A} (dst : list A) (a b : nat) (src : list A) : res (list A) :=
  if Nat.leb a b && Nat.leb b (length dst) && Nat.eqb (b - a) (length src)
  then Ok (firstn a dst ++ src ++ skipn b dst) else Panic.

(** resample.rs:19-60 [resample] (scratch buffers dropped). *)
Definition resample (x : list F) (n : nat) : res (list F) :=
  let X := fft (map (fun v => (v, 0)) x) in
  let y := repeat czero n in
  let bins := Nat.min (length X) n in
  let half_spectrum := (bins / 2)%nat in
  let! first := slice X 0 half_spectrum in
  let! y := copy_at y 0 half_spectrum first in
  let! off := usub n half_spectrum in
  let! xoff := usub (length X) half_spectrum in
  let! last := slice X xoff (length X) in
  let! y := copy_at y off (length y) last in
  let y := ifft y in
  let scale_factor := 1 / nofZ (Z.of_nat (length X)) in
  Ok (map (fun v => cre v * scale_factor) y).
End Fourier.
