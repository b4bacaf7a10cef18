(** Specifications for convolution, correlation, resampling and the square wave. *)
From Coq Require Import List Arith ZArith Reals.
From Verif Require Import Num M_Complex RSum Cx.
Import ListNotations.
Local Open Scope R_scope.

(** What is assumed of the external FFT crate (rustfft), in exact arithmetic: the
    transforms keep the length and are the unnormalised discrete Fourier sums
    X_k = sum_j x_j exp(-2 pi i j k / N)   and   x_j = sum_k X_k exp(+2 pi i j k / N).
    [W N m] is exp(2 pi i m / N). *)
Definition is_fft (fft : list C -> list C) : Prop := forall l,
  length (fft l) = length l /\
  forall k, (k < length l)%nat ->
    nth k (fft l) C0 = csum (length l) (fun j => cmul (nth j l C0) (W (length l) (- (Z.of_nat j * Z.of_nat k)))).
Definition is_ifft (ifft : list C -> list C) : Prop := forall l,
  length (ifft l) = length l /\
  forall k, (k < length l)%nat ->
    nth k (ifft l) C0 = csum (length l) (fun j => cmul (nth j l C0) (W (length l) (Z.of_nat j * Z.of_nat k))).

(** A signal read at any integer position, zero outside. *)
Definition at_ (x : list R) (i : Z) : R := if (i <? 0)%Z then 0 else nth (Z.to_nat i) x 0.
(** Linear convolution: (x * y)[i] = sum_j x[j] y[i-j]. *)
Definition convolution (x y : list R) (i : nat) : R :=
  rsum (length x) (fun j => at_ x (Z.of_nat j) * at_ y (Z.of_nat i - Z.of_nat j)).
(** Cross-correlation at output index k: sum_i x[i] y[i - k + len(y) - 1]. *)
Definition correlation (x y : list R) (k : nat) : R :=
  rsum (length x) (fun i => at_ x (Z.of_nat i) * at_ y (Z.of_nat i - Z.of_nat k + Z.of_nat (length y) - 1)).

(** Dirichlet-type kernel over the frequencies -h .. h-1. *)
Definition kernel (h : nat) (u : R) : R :=
  rsum (2 * h) (fun k => cos (2 * PI * ((INR k - INR h) * u))).
