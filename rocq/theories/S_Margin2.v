(** Specification for C118: when the zeros and poles of a digital Chebyshev II design are certainly
    clear of the tolerance with which the code tells real roots from complex ones. *)
From Coq Require Import Reals List Arith.
From Verif Require Import Base Num Trans M_Design S_Design S_Margin.
Import ListNotations.
Local Open Scope R_scope.

(** [N] is the order, [wn] the critical frequencies in units of Nyquist; the prototype's poles
    are the inverses of (- sh cos phi, - ch sin phi), its zeros i / sin phi.  So the poles of the low-pass
    are placed like those of a Chebyshev I high-pass, and those of the band-pass like those of a
    band-stop.  The zeros of the low-pass need nothing more, those of the band-pass another
    inequality in the warped centre m and width b. *)
Definition clear_of_tolerance2 (epsilon : R) (bt : FilterBandType) (N : nat) (ch sh : R) (wn : list R) : Prop :=
  let T0 := tan (PI * nth 0 wn 0 / 2) in
  let T1 := tan (PI * nth 1 wn 0 / 2) in
  let m := sqrt (T0 * T1) in
  let b := T1 - T0 in
  match bt with
  | Lowpass => clear_of_tolerance epsilon Highpass N ch sh wn
  | Bandpass => clear_of_tolerance epsilon Bandstop N ch sh wn /\
                100 * epsilon * (1 + m + b * INR N) ^ 2 * (m + b * INR N) ^ 2 < 2 * b * m ^ 2
  | _ => False
  end.

(** The ellipse of the inverse poles, for order N and attenuation rs in dB: sinh and cosh of
    arsinh(sqrt(10^(rs/10) - 1)) / N. *)
Definition cheb2_axis (N : nat) (rs : R) : R := arcsinh (sqrt (Rpower 10 (rs / 10) - 1)) / INR N.
