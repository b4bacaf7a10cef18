(** Specification for C125: what the Sos output of an analog Chebyshev II low-pass or band-pass design
    is, compared with its Zpk output. *)
From Coq Require Import Reals List Arith.
From Verif Require Import Base Num Trans M_Filter M_Design S_Filter S_Design S_AnalogSos.

(** Even order: the filter.  Odd order: a panic for the low-pass; a panic or the filter
    times s for the band-pass. *)
Definition analog_sections2 (bt : FilterBandType) (N : nat) (d : res (@DigitalFilter R)) (f : @ZpkFormatFilter R) : Prop :=
  if Nat.even N then sections_of d f 0
  else match bt with Bandpass => d = Panic \/ sections_of d f 1 | _ => d = Panic end.

(** The prototype's poles are the inverses of those of a Chebyshev I prototype, so the poles of
    the band-pass are placed like those of a band-stop.  (The zeros are on the imaginary axis and
    never come near the tolerance.) *)
Definition analog_clear2 (epsilon : R) (bt : FilterBandType) (N : nat) (ch sh : R) (wn : list R) : Prop :=
  analog_clear epsilon (match bt with Bandpass => Bandstop | _ => Highpass end) N ch sh wn.
