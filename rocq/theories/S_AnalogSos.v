(** Specification for C117: what the Sos output of an analog all-pole design (Butterworth,
    Chebyshev I) is, compared with its Zpk output, and a condition on the arguments under which no
    pole comes near the tolerance that tells real poles from complex ones. *)
From Coq Require Import Reals List Arith.
From Verif Require Import Base Num Trans Cx M_Complex M_Filter M_Design S_Filter S_Design.
Import ListNotations.
Local Open Scope R_scope.

(** [d] is a list of sections, half as many as [f] has poles (rounded up), fresh and with a0 = 1,
    whose transfer functions multiply to s^k times that of [f]. *)
Definition sections_of (d : res (@DigitalFilter R)) (f : @ZpkFormatFilter R) (k : nat) : Prop :=
  exists l, d = Ok (DSos l) /\ length l = ((length (zk_p f) + 1) / 2)%nat /\
    Forall (fun s => a0 s = 1 /\ zi0 s = 0 /\ zi1 s = 0) l /\
    forall s, s <> C0 -> ~ In s (zk_p f) -> sos_den l s <> C0 /\ (sos_num l s / sos_den l s)%C = (H f s * cpow s k)%C.

(** High-pass and band-stop: the filter.  Band-pass and low-pass of even order N: the filter
    times s^N.  Low-pass of odd order: a panic. *)
Definition analog_sections (bt : FilterBandType) (N : nat) (d : res (@DigitalFilter R)) (f : @ZpkFormatFilter R) : Prop :=
  match bt with
  | Highpass | Bandstop => sections_of d f 0
  | Bandpass => sections_of d f N
  | Lowpass => if Nat.even N then sections_of d f N else d = Panic
  end.

(** The prototype's poles are (- sh cos phi, - ch sin phi), sh = ch = 1 for Butterworth. *)
Definition analog_clear (epsilon : R) (bt : FilterBandType) (N : nat) (ch sh : R) (wn : list R) : Prop :=
  let m := sqrt (nth 0 wn 0 * nth 1 wn 0) in
  let b := nth 1 wn 0 - nth 0 wn 0 in
  let band (Q P r : R) :=
    100 * epsilon * (m + b * Q) ^ 3 < b * P * m ^ 2 /\
    (Nat.Odd N -> b * r < 2 * m -> 200 * epsilon * m < sqrt (4 * m ^ 2 - (b * r) ^ 2)) in
  match bt with
  | Lowpass | Highpass => 100 * epsilon * INR N * sh < ch
  | Bandpass => band ch (ch / INR N) sh
  | Bandstop => band (1 / sh) (1 / (INR N * ch)) (1 / sh)
  end.
