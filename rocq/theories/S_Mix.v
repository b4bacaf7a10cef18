(** Sums of tones through sections of floats: every tone is changed on its own. *)
From Coq Require Import Reals ZArith SpecFloat List.
From Verif Require Import Base Num M_Filter S_Float.
Import ListNotations.
Local Open Scope R_scope.

(** A tone: amplitude A, angular frequency theta (radians per sample), phase phi. *)
Record tone := mkTone { t_amp : R; t_freq : R; t_phase : R }.
(** The angle of a tone at sample n. *)
Definition angle (t : tone) (n : nat) : R := t_freq t * INR n + t_phase t.
(** Sample n of the sum of tones. *)
Definition mix (ts : list tone) (n : nat) : R := fold_right (fun t s => t_amp t * cos (angle t n) + s) 0 ts.
(** The same after every tone has been multiplied by the complex response (re, im) of its
    frequency: the real part of (re + i im) A exp (i angle). *)
Definition mix_response (resp : R -> R * R) (ts : list tone) (n : nat) : R :=
  fold_right (fun t s => t_amp t * (fst (resp (t_freq t)) * cos (angle t n) - snd (resp (t_freq t)) * sin (angle t n)) + s) 0 ts.
(** The same after every tone has been multiplied by a real gain of its frequency. *)
Definition mix_gain (g : R -> R) (ts : list tone) (n : nat) : R :=
  fold_right (fun t s => t_amp t * g (t_freq t) * cos (angle t n) + s) 0 ts.
(** The sum of the amplitudes, a bound of the samples. *)
Definition total (ts : list tone) : R := fold_right (fun t s => t_amp t + s) 0 ts.

(** Every float signal whose samples stay within d of a sum of tones, not near the overflow
    threshold, is filtered without overflow, and what comes out is the sum of the tones
    each changed by the response of its own frequency, up to K times: the rounding unit
    relative to the amplitudes, plus d, plus the smallest positive float, plus a transient
    that decays like rho^n. *)
Definition mixture_passes (prec emax : Z) (szero : bool) (K rho : R) (resp : R -> R * R) (sections : list (@Sos spec_float)) : Prop :=
  forall ts d x, Forall (fun t => 0 <= t_amp t) ts -> 0 <= d -> Forall (finite prec emax) x ->
    (forall n, (n < length x)%nat -> Rabs (fval (nth n x (S754_zero false)) - mix ts n) <= d) ->
    K * (total ts + d + ftiny prec emax) <= fmax prec emax ->
    exists y sections', @sosfilt_dyn _ (SFNum prec emax szero) x sections = Ok (y, sections') /\ length y = length x /\ Forall (finite prec emax) y /\
      forall n, (n < length x)%nat ->
        Rabs (fval (nth n y (S754_zero false)) - mix_response resp ts n) <= K * (uround prec * total ts + d + ftiny prec emax + total ts * rho ^ n).

(** Zero-phase filtering: every tone is only scaled, by the gain of its own frequency, up
    to rounding, d and a transient that decays away from both ends. *)
Definition mixture_zero_phase (prec emax : Z) (szero : bool) (pad : nat) (K rho : R) (g : R -> R) (sections : list (@Sos spec_float)) : Prop :=
  forall ts d x, (pad < length x)%nat -> Forall (fun t => 0 <= t_amp t) ts -> 0 <= d -> Forall (finite prec emax) x ->
    (forall n, (n < length x)%nat -> Rabs (fval (nth n x (S754_zero false)) - mix ts n) <= d) ->
    K * (total ts + d + ftiny prec emax) <= fmax prec emax ->
    exists y, @sosfiltfilt_dyn _ (SFNum prec emax szero) x sections = Ok y /\ length y = length x /\ Forall (finite prec emax) y /\
      forall n, (n < length x)%nat ->
        Rabs (fval (nth n y (S754_zero false)) - mix_gain g ts n) <=
          K * (uround prec * total ts + d + ftiny prec emax + total ts * (rho ^ n + rho ^ (length x - 1 - n))).
