(** Energies of filtered floating-point signals. *)
From Coq Require Import List ZArith Reals SpecFloat.
From Verif Require Import Base Num M_Filter S_Float S_Energy.
Import ListNotations.
Local Open Scope R_scope.

(** sosfilt with the sections gives finite output, and the root energy of the output exceeds
    that of the input at most by K (u X + tiny) per sample, in root mean square. *)
Definition energy_passes (prec emax : Z) (szero : bool) (K : R) (sections : list (Sos spec_float)) : Prop :=
  forall x X, Forall (finite prec emax) x -> 0 <= X -> Forall (fun v => Rabs (fval v) <= X) x -> K * (X + ftiny prec emax) <= fmax prec emax ->
  exists y sections', @sosfilt_dyn _ (SFNum prec emax szero) x sections = Ok (y, sections') /\
    length y = length x /\ Forall (finite prec emax) y /\
    norm2 (map fval y) <= norm2 (map fval x) + sqrt (INR (length x)) * (K * (uround prec * X + ftiny prec emax)).
