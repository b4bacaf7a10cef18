(** Zeros, poles and gain at a floating-point format, read as reals. *)
From Coq Require Import Reals ZArith SpecFloat List.
From Verif Require Import Base Num M_Complex M_Design Cx S_Float S_FloatFft.
Import ListNotations.
Local Open Scope R_scope.

(** The reals a filter's zeros, poles and gain stand for. *)
Definition zpk_val (g : @ZpkFormatFilter spec_float) : @ZpkFormatFilter R :=
  mkZpk (map cval (zk_z g)) (map cval (zk_p g)) (fval (zk_k g)).
(** No NaN and no infinity in it. *)
Definition zpk_finite (prec emax : Z) (g : @ZpkFormatFilter spec_float) : Prop :=
  Forall (cfinite prec emax) (zk_z g) /\ Forall (cfinite prec emax) (zk_p g) /\ finite prec emax (zk_k g).
(** Two complex numbers whose parts are within [e] of each other. *)
Definition cwithin (e : R) (x y : C) : Prop := Rabs (fst x - fst y) <= e /\ Rabs (snd x - snd y) <= e.
(** As many zeros and poles, in the same order, each within [e]; and the gain. *)
Definition zpk_within (e : R) (g h : @ZpkFormatFilter R) : Prop :=
  Forall2 (cwithin e) (zk_z g) (zk_z h) /\ Forall2 (cwithin e) (zk_p g) (zk_p h) /\ Rabs (zk_k g - zk_k h) <= e.
