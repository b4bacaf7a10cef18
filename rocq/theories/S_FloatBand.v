(** Specification of rounded band-pass and band-stop designs. *)
From Coq Require Import Reals Ratan ZArith SpecFloat List Bool Permutation.
From Verif Require Import Base Num Trans M_Complex M_Filter M_Design Cx S_Design S_Float S_FloatTrans.
Import ListNotations.
Local Open Scope R_scope.

(** The same filter, its poles listed in another order; polynomial coefficients have one
    order only. *)
Definition upto_order (h h' : @DigitalFilter R) : Prop :=
  match h, h' with
  | DZpk h, DZpk h' => zk_z h = zk_z h' /\ Permutation (zk_p h) (zk_p h') /\ zk_k h = zk_k h'
  | DBa h, DBa h' => h = h'
  | _, _ => False
  end.

(** Two band edges the design accepts. *)
Definition valid_band (analog : bool) (w0 w1 : R) (fs : option R) : Prop :=
  valid_edge analog w0 fs /\ valid_edge analog w1 fs /\ w0 < w1.

(** The edge of the analog filter that is designed: digital edges are normalised to half
    the sampling rate and pre-warped. *)
Definition edge_freq (analog : bool) (w : R) (fs : option R) : R :=
  let x := match fs with Some s => 2 * w / s | None => w end in
  if analog then x else 4 * tan (PI * x / 2).

(** A real pole -A of the prototype becomes a double pole of the band filter: the two
    roots of s^2 + A (W1 - W0) s + W0 W1, or of A s^2 + (W1 - W0) s + A W0 W1, coincide. *)
Definition double_pole (bt : FilterBandType) (A W0 W1 : R) : Prop :=
  match bt with
  | Bandpass => (A * (W1 - W0)) * (A * (W1 - W0)) = 4 * (W0 * W1)
  | _ => (W1 - W0) * (W1 - W0) = 4 * (A * A) * (W0 * W1)
  end.

(** The size of the real pole of the Chebyshev I prototype of odd order. *)
Definition cheb_pole (order : nat) (rp : R) : R := sinh (arcsinh (1 / sqrt (Rpower 10 (rp / 10) - 1)) / INR order).
