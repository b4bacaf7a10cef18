(** Model of sci-rs/src/signal/wave/mod.rs.  No proofs in this file. *)
From Coq Require Import List ZArith Reals SpecFloat.
From Verif Require Import Base Num Trans.
Import ListNotations.

Section Wave.
Context {F : Type} {NF : Num F}.
(** [F::two_pi()] and the remainder operator [%]. *)
Variables (two_pi : F) (rem : F -> F -> F).
(** Are [debug_assert!]s compiled in? *)
Variable debug : bool.
Local Open Scope num_scope.

(** wave/mod.rs:61-70, the closure given to [mapv]. *)
Definition square_at (duty_threshold t : F) : res F :=
  let x := rem t two_pi in
  let x := if x <? 0 then x + two_pi else x in
  let! _ := rassert (negb debug || ((0 <=? x) && (x <=? two_pi))) in
  Ok (if x <? duty_threshold then 1 else - (1)).
(** wave/mod.rs:53-72 [square].  The n-dimensional array is its list of elements:
    [mapv] works element by element and keeps the shape. *)
Definition square (t : list F) (duty : F) : res (list F) :=
  let! _ := rassert ((0 <=? duty) && (duty <=? 1)) in
  let duty_threshold := two_pi * duty in
  rmap (square_at duty_threshold) t.
End Wave.

(** Rust's [%]: the remainder of the division truncated towards zero. *)
Definition Rtrunc (x : R) : R := if Rle_dec 0 x then IZR (Int_part x) else (- IZR (Int_part (- x)))%R.
Definition Rrem (a b : R) : R := (a - b * Rtrunc (a / b))%R.

(** [%] on IEEE floats is C's fmod, which is exact: the integer remainder of the
    significands at the common exponent, with the sign of the dividend. *)
Definition SFrem (prec emax : Z) (x y : spec_float) : spec_float :=
  match x, y with
  | S754_nan, _ | _, S754_nan | S754_infinity _, _ | _, S754_zero _ => S754_nan
  | S754_zero s, _ => S754_zero s
  | S754_finite _ _ _, S754_infinity _ => x
  | S754_finite s mx ex, S754_finite _ my ey =>
      let e := Z.min ex ey in
      let r := Z.modulo (Z.shiftl (Zpos mx) (ex - e)) (Z.shiftl (Zpos my) (ey - e)) in
      match r with
      | Z0 => S754_zero s
      | _ => binary_normalize prec emax (if s then - r else r)%Z e s
      end
  end.
(** f64::consts::PI * 2 = 0x1.921fb54442d18p+2. *)
Definition two_pi_f64 : spec_float := S754_finite false 7074237752028440 (-50).
(** f32::consts::PI * 2 = 0x1.921fb6p+2. *)
Definition two_pi_f32 : spec_float := S754_finite false 13176795 (-21).
Definition square_real := @square R RNum (2 * PI)%R Rrem.
Definition square_f64 := @square spec_float F64Num two_pi_f64 (SFrem 53 1024).
Definition square_f32 := @square spec_float F32Num two_pi_f32 (SFrem 24 128).
