(** Transcendental operations of the modelled code ([Float::exp], [Float::tan], ...),
    kept apart from [Num]: they have no executable IEEE specification, so nothing is
    assumed about them for floats (C102 takes their accuracy as a hypothesis, see
    S_FloatTrans.v); over the reals they are the standard library's. *)
From Coq Require Import Reals Ratan.
From Verif Require Import Num.

Class Trans (F : Type) : Type := {
  texp : F -> F;
  tsin : F -> F;
  tcos : F -> F;
  ttan : F -> F;
  tsinh : F -> F;
  tcosh : F -> F;
  tasinh : F -> F;
  tpowf : F -> F -> F;       (* base ^ exponent *)
  tpi : F;                   (* F::from(PI) *)
  thypot : F -> F -> F;      (* x.hypot(y) *)
  tatan2 : F -> F -> F;      (* y.atan2(x) *)
  tsignpos : F -> bool       (* x.is_sign_positive(): the sign bit, which tells 0.0 from -0.0 *)
}.

(** The angle of the point (x, y), in (-pi, pi]. *)
Definition Ratan2 (y x : R) : R :=
  if Rlt_dec 0 x then atan (y / x)
  else if Rlt_dec x 0 then if Rle_dec 0 y then (atan (y / x) + PI)%R else (atan (y / x) - PI)%R
  else if Rlt_dec 0 y then (PI / 2)%R else if Rlt_dec y 0 then (- (PI / 2))%R else 0%R.

(** Exact real functions; [PI] is taken as the number pi, not its float rounding. *)
#[export] Instance RTrans : Trans R := {|
  texp := exp; tsin := sin; tcos := cos; ttan := tan; tsinh := sinh; tcosh := cosh;
  tasinh := arcsinh; tpowf := Rpower; tpi := PI;
  thypot := fun x y => sqrt (x * x + y * y)%R; tatan2 := Ratan2; tsignpos := fun x => Rleb 0 x
|}.
