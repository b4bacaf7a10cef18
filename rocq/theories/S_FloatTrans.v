(** What is assumed of a floating-point library of elementary functions, and closeness of
    designed filters. *)
From Coq Require Import Reals ZArith SpecFloat List.
From Verif Require Import Base Num Trans M_Complex M_Design Cx S_Design S_Float S_FloatFft S_FloatZpk.
Import ListNotations.
Local Open Scope R_scope.

(** [g] computes [f] on [dom] up to [E] unit roundoffs, relative to [1 + |f|], as long as
    the value does not reach the largest finite number. *)
Definition accurate (prec emax : Z) (E : R) (g : spec_float -> spec_float) (f : R -> R) (dom : R -> Prop) : Prop :=
  forall x, finite prec emax x -> dom (fval x) -> 1 + Rabs (f (fval x)) <= fmax prec emax ->
    finite prec emax (g x) /\ Rabs (fval (g x) - f (fval x)) <= E * uround prec * (1 + Rabs (f (fval x))).

Definition anywhere (x : R) : Prop := True.
(** A library whose functions are accurate where the designs use them. *)
Record accurate_trans (prec emax : Z) (E : R) (T : Trans spec_float) : Prop := {
  acc_pi : finite prec emax (@tpi _ T) /\ Rabs (fval (@tpi _ T) - PI) <= E * uround prec;
  acc_exp : accurate prec emax E (@texp _ T) exp anywhere;
  acc_sin : accurate prec emax E (@tsin _ T) sin (fun x => Rabs x <= 2);
  acc_cos : accurate prec emax E (@tcos _ T) cos (fun x => Rabs x <= 2);
  acc_tan : accurate prec emax E (@ttan _ T) tan (fun x => 0 < x < PI / 2);
  acc_sinh : accurate prec emax E (@tsinh _ T) sinh anywhere;
  acc_cosh : accurate prec emax E (@tcosh _ T) cosh anywhere;
  acc_asinh : accurate prec emax E (@tasinh _ T) arcsinh anywhere;
  acc_powf : forall b, finite prec emax b -> 0 < fval b -> accurate prec emax E (@tpowf _ T b) (Rpower (fval b)) anywhere;
  acc_hypot : forall x, finite prec emax x -> accurate prec emax E (@thypot _ T x) (fun y => sqrt (fval x * fval x + y * y)) anywhere;
  acc_atan2 : forall x, finite prec emax x -> fval x <> 0 -> accurate prec emax E (fun y => @tatan2 _ T y x) (fun y => Ratan2 y (fval x)) (fun y => y <> 0);
  acc_sign : forall x, finite prec emax x -> fval x <> 0 -> @tsignpos _ T x = Rleb 0 (fval x)
}.

(** A filter computed in floats against one computed in the reals: same output format, as
    many zeros, poles or coefficients in the same order, all finite and within [e]. *)
Definition filter_within (prec emax : Z) (e : R) (f : @DigitalFilter spec_float) (h : @DigitalFilter R) : Prop :=
  match f, h with
  | DZpk f, DZpk h => zpk_finite prec emax f /\ zpk_within e (zpk_val f) h
  | DBa f, DBa h =>
      Forall (finite prec emax) (ba_b f) /\ Forall (finite prec emax) (ba_a f) /\
      Forall2 (fun x y => Rabs (fval x - y) <= e) (ba_b f) (ba_b h) /\
      Forall2 (fun x y => Rabs (fval x - y) <= e) (ba_a f) (ba_a h)
  | _, _ => False
  end.

(** The float [a] represents the real [b]. *)
Definition reads (prec emax : Z) (a : spec_float) (b : R) : Prop := finite prec emax a /\ fval a = b.
Definition reads_opt (prec emax : Z) (a : option spec_float) (b : option R) : Prop :=
  match a, b with Some a, Some b => reads prec emax a b | None, None => True | _, _ => False end.

(** A band edge the design accepts: positive, and below half the sampling rate for digital
    filters; [fs] can be given for digital filters only. *)
Definition valid_edge (analog : bool) (w : R) (fs : option R) : Prop :=
  match fs with
  | Some s => analog = false /\ 0 < s /\ 0 < 2 * w / s < 1
  | None => 0 < w /\ (analog = false -> w < 1)
  end.

(** The poles the floats stand for are all stable. *)
Definition float_stable (analog : bool) (f : @DigitalFilter spec_float) : Prop :=
  match f with DZpk f => if analog then stable_analog (zpk_val f) else stable_digital (zpk_val f) | _ => False end.
