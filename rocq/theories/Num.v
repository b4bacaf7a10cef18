(** Number types.

    sci-rs is generic over the sample type ([F: Float], [F: Num], [F: RealField] ...).
    [Num F] collects the operations the modelled code uses, *without any law*:
    a theorem proved for every [Num F] therefore holds for IEEE floats bit for bit. *)
From Coq Require Import Reals QArith Qreals SpecFloat.
From Coq Require Import List Arith ZArith Bool Lia.
From Verif Require Import Base.

Class Num (F : Type) : Type := {
  nzero : F;                  (* T::zero(), Default::default() *)
  none : F;                   (* T::one() *)
  nadd : F -> F -> F;
  nsub : F -> F -> F;
  nmul : F -> F -> F;
  ndiv : F -> F -> F;
  nneg : F -> F;
  nabs : F -> F;
  nsqrt : F -> F;
  nltb : F -> F -> bool;      (* < ; a > b is nltb b a *)
  nleb : F -> F -> bool;      (* <= *)
  neqb : F -> F -> bool;      (* == *)
  nofZ : Z -> F;              (* F::from(integer).unwrap(), integer literals *)
  nofQ : Q -> F;              (* decimal literals *)
  nsum0 : F                   (* start value of Iterator::sum: 0.0, or -0.0 since Rust 1.83 *)
}.

Declare Scope num_scope.
Delimit Scope num_scope with num.
Infix "+" := nadd : num_scope.
Infix "-" := nsub : num_scope.
Infix "*" := nmul : num_scope.
Infix "/" := ndiv : num_scope.
Notation "- x" := (nneg x) : num_scope.
Notation "a <? b" := (nltb a b) : num_scope.
Notation "a <=? b" := (nleb a b) : num_scope.
Notation "a =? b" := (neqb a b) : num_scope.
Notation "0" := nzero : num_scope.
Notation "1" := none : num_scope.

(** [Iterator::sum::<F>()]: left fold from the type's start value. *)
Definition nsum {F} {NF : Num F} (l : list F) : F := fold_left nadd l nsum0.

(** Exact real arithmetic. *)
Definition Rltb (a b : R) : bool := if Rlt_dec a b then true else false.
Definition Rleb (a b : R) : bool := if Rle_dec a b then true else false.
Definition Reqb (a b : R) : bool := if Req_EM_T a b then true else false.

#[export] Instance RNum : Num R := {|
  nzero := 0%R; none := 1%R;
  nadd := Rplus; nsub := Rminus; nmul := Rmult; ndiv := Rdiv; nneg := Ropp;
  nabs := Rabs; nsqrt := sqrt;
  nltb := Rltb; nleb := Rleb; neqb := Reqb;
  nofZ := IZR; nofQ := Q2R; nsum0 := 0%R
|}.

(** Exact rationals: executable; no square root (identity is used as a
    placeholder, and no theorem or example uses it). *)
Definition QNum : Num Q := {|
  nzero := 0%Q; none := 1%Q;
  nadd := fun a b => Qred (a + b); nsub := fun a b => Qred (a - b);
  nmul := fun a b => Qred (a * b); ndiv := fun a b => Qred (a / b);
  nneg := Qopp; nabs := Qabs.Qabs; nsqrt := fun x => x;
  nltb := fun a b => match Qcompare a b with Lt => true | _ => false end;
  nleb := Qle_bool; neqb := Qeq_bool;
  nofZ := inject_Z; nofQ := fun q => q; nsum0 := 0%Q
|}.

(** IEEE 754 binary floats, round to nearest even, via the standard library's
    executable specification (no axioms, no primitive floats).
    [szero] is the sign of the start value of [sum].  A decimal literal is correctly
    rounded: [SFdiv] rounds the quotient of two integers of any size once. *)
Definition SFNum (prec emax : Z) (szero : bool) : Num spec_float :=
  let ofZ z := binary_normalize prec emax z 0 false in
  {|
  nzero := S754_zero false; none := ofZ 1%Z;
  nadd := SFadd prec emax; nsub := SFsub prec emax;
  nmul := SFmul prec emax; ndiv := SFdiv prec emax;
  nneg := SFopp; nabs := SFabs; nsqrt := SFsqrt prec emax;
  nltb := SFltb; nleb := SFleb; neqb := SFeqb;
  nofZ := ofZ;
  nofQ := fun q =>
    let d := S754_finite false (Qden q) 0 in
    match Qnum q with
    | Z0 => S754_zero false
    | Zpos m => SFdiv prec emax (S754_finite false m 0) d
    | Zneg m => SFdiv prec emax (S754_finite true m 0) d
    end;
  nsum0 := S754_zero szero
|}.
Definition F32Num : Num spec_float := SFNum 24 128 true.
Definition F64Num : Num spec_float := SFNum 53 1024 true.
