(** Complex numbers as [num_complex::Complex<F>] (re-exported by nalgebra): pairs
    (re, im) with the formulas of that crate.  No proofs in this file. *)
From Coq Require Import List.
From Verif Require Import Base Num.
From Verif Require Export Trans.

Definition cplx (F : Type) : Type := (F * F)%type.

Section Complex.
Context {F : Type} {NF : Num F}.
Local Open Scope num_scope.

Definition cre (z : cplx F) : F := fst z.
Definition cim (z : cplx F) : F := snd z.
Definition cofre (x : F) : cplx F := (x, 0).
Definition czero : cplx F := (0, 0).
Definition cone : cplx F := (1, 0).
Definition cadd (z w : cplx F) : cplx F := (cre z + cre w, cim z + cim w).
Definition csub (z w : cplx F) : cplx F := (cre z - cre w, cim z - cim w).
Definition cneg (z : cplx F) : cplx F := (- cre z, - cim z).
Definition cconj (z : cplx F) : cplx F := (cre z, - cim z).
Definition cmul (z w : cplx F) : cplx F :=
  (cre z * cre w - cim z * cim w, cre z * cim w + cim z * cre w).
Definition cnorm_sqr (z : cplx F) : F := cre z * cre z + cim z * cim z.
Definition cdiv (z w : cplx F) : cplx F :=
  let n := cnorm_sqr w in
  ((cre z * cre w + cim z * cim w) / n, (cim z * cre w - cre z * cim w) / n).
(** [z / x] for a real [x] ([Div<F>]). *)
Definition cdivr (z : cplx F) (x : F) : cplx F := (cre z / x, cim z / x).
Definition ceqb (z w : cplx F) : bool := (cre z =? cre w) && (cim z =? cim w).
(** [z.powi(2)]. *)
Definition csquare (z : cplx F) : cplx F := cmul z z.
(** [iter().product()] over complex numbers. *)
Definition cprod (l : list (cplx F)) : cplx F := fold_left cmul l cone.

Context {TF : Trans F}.
(** [z.abs()] = hypot. *)
Definition cnorm (z : cplx F) : F := thypot (cre z) (cim z).
(** [z.exp()] = e^re (cos im, sin im). *)
Definition cexp (z : cplx F) : cplx F := (texp (cre z) * tcos (cim z), texp (cre z) * tsin (cim z)).
(** [z.sqrt()]: special cases on the axes, which look at the sign bit of zeros, and the
    polar form everywhere else ([to_polar] is hypot and atan2, [from_polar] cos and sin).
    M_Design.v applies it where cplx.rs:75, lp2bp_zpk.rs:91,101 and lp2bs_zpk.rs:90,112 do. *)
Definition csqrt (z : cplx F) : cplx F :=
  let two := 1 + 1 in
  if cim z =? 0 then
    if tsignpos (cre z) then (nsqrt (cre z), cim z)
    else let im := nsqrt (- cre z) in (0, if tsignpos (cim z) then im else - im)
  else if cre z =? 0 then
    let x := nsqrt (nabs (cim z) / two) in (x, if tsignpos (cim z) then x else - x)
  else
    let r := nsqrt (thypot (cre z) (cim z)) in
    let theta := tatan2 (cim z) (cre z) / two in
    (r * tcos theta, r * tsin theta).
End Complex.
