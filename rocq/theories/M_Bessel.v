(** Model of special/xsf/chbevl.rs, special/xsf/i0.rs and special/bessel.rs.
    No proofs in this file. *)
From Coq Require Import List ZArith QArith.
From Verif Require Import Base Num Trans.
Import ListNotations.

Section Bessel.
Context {F : Type} {NF : Num F} {TF : Trans F}.
Local Open Scope num_scope.

(** chbevl.rs:8-28 [chbevl]. *)
Definition chbevl_step (x : F) (acc : F * F * F) (e : F) : F * F * F :=
  let '(b0, b1, b2) := acc in (x * b0 - b1 + e, b0, b1).
Definition chbevl (x : F) (coef : list F) : F :=
  match coef with
  | [] => 0
  | c0 :: _ =>
      let '(b0, _, b2) := fold_left (chbevl_step x) coef (c0, 0, 0) in
      (b0 - b2) / nofZ 2
  end.

(** xsf/i0.rs:77-84 (f64) and 168-175 (f32) [Bessel::i0], with the tables as
    parameters. *)
Definition i0_gen (A B : list F) (self : F) : F :=
  let x := nabs self in
  if x <=? nofZ 8 then
    let y := x / nofZ 2 - nofZ 2 in
    texp x * chbevl y A
  else texp x * chbevl (nofZ 32 / x - nofZ 2) B / nsqrt x.
(** xsf/i0.rs:86-94 (f64) and 177-184 (f32) [Bessel::i0e]. *)
Definition i0e_gen (A B : list F) (self : F) : F :=
  let x := nabs self in
  if x <=? nofZ 8 then
    let y := x / nofZ 2 - nofZ 2 in
    chbevl y A
  else chbevl (nofZ 32 / x - nofZ 2) B / nsqrt x.
End Bessel.

(** bessel.rs:30-41 [impl Bessel for Vec<T>] and 44-55 [impl Bessel for ArrayD<T>]
    (an array is its elements in memory order; the shape is not modelled). *)
Definition bessel_vec {F} (f : F -> F) (v : list F) : list F := map f v.

(** Decimal literal [n * 10^-e]. *)
Definition dec (n : Z) (e : nat) : Q := Qmake n (Pos.pow 10 (Pos.of_nat e)).

(** xsf/i0.rs:10-41 [I0_A_F64]. *)
Definition I0_A_F64 : list Q :=
  [ dec (-441534164647933937950) 38;
    dec (333079451882223809783) 37;
    dec (-243127984654795469359) 36;
    dec (171539128555513303061) 35;
    dec (-116853328779934516808) 34;
    dec (767618549860493561688) 34;
    dec (-485644678311192946090) 33;
    dec (295505266312963983461) 32;
    dec (-172682629144155570723) 31;
    dec (967580903537323691224) 31;
    dec (-518979560163526290666) 30;
    dec (265982372468238665035) 29;
    dec (-130002500998624804212) 28;
    dec (604699502254191894932) 28;
    dec (-267079385394061173391) 27;
    dec (111738753912010371815) 26;
    dec (-441673835845875056359) 26;
    dec (164484480707288970893) 25;
    dec (-575419501008210370398) 25;
    dec (188502885095841655729) 24;
    dec (-576375574538582365885) 24;
    dec (163947561694133579842) 23;
    dec (-432430999505057594430) 23;
    dec (105464603945949983183) 22;
    dec (-237374148058994688156) 22;
    dec (493052842396707084878) 22;
    dec (-949010970480476444210) 22;
    dec (171620901522208775349) 21;
    dec (-304682672343198398683) 21;
    dec (676795274409476084995) 21 ].

(** xsf/i0.rs:48-74 [I0_B_F64]. *)
Definition I0_B_F64 : list Q :=
  [ dec (-723318048787475395456) 38;
    dec (-483050448594418207126) 38;
    dec (446562142029675999901) 37;
    dec (346122286769746109310) 37;
    dec (-282762398051658348494) 36;
    dec (-342548561967721913462) 36;
    dec (177256013305652638360) 35;
    dec (381168066935262242075) 35;
    dec (-955484669882830764870) 35;
    dec (-415056934728722208663) 34;
    dec (154008621752140982691) 34;
    dec (385277838274214270114) 33;
    dec (718012445138366623367) 33;
    dec (-179417853150680611778) 32;
    dec (-132158118404477131188) 31;
    dec (-314991652796324136454) 31;
    dec (118891471078464383424) 31;
    dec (494060238822496958910) 30;
    dec (339623202570838634515) 29;
    dec (226666899049817806459) 28;
    dec (204891858946906374183) 27;
    dec (289137052083475648297) 26;
    dec (688975834691682398426) 25;
    dec (336911647825569408990) 23;
    dec (804490411014108831608) 21 ].

(** xsf/i0.rs:101-132 [I0_A_F32]. *)
Definition I0_A_F32 : list Q :=
  [ dec (-441534164647933937950) 38;
    dec (333079451882223809783) 37;
    dec (-243127984654795469359) 36;
    dec (171539128555513303061) 35;
    dec (-116853328779934516808) 34;
    dec (767618549860493561688) 34;
    dec (-485644678311192946090) 33;
    dec (295505266312963983461) 32;
    dec (-172682629144155570723) 31;
    dec (967580903537323691224) 31;
    dec (-518979560163526290666) 30;
    dec (265982372468238665035) 29;
    dec (-130002500998624804212) 28;
    dec (604699502254191894932) 28;
    dec (-267079385394061173391) 27;
    dec (111738753912010371815) 26;
    dec (-441673835845875056359) 26;
    dec (164484480707288970893) 25;
    dec (-575419501008210370398) 25;
    dec (188502885095841655729) 24;
    dec (-576375574538582365885) 24;
    dec (163947561694133579842) 23;
    dec (-432430999505057594430) 23;
    dec (105464603945949983183) 22;
    dec (-237374148058994688156) 22;
    dec (493052842396707084878) 22;
    dec (-949010970480476444210) 22;
    dec (171620901522208775349) 21;
    dec (-304682672343198398683) 21;
    dec (676795274409476084995) 21 ].

(** xsf/i0.rs:139-165 [I0_B_F32]. *)
Definition I0_B_F32 : list Q :=
  [ dec (-723318048787475395456) 38;
    dec (-483050448594418207126) 38;
    dec (446562142029675999901) 37;
    dec (346122286769746109310) 37;
    dec (-282762398051658348494) 36;
    dec (-342548561967721913462) 36;
    dec (177256013305652638360) 35;
    dec (381168066935262242075) 35;
    dec (-955484669882830764870) 35;
    dec (-415056934728722208663) 34;
    dec (154008621752140982691) 34;
    dec (385277838274214270114) 33;
    dec (718012445138366623367) 33;
    dec (-179417853150680611778) 32;
    dec (-132158118404477131188) 31;
    dec (-314991652796324136454) 31;
    dec (118891471078464383424) 31;
    dec (494060238822496958910) 30;
    dec (339623202570838634515) 29;
    dec (226666899049817806459) 28;
    dec (204891858946906374183) 27;
    dec (289137052083475648297) 26;
    dec (688975834691682398426) 25;
    dec (336911647825569408990) 23;
    dec (804490411014108831608) 21 ].


Section I0.
Context {F : Type} {NF : Num F} {TF : Trans F}.
Definition i0_f64 : F -> F := i0_gen (map nofQ I0_A_F64) (map nofQ I0_B_F64).
Definition i0e_f64 : F -> F := i0e_gen (map nofQ I0_A_F64) (map nofQ I0_B_F64).
Definition i0_f32 : F -> F := i0_gen (map nofQ I0_A_F32) (map nofQ I0_B_F32).
Definition i0e_f32 : F -> F := i0e_gen (map nofQ I0_A_F32) (map nofQ I0_B_F32).
End I0.
