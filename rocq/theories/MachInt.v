(** Primitive Rust integers: ranges, checked/wrapping arithmetic, conversions. *)
From Coq Require Import ZArith Bool List.
From Verif Require Import Base.
Local Open Scope Z_scope.

(** A primitive integer type: width in bits and signedness. *)
Record ity := { bits : Z; signed : bool }.

Definition imin (t : ity) : Z := if signed t then - 2 ^ (bits t - 1) else 0.
Definition imax (t : ity) : Z := if signed t then 2 ^ (bits t - 1) - 1 else 2 ^ bits t - 1.
Definition in_range (t : ity) (z : Z) : bool := (imin t <=? z) && (z <=? imax t).

(** The twelve primitive integer types, for a target with [pw]-bit pointers
    (special/factorial.rs:140, special/combinatorics.rs:122). *)
Definition prim_types (pw : Z) : list ity :=
  List.flat_map (fun b => [ {| bits := b; signed := false |}; {| bits := b; signed := true |} ])
    [8; 16; 32; 64; 128; pw].
(** Pointer widths Rust supports. *)
Definition pointer_widths : list Z := [16; 32; 64].
Definition usize_t (pw : Z) : ity := {| bits := pw; signed := false |}.

Definition u8 := {| bits := 8; signed := false |}.
Definition i8 := {| bits := 8; signed := true |}.
Definition u32 := {| bits := 32; signed := false |}.
Definition i32 := {| bits := 32; signed := true |}.
Definition u64 := {| bits := 64; signed := false |}.
Definition i64 := {| bits := 64; signed := true |}.
Definition u128 := {| bits := 128; signed := false |}.
Definition i128 := {| bits := 128; signed := true |}.

(** Overflow behaviour: [Checked] = overflow-checks on (debug profile),
    [Wrapping] = overflow-checks off (release profile). *)
Inductive mode := Checked | Wrapping.

(** Two's complement reduction. *)
Definition wrap (t : ity) (z : Z) : Z :=
  if signed t then (z + 2 ^ (bits t - 1)) mod 2 ^ bits t - 2 ^ (bits t - 1)
  else z mod 2 ^ bits t.

Definition arith (md : mode) (t : ity) (z : Z) : res Z :=
  if in_range t z then Ok z
  else match md with Checked => Panic | Wrapping => Ok (wrap t z) end.

Definition iadd md t a b := arith md t (a + b).
Definition isub md t a b := arith md t (a - b).
Definition imul md t a b := arith md t (a * b).
(** Division truncates; by zero, or MIN / -1, it panics in both modes. *)
Definition idiv (t : ity) (a b : Z) : res Z :=
  if b =? 0 then Panic
  else if in_range t (Z.quot a b) then Ok (Z.quot a b) else Panic.

(** [Int::from_usize(n).unwrap()], [Int::from_u128(n).unwrap()],
    [x.to_usize().unwrap()]: panic when the value is not representable. *)
Definition convert (t : ity) (z : Z) : res Z := if in_range t z then Ok z else Panic.
Definition from_usize (t : ity) (z : Z) : res Z := convert t z.
Definition from_u128 (t : ity) (z : Z) : res Z := convert t z.
Definition to_usize (pw : Z) (z : Z) : res Z := convert (usize_t pw) z.
