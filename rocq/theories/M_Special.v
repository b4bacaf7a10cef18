(** Model of sci-rs/src/special/factorial.rs and special/combinatorics.rs.
    No proofs in this file.  [md]: overflow mode, [pw]: pointer width,
    [t]: the primitive integer type. *)
From Coq Require Import List ZArith Bool.
From Verif Require Import Base MachInt.
Import ListNotations.
Local Open Scope Z_scope.

(** factorial.rs:142-161 *)
Definition FACTORIAL_CACHE_LEN : Z := 17.
Definition FACTORIAL_CACHE : list Z :=
  [1; 1; 2; 6; 24; 120; 720; 5040; 40320; 362880; 3628800; 39916800; 479001600;
   6227020800; 87178291200; 1307674368000; 20922789888000].

(** factorial.rs:199-234 *)
Definition FACTORIAL2_CACHE_LEN : Z := 33.
Definition FACTORIAL2_CACHE : list Z :=
  [1; 1; 2; 3; 8; 15; 48; 105; 384; 945; 3840; 10395; 46080; 135135; 645120; 2027025;
   10321920; 34459425; 185794560; 654729075; 3715891200; 13749310575; 81749606400;
   316234143225; 1961990553600; 7905853580625; 51011754393600; 213458046676875;
   1428329123020800; 6190283353629375; 42849873690624000; 191898783962510625;
   1371195958099968000].

Section Int.
Variables (md : mode) (pw : Z) (t : ity).

(** factorial.rs:283-286, the [while] loop: one unit of fuel per iteration. *)
Fixpoint pp_loop (fuel : nat) (result start stop step : Z) : res Z :=
  match fuel with
  | O => OutOfFuel
  | S f =>
    if start <=? stop then
      let! result := imul md t result start in
      let! start := iadd md t start step in
      pp_loop f result start stop step
    else Ok result
  end.

(** factorial.rs:265-288 [partial_product]. *)
Definition partial_product (fuel : nat) (start stop step : Z) : res Z :=
  let! _ := rassert (0 <? step) in
  let! _ := rassert (start <=? stop) in
  if step =? 1 then
    let! s := to_usize pw start in
    let! e := to_usize pw stop in
    let! e1 := iadd md (usize_t pw) e 1 in
    rfold (fun result n => let! v := from_usize t n in imul md t result v) (zrange s e1) 1
  else pp_loop fuel 1 start stop step.

(** factorial.rs:163-176 [primint_factorial]. *)
Definition primint_factorial (fuel : nat) (n : Z) : res Z :=
  if n <? 0 then Ok 0
  else
    let! len := from_usize t FACTORIAL_CACHE_LEN in
    if n <? len then
      let! i := to_usize pw n in
      let! v := index FACTORIAL_CACHE (Z.to_nat i) in
      from_u128 t v
    else
      let! c := index FACTORIAL_CACHE (Z.to_nat (FACTORIAL_CACHE_LEN - 1)) in
      let! v := from_u128 t c in
      let! s := from_usize t FACTORIAL_CACHE_LEN in
      let! p := partial_product fuel s n 1 in
      imul md t v p.

(** factorial.rs:178-197 [primint_factorial2].  [n & 1] is [Z.land n 1]. *)
Definition primint_factorial2 (fuel : nat) (n : Z) : res Z :=
  if n <? 0 then Ok 0
  else
    let! len := from_usize t FACTORIAL2_CACHE_LEN in
    if n <? len then
      let! i := to_usize pw n in
      let! v := index FACTORIAL2_CACHE (Z.to_nat i) in
      from_u128 t v
    else
      let! two := iadd md t 1 1 in
      if (Z.land n 1 =? 0) && negb (Z.land FACTORIAL2_CACHE_LEN 1 =? 0) then
        let! c := index FACTORIAL2_CACHE (Z.to_nat (FACTORIAL2_CACHE_LEN - 1)) in
        let! v := from_u128 t c in
        let! s := from_usize t (FACTORIAL2_CACHE_LEN + 1) in
        let! p := partial_product fuel s n two in
        imul md t v p
      else
        let! c := index FACTORIAL2_CACHE (Z.to_nat (FACTORIAL2_CACHE_LEN - 2)) in
        let! v := from_u128 t c in
        let! s := from_usize t FACTORIAL2_CACHE_LEN in
        let! p := partial_product fuel s n two in
        imul md t v p.

(** factorial.rs:236-256 [primint_factorialk]. *)
Definition primint_factorialk (fuel : nat) (n k : Z) : res Z :=
  let! _ := rassert (0 <? k) in
  if n <? 0 then Ok 0
  else if n =? 0 then Ok 1
  else
    let! q := idiv t n k in
    let! p := imul md t k q in
    let! start := isub md t n p in
    if start =? 0 then partial_product fuel k n k
    else partial_product fuel start n k.

(** combinatorics.rs:124-136 [primint_comb].  [nalgebra::min] of two values. *)
Definition primint_comb (n k : Z) : res Z :=
  if (n <? k) || (n <? 0) || (k <? 0) then Ok 0
  else
    let! m := iadd md t n 1 in
    let! nk := isub md t n k in
    let! r1 := iadd md t (Z.min k nk) 1 in
    let! n_terms := to_usize pw r1 in
    rfold (fun result i =>
             let! i1 := from_usize t i in
             let! d := isub md t m i1 in
             let! p := imul md t result d in
             let! i2 := from_usize t i in
             idiv t p i2) (zrange 1 n_terms) 1.

(** combinatorics.rs:138-146 [primint_comb_rep]. *)
Definition primint_comb_rep (n k : Z) : res Z :=
  let! s := iadd md t n k in
  if s =? 0 then Ok 0
  else
    let! s := iadd md t n k in
    let! s1 := isub md t s 1 in
    primint_comb s1 k.

(** combinatorics.rs:148-161 [primint_perm]. *)
Definition primint_perm (n k : Z) : res Z :=
  if (n <? k) || (n <? 0) || (k <? 0) then Ok 0
  else
    let! nk := isub md t n k in
    let! s := iadd md t nk 1 in
    let! start := to_usize pw s in
    let! e := iadd md t n 1 in
    let! fin := to_usize pw e in
    rfold (fun result v => let! v := from_usize t v in imul md t result v)
      (zrange start fin) 1.

(** combinatorics.rs:163-183 [primint_stirling2]: one unit of fuel per nested call. *)
Fixpoint primint_stirling2 (fuel : nat) (n k : Z) : res Z :=
  match fuel with
  | O => OutOfFuel
  | S f =>
    if (n <? 0) || (k <? 0) then Ok 0
    else if n <? k then Ok 0
    else if n =? k then Ok 1
    else if (k =? 0) || (n =? 0) then Ok 0
    else
      let! n1 := isub md t n 1 in
      let! a := primint_stirling2 f n1 k in
      let! ka := imul md t k a in
      let! n2 := isub md t n 1 in
      let! k2 := isub md t k 1 in
      let! b := primint_stirling2 f n2 k2 in
      iadd md t ka b
  end.
End Int.
