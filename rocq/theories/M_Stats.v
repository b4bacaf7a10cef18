(** Model of sci-rs/src/stats.rs.  No proofs in this file. *)
From Coq Require Import List Arith ZArith Bool QArith.
From Verif Require Import Base Num MachInt.
Import ListNotations.
Local Open Scope nat_scope.

Section Order.
Context {F : Type}.

(** stats.rs:10-44 [quickselect].  [ltb] is the type's [<]; [a > b] is [ltb b a]
    (both come from the same [PartialOrd]).  The recursion is fuelled; [OutOfFuel]
    is distinct from every real outcome. *)
Fixpoint quickselect (ltb : F -> F -> bool) (fuel : nat) (y : list F) (k : nat) : res F :=
  match fuel with
  | O => OutOfFuel
  | S fuel' =>
    let n := length y in
    if Nat.eqb n 1 then index y 0
    else
      let! pivot := unwrap (nth_error y (n / 2)) in
      let lower := filter (fun yi => ltb yi pivot) y in
      let lowers := length lower in
      let upper := filter (fun yi => ltb pivot yi) y in
      let uppers := length upper in
      let! p0 := usub n lowers in
      let! pivots := usub p0 uppers in
      if Nat.ltb k lowers then quickselect ltb fuel' lower k
      else if Nat.ltb k (lowers + pivots) then Ok pivot
      else
        let! k0 := usub k lowers in
        let! k1 := usub k0 pivots in
        quickselect ltb fuel' upper k1
  end.

(** stats.rs:82-106 [median], for any sample type: [half a b] is
    [(a + b) / T::from(2).unwrap()].  Fuel: one unit per recursive call of
    [quickselect]; [length y] units are supplied. *)
Definition median_gen (ltb : F -> F -> bool) (zero : F) (half : F -> F -> res F)
    (y : list F) : res (F * nat) :=
  let n := length y in
  let qs k := quickselect ltb n y k in
  if Nat.eqb n 0 then Ok (zero, 0)
  else if Nat.eqb n 1 then let! y0 := index y 0 in Ok (y0, 1)
  else if Nat.eqb (n mod 2) 1 then let! m := qs (n / 2) in Ok (m, n)
  else
    let! i := usub (n / 2) 1 in
    let! a := qs i in
    let! b := qs (n / 2) in
    let! m := half a b in
    Ok (m, n).
End Order.

(** stats.rs:82-106 [median] at a primitive integer type [t]: the addition is
    checked or wrapping according to [md]. *)
Definition median_int (md : mode) (t : ity) (y : list Z) : res (Z * nat) :=
  median_gen Z.ltb 0%Z
    (fun a b => let! s := iadd md t a b in let! two := from_usize t 2 in idiv t s two) y.

(** stats.rs:128-142 [mean] at a primitive integer type [t]. *)
Definition mean_int (md : mode) (t : ity) (y : list Z) : res (Z * nat) :=
  let! (s, c) := rfold (fun (acc : Z * nat) yi =>
                    let! s := iadd md t (fst acc) yi in Ok (s, S (snd acc)))
                  y (0%Z, 0) in
  if Nat.ltb 0 c then
    let! d := from_usize t (Z.of_nat c) in
    let! m := idiv t s d in Ok (m, c)
  else Ok (0%Z, 0).

Section Float.
Context {F : Type} {NF : Num F}.
Local Open Scope num_scope.

(** stats.rs:82-106 [median] at a float type. *)
Definition median (y : list F) : res (F * nat) :=
  median_gen nltb 0 (fun a b => Ok ((a + b) / nofZ 2)) y.

(** stats.rs:128-142 [mean]. *)
Definition mean (y : list F) : F * nat :=
  let '(sum, count) :=
    fold_left (fun (acc : F * nat) yi => (fst acc + yi, S (snd acc))) y (0, O) in
  if Nat.ltb 0%nat count then (sum / nofZ (Z.of_nat count), count) else (0, O).

(** stats.rs:161-179 [variance]. *)
Definition variance (y : list F) : F * nat :=
  let '(avg, n) := mean y in
  let sum := nsum (map (fun f => let delta := f - avg in delta * delta) y) in
  if Nat.ltb 0%nat n then (sum / nofZ (Z.of_nat n), n) else (0, O).

(** stats.rs:197-207 [stdev]. *)
Definition stdev (y : list F) : F * nat :=
  match variance y with
  | (_, O) => (0, O)
  | (v, n) => (nsqrt v, n)
  end.

(** stats.rs:215-231 [autocorr]. *)
Definition autocorr (y : list F) (k : nat) : F :=
  let '(avg, n) := mean y in
  let nf := nofZ (Z.of_nat n) in
  let '(var, _) := variance y in
  let autocovariance :=
    nsum (map (fun p : F * F => (fst p - avg) * (snd p - avg)) (zip y (skipn k y))) / nf in
  autocovariance / var.

(** [slice::chunks_exact(4)]: the full tiles, in order (TILE = 4 at
    stats.rs:262 and 291). *)
Fixpoint chunks4 (l : list F) : list (list F) :=
  match l with
  | a :: b :: c :: d :: l' => [a; b; c; d] :: chunks4 l'
  | _ => []
  end.
(** [chunks_exact(4).remainder()]. *)
Fixpoint rem4 (l : list F) : list F :=
  match l with
  | a :: b :: c :: d :: l' => rem4 l'
  | r => r
  end.

(** [l.iter().zip(r.iter()).map(|(a,b)| a*b).sum::<f32>()]
    (stats.rs:265-270 and 274-277). *)
Definition dot (l r : list F) : F :=
  nsum (map (fun p : F * F => fst p * snd p) (zip l r)).

(** One lag of stats.rs:259-280: the two assignments to [*xi] in order; the
    second overwrites the first. *)
Definition autocorr_fast32_lag (y : list F) (h : nat) (xi : F) : F :=
  let left := firstn (length y - h) y in
  let right := skipn h y in
  let xi := dot (rem4 left) (rem4 right) in
  let xi := nsum (map (fun p : list F * list F => dot (fst p) (snd p))
                      (zip (chunks4 left) (chunks4 right))) in
  xi.

(** stats.rs:243-283 [autocorr_fast32]; N = length y, M = length x.  Returns
    (variance, y after, x after).  The [for] loop zips SKIP..N with x: with
    N >= M + SKIP there is one lag per slot of x. *)
Definition autocorr_fast32 (skip : nat) (y x : list F) : res (F * list F * list F) :=
  let! _ := rassert (Nat.leb (length x + skip) (length y)) in
  let sum := nsum y in
  let avg := sum / nofZ (Z.of_nat (length y)) in
  let y' := map (fun yi => yi - avg) y in
  let var := nsum (map (fun yi => yi * yi) y') / nofZ (Z.of_nat (length y)) in
  let lags := seq skip (length y - skip) in
  let x' := map (fun p : nat * F => autocorr_fast32_lag y' (fst p) (snd p)) (zip lags x)
            ++ skipn (length lags) x in
  Ok (var, y', x').

(** stats.rs:290-298 [rms_fast32]. *)
Definition rms_fast32 (y : list F) : F :=
  let sum := nsum (map (fun yi => yi * yi) (rem4 y))
             + nsum (map (fun c => nsum (map (fun yi => yi * yi) c)) (chunks4 y)) in
  nsqrt (sum / nofZ (Z.of_nat (length y))).

(** stats.rs:317-326 [lag_diff]. *)
Definition lag_diff (y : list F) : list F :=
  map (fun p : F * F => snd p - fst p) (zip y (skipn 1 y)).

(** [Float::powi(2)]: num_traits/std compute [x * x]. *)
Definition powi2 (x : F) : F := x * x.

(** itertools [tuple_windows::<(_, _)>]: consecutive pairs. *)
Fixpoint tuple_windows (y : list F) : list (F * F) :=
  match y with
  | a :: ((b :: _) as r) => (a, b) :: tuple_windows r
  | _ => []
  end.

(** stats.rs:343-354 [rmssd]. *)
Definition rmssd (y : list F) : F :=
  let square_diffs := map (fun p : F * F => powi2 (snd p - fst p)) (tuple_windows y) in
  let '(sum, n) := mean square_diffs in
  nsqrt sum.

(** stats.rs:386-395 [zscore] (the iterator is collected). *)
Definition zscore (y : list F) : list F :=
  let m := fst (mean y) in
  let sd := fst (stdev y) in
  map (fun yi => (yi - m) / sd) y.

(** stats.rs:450-461 [median_abs_deviation]. *)
Definition median_abs_deviation (y : list F) : res (F * nat) :=
  let! (med, _) := median y in
  median (map (fun yi => nabs (yi - med)) y).

(** stats.rs:419-429 [mod_zscore] (the iterator is collected).  The literal is
    [F::from(0.6745).unwrap()]. *)
Definition mod_zscore (y : list F) : res (list F) :=
  let! (med, _) := median y in
  let! (mad, _) := median_abs_deviation y in
  Ok (map (fun yi => (yi - med) * nofQ (6745 # 10000) / mad) y).
End Float.
