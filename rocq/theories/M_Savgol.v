(** Model of sci-rs/src/signal/filter/savgol_filter.rs.  No proofs in this file. *)
From Coq Require Import List Arith ZArith QArith Bool.
From Verif Require Import Base Num MachInt M_Linalg.
Import ListNotations.
Local Open Scope nat_scope.

Section Savgol.
Context {F : Type} {NF : Num F}.
Local Open Scope num_scope.

(** [x.powi(n)] for [n >= 0]: repeated multiplication (over floats the rounding of
    [powi] is not specified by Rust; the theorems that look inside use exact
    arithmetic). *)
Fixpoint npowi (x : F) (n : nat) : F :=
  match n with O => 1 | S k => x * npowi x k end.

(** The external crate [lstsq]: [lstsq(&A, &y, eps)] is a parameter; [None] is its
    [Err].  What is assumed of it is stated in the theorems. *)
Variable lstsq : mat F -> list F -> F -> option (list F).
Variables (md : mode) (pw : Z).     (* overflow mode and pointer width *)

(** savgol_filter.rs:139-141 [factorial]: [(1..=n).product()] on [usize]. *)
Definition factorial (n : nat) : res Z :=
  rfold (fun acc i => imul md (usize_t pw) acc (Z.of_nat i)) (seq 1 n) 1%Z.

(** savgol_filter.rs:90-103 [pos]. *)
Definition positions (window_length : nat) : list F :=
  let half_window := nofZ (Z.of_nat (window_length / 2)) in
  if Nat.eqb (window_length mod 2) 0 then
    map (fun i => half_window - nofZ (Z.of_nat i) - nofQ (1 # 2)) (seq 0 window_length)
  else map (fun i => half_window - nofZ (Z.of_nat i)) (seq 0 window_length).

(** savgol_filter.rs:79-137 [savgol_coeffs_dyn]. *)
Definition savgol_coeffs_dyn (window_length polyorder : nat) (deriv : option nat) (delta : option F)
  : res (list F) :=
  if Nat.leb window_length polyorder then Panic
  else
    let pos := positions window_length in
    let der := match deriv with Some d => d | None => O end in
    let del := match delta with Some d => d | None => 1 end in
    if Nat.ltb polyorder der then Ok (repeat 0 window_length)
    else
      let A := mkmat (polyorder + 1)%nat window_length (fun i j => npowi (nth j pos 0) i) in
      let y := map (fun i => if Nat.eqb i der then 1 else 0) (seq 0 (polyorder + 1)%nat) in
      let! f := factorial der in
      let! y := set_index y der (nofZ f / npowi del der) in
      unwrap (lstsq A y (nofQ (1 # 1000000000))).

(** [data.windows(w)] for [w >= 1]. *)
Definition windows {A} (w : nat) (data : list A) : list (list A) :=
  map (fun i => firstn w (skipn i data)) (seq 0 (length data + 1 - w)%nat).

(** savgol_filter.rs:23-69 [savgol_filter_dyn]. *)
Definition savgol_filter_dyn (y : list F) (window_length polyorder : nat) (deriv : option nat)
  (delta : option F) : res (list F) :=
  if Nat.eqb (window_length mod 2) 0 then Panic
  else if Nat.ltb window_length (polyorder + 2) then Panic
  else
    let! fir := savgol_coeffs_dyn window_length polyorder deriv delta in
    let fir := rev fir in
    match y with
    | [] => Ok []
    | nearest :: y' =>
        let data := repeat nearest (window_length / 2 + 1)%nat ++ y' in
        let! nearest := unwrap (nth_error (rev data) 0) in
        let data := data ++ repeat nearest (window_length / 2)%nat in
        Ok (map (fun w => nsum (map (fun p : F * F => fst p * snd p) (zip w fir)))
                (windows window_length data))
    end.
End Savgol.
