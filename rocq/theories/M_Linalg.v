(** Dense matrices as nalgebra's [OMatrix<T, Dyn, Dyn>] is used by sci-rs, and
    sci-rs/src/linalg/companion.rs.  No proofs in this file. *)
From Coq Require Import List Arith Bool.
From Verif Require Import Base Num.
Import ListNotations.
Local Open Scope nat_scope.

(** A matrix: dimensions and entries (row, column).  Entries outside the
    dimensions are meaningless and no modelled accessor returns them. *)
Record mat (F : Type) : Type := mkmat { nrows : nat; ncols : nat; ent : nat -> nat -> F }.
Arguments mkmat {F} nrows ncols ent.
Arguments nrows {F} m.
Arguments ncols {F} m.
Arguments ent {F} m.

Definition in_bounds {F} (m : mat F) (i j : nat) : bool :=
  Nat.ltb i (nrows m) && Nat.ltb j (ncols m).

(** [m.get_unchecked((i, j))]. *)
Definition mget_unchecked {F} (m : mat F) (i j : nat) : res F :=
  if in_bounds m i j then Ok (ent m i j) else UB.
(** [*m.get_unchecked_mut((i, j)) = v]. *)
Definition mset_unchecked {F} (m : mat F) (i j : nat) (v : F) : res (mat F) :=
  if in_bounds m i j then
    Ok (mkmat (nrows m) (ncols m)
          (fun i' j' => if Nat.eqb i' i && Nat.eqb j' j then v else ent m i' j'))
  else UB.
(** [m[(i, j)]], and [m.row(i)[j]], [m.column(j)[i]]. *)
Definition mget {F} (m : mat F) (i j : nat) : res F :=
  if in_bounds m i j then Ok (ent m i j) else Panic.
(** [v.get_unchecked(i)] and [*v.get_unchecked_mut(i) = x] on a slice. *)
Definition get_unchecked {F} (v : list F) (i : nat) : res F :=
  match nth_error v i with Some x => Ok x | None => UB end.
Definition set_unchecked {F} (v : list F) (i : nat) (x : F) : res (list F) :=
  if Nat.ltb i (length v) then Ok (firstn i v ++ x :: skipn (S i) v) else UB.
(** [v[i] = x]. *)
Definition set_index {F} (v : list F) (i : nat) (x : F) : res (list F) :=
  if Nat.ltb i (length v) then Ok (firstn i v ++ x :: skipn (S i) v) else Panic.

Definition mtranspose {F} (m : mat F) : mat F :=
  mkmat (ncols m) (nrows m) (fun i j => ent m j i).
(** [m.iter()]: column-major. *)
Definition mat_to_list {F} (m : mat F) : list F :=
  flat_map (fun j => map (fun i => ent m i j) (seq 0 (nrows m))) (seq 0 (ncols m)).
(** [Matrix::from_iterator(r, c, it)]: column-major; panics when the iterator is
    too short. *)
Definition mat_from_list {F} {NF : Num F} (r c : nat) (l : list F) : res (mat F) :=
  if Nat.ltb (length l) (r * c) then Panic
  else Ok (mkmat r c (fun i j => nth (i + j * r) l nzero)).

Section Ops.
Context {F : Type} {NF : Num F}.
Local Open Scope num_scope.

Definition mzeros (r c : nat) : mat F := mkmat r c (fun _ _ => 0).
(** [DMatrix::from_diagonal_element(n, n, e)]. *)
Definition mdiag (n : nat) (e : F) : mat F :=
  mkmat n n (fun i j => if Nat.eqb i j then e else 0).
(** [a - b]; nalgebra panics on a dimension mismatch. *)
Definition msub (a b : mat F) : res (mat F) :=
  if Nat.eqb (nrows a) (nrows b) && Nat.eqb (ncols a) (ncols b) then
    Ok (mkmat (nrows a) (ncols a) (fun i j => ent a i j - ent b i j))
  else Panic.
(** [m.column(j).sum()]: nalgebra folds from [T::zero()]. *)
Definition mcol_sum (m : mat F) (j : nat) : res F :=
  if Nat.ltb j (ncols m) then
    Ok (fold_left nadd (map (fun i => ent m i j) (seq 0 (nrows m))) 0)
  else Panic.

(** linalg/companion.rs:12-37 [companion_dyn].  [usize] arithmetic is checked
    (debug build).  The list of writes is the iterator of lines 21-24 in order. *)
Definition companion_dyn (itr : list F) (m : nat) : res (mat F) :=
  let! a0 := unwrap (hd_error itr) in
  let rest := tl itr in
  let! m2 := usub m 2 in
  let writes :=
    map (fun p : nat * F => (0%nat, fst p, (- snd p) / a0)) (zip (seq 0 (length rest)) rest)
    ++ map (fun i => ((i + 1)%nat, i, 1)) (seq 0 m2) in
  let! m1 := usub m 1 in
  rfold (fun mm (w : nat * nat * F) => let '(i, j, t) := w in mset_unchecked mm i j t)
        writes (mzeros m1 m1).
End Ops.
