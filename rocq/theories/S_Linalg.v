(** Specifications for linear algebra: sums, powers, eigenvalues over any field. *)
From Coq Require Import List Arith Field_theory.
From Verif Require Import Num M_Linalg.
Import ListNotations.

Section S.
Context {F : Type} {NF : Num F}.
Local Open Scope num_scope.
(** f(0) + ... + f(n-1). *)
Fixpoint fsum (n : nat) (f : nat -> F) : F :=
  match n with O => 0 | S k => fsum k f + f k end.
Fixpoint fpow (r : F) (n : nat) : F := match n with O => 1 | S k => r * fpow r k end.
(** a_0 r^(m-1) + a_1 r^(m-2) + ... + a_{m-1}. *)
Definition poly_eval (a : list F) (r : F) : F :=
  fsum (length a) (fun i => nth i a 0 * fpow r (length a - 1 - i)).
(** M v = r v for some v <> 0. *)
Definition is_eigenvalue (M : mat F) (r : F) : Prop :=
  exists v : nat -> F, (exists i, i < nrows M /\ v i <> 0) /\
    forall i, i < nrows M -> fsum (ncols M) (fun j => ent M i j * v j) = r * v i.
End S.

(** The operations of [Num F] form a field. *)
Definition is_field (F : Type) {NF : Num F} : Prop :=
  field_theory (nzero : F) none nadd nmul nsub nneg ndiv (fun x => ndiv none x) eq.
