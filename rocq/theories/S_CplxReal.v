(** Specification of the ordering and splitting of lists of roots. *)
From Coq Require Import List Reals Permutation Sorted.
From Verif Require Import Num M_Complex Cx.
Import ListNotations.
Local Open Scope R_scope.

(** Lexicographic orders: by real part and then by the imaginary part, or its magnitude. *)
Definition lex_le (a b : C) : Prop := cre a < cre b \/ (cre a = cre b /\ cim a <= cim b).
Definition lex_abs_le (a b : C) : Prop := cre a < cre b \/ (cre a = cre b /\ Rabs (cim a) <= Rabs (cim b)).

(** Real up to the relative tolerance. *)
Definition nearly_real (tol : R) (a : C) : Prop := Rabs (cim a) <= tol * Rabs (cre a).
(** Different real parts differ by more than the tolerance. *)
Definition real_parts_apart (tol : R) (z : list C) : Prop :=
  forall a b, In a z -> In b z -> cre a < cre b -> tol * cnorm a < cre b - cre a.

(** Every element outside the real axis has a partner within the tolerance of its
    conjugate: [zp] and [zn] are the two halves. *)
Definition pairs_within (tol : R) (z : list C) : Prop :=
  exists zp zn zr, Permutation z (zp ++ zn ++ zr) /\ Forall (nearly_real tol) zr /\
    Forall2 (fun a b => 0 < cim a /\ cim b < 0 /\ ~ nearly_real tol a /\ ~ nearly_real tol b /\
                        cnorm (csub a (cconj b)) <= tol * cnorm b) zp zn.

(** What is assumed of [slice::sort_unstable_by] when the comparison is a total preorder on
    the elements of the slice only (floats that are not NaN). *)
Definition sorts_locally (sort : forall A : Type, (A -> A -> bool) -> list A -> list A) : Prop :=
  forall A (le : A -> A -> bool) (l : list A),
    Permutation l (sort A le l) /\
    ((forall a b, In a l -> In b l -> le a b = true \/ le b a = true) ->
     (forall a b c, In a l -> In b l -> In c l -> le a b = true -> le b c = true -> le a c = true) ->
     StronglySorted (fun a b => le a b = true) (sort A le l)).
