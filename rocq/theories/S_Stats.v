(** Specifications for stats.rs: nothing here refers to the model. *)
From Coq Require Import List Arith Bool Reals Permutation Sorted.
Import ListNotations.

(** Laws of the comparison [ltb], required only on the elements of a sample. *)
Definition irrefl_on {F} (ltb : F -> F -> bool) (y : list F) : Prop :=
  forall a, In a y -> ltb a a = false.
Definition asym_on {F} (ltb : F -> F -> bool) (y : list F) : Prop :=
  forall a b, In a y -> In b y -> ltb a b = true -> ltb b a = false.
(** Strict weak order: irreflexive, transitive, incomparability is transitive. *)
Definition strict_weak_on {F} (ltb : F -> F -> bool) (y : list F) : Prop :=
  irrefl_on ltb y /\
  (forall a b c, In a y -> In b y -> In c y -> ltb a b = true -> ltb b c = true -> ltb a c = true) /\
  (forall a b c, In a y -> In b y -> In c y -> ltb a c = true -> ltb a b = true \/ ltb b c = true).
(** Strict total order. *)
Definition strict_total_on {F} (ltb : F -> F -> bool) (y : list F) : Prop :=
  strict_weak_on ltb y /\
  (forall a b, In a y -> In b y -> ltb a b = false -> ltb b a = false -> a = b).

(** [s] is [y] in non-decreasing order. *)
Definition sorted_version {F} (ltb : F -> F -> bool) (y s : list F) : Prop :=
  Permutation y s /\ StronglySorted (fun a b => ltb b a = false) s.

(** [m] has rank [k] in [y]: it occurs, at most [k] samples are smaller, and more
    than [k] samples are not larger. *)
Definition has_rank {F} (ltb : F -> F -> bool) (y : list F) (k : nat) (m : F) : Prop :=
  In m y /\
  length (filter (fun x => ltb x m) y) <= k < length (filter (fun x => negb (ltb m x)) y).

Local Open Scope R_scope.
Definition Rsum (l : list R) : R := fold_right Rplus 0 l.
Definition Rmean (l : list R) : R := Rsum l / INR (length l).
(** Population variance. *)
Definition Rvar (l : list R) : R := Rmean (map (fun x => (x - Rmean l) ^ 2) l).
Definition not_all_equal (l : list R) : Prop := exists a b, In a l /\ In b l /\ a <> b.
(** Sum over j < n-h of y[j] * y[j+h]. *)
Definition lag_sum (y : list R) (h : nat) : R :=
  Rsum (map (fun j => nth j y 0 * nth (j + h) y 0) (seq 0 (length y - h))).

(** [m] is the median of the (non-empty) sample [y]: with [s] the samples in
    non-decreasing order, the middle one, or the half-sum of the two middle ones. *)
Definition is_median (y : list R) (m : R) : Prop :=
  exists s, Permutation y s /\ StronglySorted Rle s /\
    ((exists k, length s = (2 * k + 1)%nat /\ nth_error s k = Some m) \/
     (exists k a b, length s = (2 * k + 2)%nat /\
        nth_error s k = Some a /\ nth_error s (S k) = Some b /\ m = (a + b) / 2)).
