(** Specifications for the integer functions: nothing here refers to the model. *)
From Coq Require Import List ZArith Bool.
From Verif Require Import Base.
Import ListNotations.
Local Open Scope Z_scope.

(** n! *)
Fixpoint zfact (n : nat) : Z :=
  match n with
  | O => 1
  | S m => Z.of_nat (S m) * zfact m
  end.

Definition zprod (l : list Z) : Z := fold_right Z.mul 1 l.

(** The k-factorial of n: the product of all m in 1..n with m = n (mod k).
    k = 1 is n!, k = 2 is n!!; the empty product (n <= 0) is 1. *)
Definition kfact (n k : Z) : Z :=
  zprod (filter (fun m => (n - m) mod k =? 0) (zrange 1 (n + 1))).

(** [c] is the binomial coefficient n!/(k!(n-k)!). *)
Definition is_binom (n k c : Z) : Prop :=
  0 <= k <= n /\ c * (zfact (Z.to_nat k) * zfact (Z.to_nat (n - k))) = zfact (Z.to_nat n).

(** [c] is the number of multisets of size k over n letters: (n+k-1)!/(k!(n-1)!). *)
Definition is_multichoose (n k c : Z) : Prop :=
  1 <= n /\ 0 <= k /\
  c * (zfact (Z.to_nat k) * zfact (Z.to_nat (n - 1))) = zfact (Z.to_nat (n + k - 1)).

(** [c] is the number of k-permutations of n: n!/(n-k)!. *)
Definition is_perm (n k c : Z) : Prop :=
  0 <= k <= n /\ c * zfact (Z.to_nat (n - k)) = zfact (Z.to_nat n).

(** All words of length n over the alphabet L. *)
Fixpoint words {A} (n : nat) (L : list A) : list (list A) :=
  match n with
  | O => [[]]
  | S m => flat_map (fun a => map (cons a) (words m L)) L
  end.
(** Number of surjections from an n-set onto a k-set: words of length n over the
    letters 0..k-1 in which every letter occurs. *)
Definition surjections (n k : nat) : Z :=
  Z.of_nat (length (filter (fun w => forallb (fun x => existsb (Nat.eqb x) w) (seq 0 k))
                           (words n (seq 0 k)))).
(** [c] is the Stirling number of the second kind: every partition of an n-set
    into k non-empty unlabelled blocks is given by k! surjections (one for each
    labelling of the blocks). *)
Definition is_stirling2 (n k c : Z) : Prop :=
  0 <= k /\ 0 <= n /\ c * zfact (Z.to_nat k) = surjections (Z.to_nat n) (Z.to_nat k).
