(** Result monad and small list helpers used by every model file.

    No definition of this file models a Rust function by itself; they encode the
    Rust *language* features the models rely on. *)
From Coq Require Export List Arith ZArith Bool Lia.
Export ListNotations.

(** Outcome of a Rust call.
    - [Ok a]      : returns [a];
    - [Panic]     : unwinds ([unwrap] on [None], failed [assert!], index out of
                    bounds, checked arithmetic overflow, [unreachable!], [todo!]);
    - [UB]        : performs an out-of-bounds access through an unchecked
                    ([unsafe]) accessor;
    - [OutOfFuel] : artefact of fuelled recursion: the call needs more steps than
                    the model was given.  Theorems exclude it explicitly. *)
Inductive res (A : Type) : Type :=
| Ok (a : A)
| Panic
| UB
| OutOfFuel.
Arguments Ok {A} a.
Arguments Panic {A}.
Arguments UB {A}.
Arguments OutOfFuel {A}.

Definition bind {A B} (r : res A) (f : A -> res B) : res B :=
  match r with
  | Ok a => f a
  | Panic => Panic
  | UB => UB
  | OutOfFuel => OutOfFuel
  end.

Declare Scope res_scope.
Delimit Scope res_scope with res.
Notation "'let!' x ':=' r 'in' b" := (bind r (fun x => b))
  (at level 200, x pattern, r at level 100, b at level 200, right associativity) : res_scope.
Open Scope res_scope.

(** [Option::unwrap] / [Option::expect]. *)
Definition unwrap {A} (o : option A) : res A :=
  match o with Some a => Ok a | None => Panic end.

(** [assert!(b)]. *)
Definition rassert (b : bool) : res unit := if b then Ok tt else Panic.

(** Checked [usize] subtraction (debug builds): panics on underflow. *)
Definition usub (a b : nat) : res nat := if Nat.ltb a b then Panic else Ok (a - b).

(** Safe slice indexing [v[i]]: panics out of range. *)
Definition index {A} (v : list A) (i : nat) : res A := unwrap (nth_error v i).

(** [Iterator::fold] with a body that may panic. *)
Fixpoint rfold {A B} (f : A -> B -> res A) (l : list B) (a : A) : res A :=
  match l with
  | [] => Ok a
  | b :: l' => let! a' := f a b in rfold f l' a'
  end.

(** [map(..).collect()] with a body that may panic. *)
Fixpoint rmap {A B} (f : A -> res B) (l : list A) : res (list B) :=
  match l with
  | [] => Ok []
  | a :: l' => let! b := f a in let! bs := rmap f l' in Ok (b :: bs)
  end.

(** [start..end] over integers. *)
Definition zrange (a b : Z) : list Z :=
  map (fun i => (a + Z.of_nat i)%Z) (seq 0 (Z.to_nat (b - a))).

(** [zip]: stops at the shorter list. *)
Fixpoint zip {A B} (l : list A) (m : list B) : list (A * B) :=
  match l, m with
  | a :: l', b :: m' => (a, b) :: zip l' m'
  | _, _ => []
  end.

(** A fuelled program [run] terminates with outcome [r] (which is a real outcome). *)
Definition terminates_with {A} (run : nat -> res A) (r : res A) : Prop :=
  r <> OutOfFuel /\ exists f0, forall f, f0 <= f -> run f = r.

(** A fuelled program never terminates. *)
Definition diverges {A} (run : nat -> res A) : Prop := forall f, run f = OutOfFuel.
