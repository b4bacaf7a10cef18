(** Fixed-point samples through sections with whole-number coefficients. *)
From Coq Require Import ZArith SpecFloat List Reals.
From Verif Require Import Base Num M_Filter S_Float.
Import ListNotations.
Local Open Scope R_scope.

(** A whole number of steps of size [2^g]. *)
Definition on_grid (g : Z) (v : R) : Prop := exists z, v = IZR z * powerRZ 2 g.

(** The exact run (over the real numbers) of the sections [l] on [x] stays small: for every section, with
    inputs at most [X] and outputs at most [Y], the sum of |b| X, |a| Y and the initial state is at most [B]. *)
Fixpoint stays_small (B : R) (l : list (Sos R)) (x : list R) : Prop :=
  match l with
  | [] => True
  | s :: rest => exists X Y y t, sosfilt_dyn x [s] = Ok (y, t) /\
      Forall (fun v => Rabs v <= X) x /\ Forall (fun v => Rabs v <= Y) y /\ 0 <= X /\ 0 <= Y /\
      (Rabs (b0 s) + Rabs (b1 s) + Rabs (b2 s)) * X + (Rabs (a1 s) + Rabs (a2 s)) * Y + Rabs (zi0 s) + Rabs (zi1 s) <= B /\
      stays_small B rest y
  end.

(** Nothing in the format is nearer to [v] than [x]. *)
Definition nearest_float (prec emax : Z) (v : R) (x : spec_float) : Prop :=
  finite prec emax x /\ forall f, finite prec emax f -> Rabs (fval x - v) <= Rabs (fval f - v).
