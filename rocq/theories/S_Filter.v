(** Specifications for the filtering functions.  Only [Sos] (the data type of a
    section) is taken from the model. *)
From Coq Require Import List Arith Reals.
From Verif Require Import Num M_Linalg M_Filter.
Import ListNotations.

(** The six coefficients of a section, without its delays. *)
Definition coefs {F} (s : Sos F) : list F := [b0 s; b1 s; b2 s; a0 s; a1 s; a2 s].
Definition delays {F} (s : Sos F) : F * F := (zi0 s, zi1 s).
(** Same coefficients, delays arbitrary. *)
Definition same_coefs {F} (l m : list (Sos F)) : Prop := map coefs l = map coefs m.

Local Open Scope R_scope.
(** x[i-k], zero before the start of the signal. *)
Definition delayed (x : list R) (k i : nat) : R := if (k <=? i)%nat then nth (i - k) x 0 else 0.
Definition zero_state (s : Sos R) : Prop := zi0 s = 0 /\ zi1 s = 0.
(** a0 y[i] + a1 y[i-1] + a2 y[i-2] = b0 x[i] + b1 x[i-1] + b2 x[i-2] at every i < length x. *)
Definition difference_equation (s : Sos R) (x y : list R) : Prop :=
  length y = length x /\
  forall i, (i < length x)%nat ->
    a0 s * delayed y 0 i + a1 s * delayed y 1 i + a2 s * delayed y 2 i =
    b0 s * delayed x 0 i + b1 s * delayed x 1 i + b2 s * delayed x 2 i.

(** Pointwise linear combination of signals / of states. *)
Definition lincomb (c d : R) (x y : list R) : list R :=
  map (fun p => c * fst p + d * snd p) (combine x y).
Definition lincomb_state (c d : R) (s t : list (Sos R)) : list (Sos R) :=
  map (fun p => set_state (fst p) (c * zi0 (fst p) + d * zi0 (snd p)) (c * zi1 (fst p) + d * zi1 (snd p)))
      (combine s t).

(** Polynomials in the unit delay, as coefficient sequences, and their product. *)
Fixpoint polymul (p q : list R) : list R :=
  match p with
  | [] => []
  | a :: p' =>
      (fix add (u v : list R) := match u, v with
         | [], v => v | u, [] => u | x :: u', y :: v' => (x + y) :: add u' v' end)
        (map (Rmult a) q) (0 :: polymul p' q)
  end.
(** (p(D) x)[i] = sum_k p_k x[i-k]. *)
Definition delay_poly (p : list R) (x : list R) (i : nat) : R :=
  fold_right Rplus 0 (map (fun k => nth k p 0 * delayed x k i) (seq 0 (length p))).

(** DC gain of a section. *)
Definition dc_gain (s : Sos R) : R := (b0 s + b1 s + b2 s) / (a0 s + a1 s + a2 s).
Definition dc_gains (l : list (Sos R)) : R := fold_right Rmult 1 (map dc_gain l).

(** Transposed direct form II, any order, coefficients divided by a[0]: from state
    [z] and input [x], the output and the next state.
    y = b0 x + z0;   z'_k = b_{k+1} x - a_{k+1} y + z_{k+1}  (z_{m-1} = 0). *)
Definition df2t_out (b a z : list R) (x : R) : R := nth 0 b 0 / nth 0 a 0 * x + nth 0 z 0.
Definition df2t_next (b a z : list R) (x : R) : list R :=
  map (fun k => nth (S k) b 0 / nth 0 a 0 * x
                - nth (S k) a 0 / nth 0 a 0 * df2t_out b a z x + nth (S k) z 0)
      (seq 0 (length b - 1)).

(** Numerator and denominator of the cascade, as polynomials in the unit delay. *)
Definition cascade_num (l : list (Sos R)) : list R :=
  fold_right polymul [1] (map (fun s => [b0 s; b1 s; b2 s]) l).
Definition cascade_den (l : list (Sos R)) : list R :=
  fold_right polymul [1] (map (fun s => [a0 s; a1 s; a2 s]) l).

(** Run of the transposed direct form: outputs and final state. *)
Fixpoint df2t_run (b a z xs : list R) : list R * list R :=
  match xs with
  | [] => ([], z)
  | x :: xs' => let r := df2t_run b a (df2t_next b a z x) xs' in
                (df2t_out b a z x :: fst r, snd r)
  end.
Definition with_delays_times (c : R) (l : list (Sos R)) : list (Sos R) :=
  map (fun s => set_state s (zi0 s * c) (zi1 s * c)) l.

(** Odd extension of a signal by [e] samples at each end: at distance d outside an
    end, twice the end value minus the value d inside. *)
Definition odd_extension {F} {NF : Num F} (e : nat) (y : list F) : list F :=
  let v k := nth k y nzero in
  let last := (length y - 1)%nat in
  map (fun d => nsub (nmul (nadd none none) (v 0%nat)) (v d)) (rev (seq 1 e))
  ++ y
  ++ map (fun d => nsub (nmul (nadd none none) (v last)) (v (last - d)%nat)) (seq 1 e).

(** Number of taps SciPy attributes to a cascade:
    2 n + 1 - min(#sections with b2 = 0, #sections with a2 = 0). *)
Definition taps {F} {NF : Num F} (l : list (Sos F)) : nat :=
  (2 * length l + 1 - Nat.min (length (filter (fun s => neqb (b2 s) nzero) l))
                              (length (filter (fun s => neqb (a2 s) nzero) l)))%nat.
