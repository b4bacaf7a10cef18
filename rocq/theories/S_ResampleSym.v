(** One period of a signal: turned, run backwards, compared with another, and its power. *)
From Coq Require Import Reals List.
From Verif Require Import S_Stats.
Import ListNotations.
Local Open Scope R_scope.

(** One period started [s] samples later. *)
Definition turned (s : nat) (x : list R) : list R := skipn s x ++ firstn s x.
(** One period run backwards from its first sample. *)
Definition backwards (x : list R) : list R := match x with [] => [] | a :: t => a :: rev t end.
(** Inner product of two signals, and mean power of one. *)
Definition inner (x y : list R) : R := Rsum (map (fun p => fst p * snd p) (combine x y)).
Definition power (x : list R) : R := Rsum (map (fun v => v * v) x) / INR (length x).
