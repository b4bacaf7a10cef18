(** A signal continued at both ends. *)
From Coq Require Import Reals List.
Import ListNotations.
Local Open Scope R_scope.

(** The signal with its first and last sample repeated [h] times more. *)
Definition ends_repeated (h : nat) (y : list R) : list R := repeat (hd 0 y) h ++ y ++ repeat (last y 0) h.

