(** The peak gain of a filter: how much larger than its input an output can get. *)
From Coq Require Import List Reals.
From Verif Require Import Base Num M_Filter.
Import ListNotations.
Local Open Scope R_scope.

(** The sum of the magnitudes of the samples. *)
Definition abs_sum (x : list R) : R := fold_right (fun v s => Rabs v + s) 0 x.
(** sosfilt multiplies the largest magnitude of every signal by at most G. *)
Definition peak_bound (l : list (Sos R)) (G : R) : Prop :=
  forall x M, (forall v, In v x -> Rabs v <= M) ->
  exists y l', sosfilt_dyn x l = Ok (y, l') /\ length y = length x /\ forall v, In v y -> Rabs v <= G * M.
(** The smallest such factor. *)
Definition peak_gain (l : list (Sos R)) (g : R) : Prop := forall G, peak_bound l G <-> g <= G.
(** The response of N+1 samples to a unit impulse. *)
Definition impulse_response (l : list (Sos R)) (N : nat) (h : list R) : Prop :=
  exists l', sosfilt_dyn (1 :: repeat 0 N) l = Ok (h, l').
