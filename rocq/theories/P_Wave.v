(** Proofs about the square wave. *)
From Coq Require Import List Arith ZArith Reals Lra Lia.
From Verif Require Import Base Num M_Wave.
Import ListNotations.
Local Open Scope R_scope.

Lemma Int_part_spec x : IZR (Int_part x) <= x < IZR (Int_part x) + 1.
Proof. pose proof (base_Int_part x). lra. Qed.

(** The remainder brought into [0, b): t = b k + x. *)
Lemma wrapped b t : 0 < b ->
  let x := Rrem t b in
  let x := if Rltb x 0 then x + b else x in
  exists k : Z, t = b * IZR k + x /\ 0 <= x < b.
Proof.
  intros Hb. cbv zeta. unfold Rrem, Rtrunc.
  assert (Hd : t = b * (t / b)) by (field; lra).
  set (q := t / b) in *. destruct (Rle_dec 0 q) as [P|P].
  - destruct (Int_part_spec q) as [I1 I2]. set (n := Int_part q) in *.
    assert (0 <= t - b * IZR n < b) by (rewrite Hd; split; nra).
    unfold Rltb. destruct (Rlt_dec _ _); [lra|]. exists n. split; [ring|assumption].
  - destruct (Int_part_spec (- q)) as [I1 I2]. set (n := Int_part (- q)) in *.
    assert (- b < t - b * - IZR n <= 0) by (rewrite Hd; split; nra).
    unfold Rltb. destruct (Rlt_dec _ _).
    + exists (- n - 1)%Z. rewrite minus_IZR, opp_IZR. split; [ring|lra].
    + exists (- n)%Z. rewrite opp_IZR. split; [ring|lra].
Qed.

Lemma wrapped_unique b k k' x x' : 0 < b -> b * IZR k + x = b * IZR k' + x' -> 0 <= x < b -> 0 <= x' < b -> k = k' /\ x = x'.
Proof.
  intros Hb E H H'.
  assert (IZR k < IZR k' + 1) by nra. assert (IZR k' < IZR k + 1) by nra.
  assert (k = k') by (rewrite <- plus_IZR in *; apply lt_IZR in H0; apply lt_IZR in H1; lia).
  subst. split; [reflexivity|lra].
Qed.

Lemma square_at_real debug duty t : 0 <= duty <= 1 ->
  exists v, square_at (2 * PI) Rrem debug (2 * PI * duty) t = Ok v /\
    ((exists k : Z, 2 * PI * IZR k <= t < 2 * PI * IZR k + 2 * PI * duty) /\ v = 1 \/
     (forall k : Z, ~ 2 * PI * IZR k <= t < 2 * PI * IZR k + 2 * PI * duty) /\ v = -1).
Proof.
  intros Hd. pose proof PI_RGT_0 as HP. assert (Hb : 0 < 2 * PI) by lra.
  destruct (wrapped (2 * PI) t Hb) as [k [E Hx]]. unfold square_at. cbv zeta. cbn [nltb nadd nzero nleb RNum].
  set (x := if Rltb (Rrem t (2 * PI)) 0 then Rrem t (2 * PI) + 2 * PI else Rrem t (2 * PI)) in *.
  assert (A : rassert (negb debug || Rleb 0 x && Rleb x (2 * PI)) = Ok tt).
  { unfold Rleb. destruct (Rle_dec 0 x); [|lra]. destruct (Rle_dec x (2 * PI)); [|lra]. destruct debug; reflexivity. }
  rewrite A. cbn [bind]. eexists. split; [reflexivity|]. unfold Rltb. destruct (Rlt_dec x (2 * PI * duty)) as [L|L].
  - left. split; [exists k; lra|reflexivity].
  - right. split; [|cbn; lra]. intros k' H'.
    assert (0 <= t - 2 * PI * IZR k' < 2 * PI) by nra.
    destruct (wrapped_unique (2 * PI) k k' x (t - 2 * PI * IZR k')) as [_ Ex]; try assumption; lra.
Qed.

Lemma rmap_nth {A B} (f : A -> res B) (l : list A) (P : A -> B -> Prop) :
  (forall a, exists b, f a = Ok b /\ P a b) -> exists r, rmap f l = Ok r /\ Forall2 P l r.
Proof.
  intros H. induction l as [|a l [r [E F]]]; [exists []; split; [reflexivity|constructor]|].
  destruct (H a) as [b [Eb Pb]]. exists (b :: r). cbn [rmap]. rewrite Eb. cbn [bind]. rewrite E. cbn [bind].
  split; [reflexivity|constructor; assumption].
Qed.
