(** The cascade satisfies the difference equation of the product transfer function. *)
From Coq Require Import List Arith Bool Lia Reals Lra.
From Verif Require Import Base Num M_Linalg M_Stats M_Filter S_Filter ListUtil P_Sosfilt.
Import ListNotations.
Local Open Scope R_scope.

Definition D (f : nat -> R) (i : nat) : R := match i with O => 0 | S j => f j end.
Fixpoint op (p : list R) (f : nat -> R) (i : nat) : R :=
  match p with [] => 0 | a :: p' => a * f i + D (op p' f) i end.
Definition sig (x : list R) (i : nat) : R := nth i x 0.

Lemma op_local p f g i : (forall j, (j <= i)%nat -> f j = g j) -> op p f i = op p g i.
Proof.
  revert i. induction p as [|a p IH]; intros i H; cbn; [reflexivity|].
  rewrite (H i) by lia. f_equal. destruct i as [|i]; cbn; [reflexivity|]. apply IH. intros; apply H; lia.
Qed.
Lemma D_local f g i : (forall j, (j < i)%nat -> f j = g j) -> D f i = D g i.
Proof. destruct i; cbn; intros H; [reflexivity|apply H; lia]. Qed.

Lemma op_D p f i : op p (D f) i = D (op p f) i.
Proof.
  revert i. induction p as [|a p IH]; intros i; cbn.
  - destruct i; reflexivity.
  - rewrite (D_local (op p (D f)) (D (op p f))) by (intros; apply IH). destruct i; cbn; lra.
Qed.
Lemma op_plus p f g i : op p (fun j => f j + g j) i = op p f i + op p g i.
Proof.
  revert i. induction p as [|a p IH]; intros i; cbn; [lra|].
  destruct i; cbn; [lra|]. rewrite IH. lra.
Qed.
Lemma op_scale p c f i : op p (fun j => c * f j) i = c * op p f i.
Proof.
  revert i. induction p as [|a p IH]; intros i; cbn; [lra|].
  destruct i; cbn; [lra|]. rewrite IH. lra.
Qed.
Lemma op_comm p q f i : op p (op q f) i = op q (op p f) i.
Proof.
  revert i. induction p as [|a p IH]; intros i.
  - cbn. change (op [] f) with (fun _ : nat => 0).
    induction q as [|b q IHq] in i |- *; cbn; [reflexivity|]. destruct i; cbn; [lra|]. rewrite <- IHq. lra.
  - cbn [op]. rewrite (D_local (op p (op q f)) (op q (op p f))) by (intros; apply IH).
    rewrite <- op_D, <- op_scale, <- op_plus. apply op_local. intros; reflexivity.
Qed.

Fixpoint padd (u v : list R) : list R :=
  match u, v with [], v => v | u, [] => u | x :: u', y :: v' => (x + y) :: padd u' v' end.
Lemma polymul_cons a p q : polymul (a :: p) q = padd (map (Rmult a) q) (0 :: polymul p q).
Proof. reflexivity. Qed.
Lemma op_padd u v f i : op (padd u v) f i = op u f i + op v f i.
Proof.
  revert v i. induction u as [|x u IH]; intros [|y v] i; cbn; try lra.
  destruct i; cbn; [lra|]. rewrite IH. lra.
Qed.
Lemma op_map a q f i : op (map (Rmult a) q) f i = a * op q f i.
Proof.
  revert i. induction q as [|b q IH]; intros i; cbn; [lra|]. destruct i; cbn; [lra|]. rewrite IH. lra.
Qed.
Lemma op_mul p q f i : op (polymul p q) f i = op p (op q f) i.
Proof.
  revert i. induction p as [|a p IH]; intros i; [reflexivity|].
  rewrite polymul_cons, op_padd, op_map. cbn [op].
  rewrite (D_local (op (polymul p q) f) (op p (op q f))) by (intros; apply IH). lra.
Qed.
Lemma op_one f i : op [1] f i = f i.
Proof. cbn. destruct i; cbn; lra. Qed.

Lemma delay_poly_op p x i : delay_poly p x i = op p (sig x) i.
Proof.
  unfold delay_poly. 
  enough (G : forall p s, fold_right Rplus 0 (map (fun k => nth k p 0 * delayed x (s + k) i) (seq 0 (length p)))
               = (if (s <=? i)%nat then op p (sig x) (i - s) else 0)).
  { pose proof (G p 0%nat) as G0. cbn [Nat.add Nat.leb] in G0. rewrite Nat.sub_0_r in G0. exact G0. }
  clear p. induction p as [|a p IH]; intros s.
  - cbn. destruct (s <=? i)%nat; reflexivity.
  - cbn [length seq map fold_right]. rewrite <- seq_shift, map_map.
    rewrite (map_ext (fun k => nth (S k) (a :: p) 0 * delayed x (s + S k) i)
                     (fun k => nth k p 0 * delayed x (S s + k) i)).
    2:{ intros k. cbn [nth]. f_equal. f_equal. lia. }
    rewrite IH, Nat.add_0_r. cbn [nth op]. unfold delayed.
    destruct (Nat.leb_spec s i), (Nat.leb_spec (S s) i); try lia; try lra.
    + replace (i - s)%nat with (S (i - S s)) by lia. cbn. reflexivity.
    + replace (i - s)%nat with 0%nat by lia. unfold sig. cbn. lra.
Qed.

Definition dens (l : list (Sos R)) := cascade_den l.

Lemma cascade_transfer (l : list (Sos R)) : forall x,
  Forall zero_state l -> Forall (fun s => a0 s = 1) l ->
  forall i, (i < length x)%nat ->
  op (cascade_den l) (sig (fst (filt x l))) i = op (cascade_num l) (sig x) i.
Proof.
  induction l as [|s l IH]; intros x Z A i Hi.
  - cbn. assert (E : fst (filt x []) = x).
    { clear. induction x as [|a x IH]; [reflexivity|]. cbn [filt sosfilt_item].
      destruct (filt x []). cbn in *. congruence. }
    rewrite E. reflexivity.
  - inversion Z as [|? ? Zs Zl]; subst. inversion A as [|? ? As Al]; subst.
    change (s :: l) with ([s] ++ l) at 2. rewrite filt_cascade. cbn [fst].
    set (w := fst (filt x [s])).
    assert (Lw : length w = length x) by apply filt_length_out.
    change (cascade_den (s :: l)) with (polymul [a0 s; a1 s; a2 s] (cascade_den l)).
    change (cascade_num (s :: l)) with (polymul [b0 s; b1 s; b2 s] (cascade_num l)).
    rewrite !op_mul.
    rewrite (op_local _ (op (cascade_den l) (sig (fst (filt w l)))) (op (cascade_num l) (sig w))).
    2:{ intros j Hj. apply IH; auto. lia. }
    rewrite (op_comm [b0 s; b1 s; b2 s]), op_comm. apply op_local. intros j Hj.
    pose proof (diff_eq x s Zs As) as [_ DE]. specialize (DE j ltac:(lia)). fold w in DE.
    unfold delayed in DE. cbn in DE.
    unfold sig. cbn [op]. destruct j as [|[|j]]; cbn in DE |- *; rewrite ?Nat.sub_0_r in DE; lra.
Qed.

Lemma cascade_transfer_poly (l : list (Sos R)) (x : list R) :
  Forall zero_state l -> Forall (fun s => a0 s = 1) l ->
  forall i, (i < length x)%nat ->
  delay_poly (cascade_den l) (fst (filt x l)) i = delay_poly (cascade_num l) x i.
Proof. intros Z A i Hi. rewrite !delay_poly_op. apply cascade_transfer; assumption. Qed.
