(** C110: a cascade at rest filters as its transfer function says and in no other way. *)
From Coq Require Import List Arith Bool Lia Reals Lra Permutation.
From Verif Require Import Base Num M_Complex M_Filter M_Design Cx S_Design S_Filter P_Sosfilt P_Sos P_Poly P_Transfer P_Unique T_Sos.
Import ListNotations.
Local Open Scope R_scope.

(** The two products of sections are the same function of z, where both are defined. *)
Definition same_transfer (l1 l2 : list (Sos R)) : Prop :=
  forall z, z <> C0 -> sos_den l1 z <> C0 -> sos_den l2 z <> C0 -> (sos_num l1 z / sos_den l1 z)%C = (sos_num l2 z / sos_den l2 z)%C.
(** The two cascades give the same output for every signal. *)
Definition same_output (l1 l2 : list (Sos R)) : Prop :=
  forall x, exists y s1 s2, sosfilt_dyn x l1 = Ok (y, s1) /\ sosfilt_dyn x l2 = Ok (y, s2).
Definition normalised_at_rest (l : list (Sos R)) : Prop := Forall (fun s => a0 s = 1 /\ zi0 s = 0 /\ zi1 s = 0) l.

Lemma at_rest_split l : normalised_at_rest l -> Forall (fun s => a0 s = 1) l /\ Forall zero_state l.
Proof. intros H. split; eapply Forall_impl; try exact H; cbn beta; intros s Hs; [apply Hs|split; apply Hs]. Qed.
Lemma filt_same l1 l2 : (forall x, fst (filt x l1) = fst (filt x l2)) <-> same_output l1 l2.
Proof.
  split.
  - intros H x. exists (fst (filt x l1)), (snd (filt x l1)), (snd (filt x l2)). rewrite !sosfilt_dyn_pure. rewrite (H x) at 2. rewrite <- !surjective_pairing. split; reflexivity.
  - intros H x. destruct (H x) as (y & s1 & s2 & E1 & E2). rewrite sosfilt_dyn_pure in E1, E2. injection E1 as E1. injection E2 as E2. rewrite E1, E2. reflexivity.
Qed.
Lemma ratio_cross (n1 d1 n2 d2 : C) : d1 <> C0 -> d2 <> C0 -> (n1 / d1)%C = (n2 / d2)%C -> (n1 * d2)%C = (n2 * d1)%C.
Proof. intros H1 H2 H. transitivity (n1 / d1 * (d1 * d2))%C; [field; assumption|]. rewrite H. field. assumption. Qed.

Theorem C110_transfer_is_behaviour (l1 l2 : list (Sos R)) : normalised_at_rest l1 -> normalised_at_rest l2 ->
  (same_transfer l1 l2 <-> same_output l1 l2).
Proof.
  intros H1 H2. destruct (at_rest_split l1 H1) as [A1 Z1]. destruct (at_rest_split l2 H2) as [A2 Z2]. rewrite <- filt_same. split.
  - intros H x. apply cross_out; try assumption. destruct (den_small l1 A1) as [B1 D1]. destruct (den_small l2 A2) as [B2 D2]. apply (cross_large l1 l2 (Rmax 0 (Rmax B1 B2))).
    intros t Ht. pose proof (Rmax_l 0 (Rmax B1 B2)). pose proof (Rmax_r 0 (Rmax B1 B2)). pose proof (Rmax_l B1 B2). pose proof (Rmax_r B1 B2).
    assert (T1 : sos_den l1 (RtoC t) <> C0) by (apply D1; lra). assert (T2 : sos_den l2 (RtoC t) <> C0) by (apply D2; lra).
    apply ratio_cross; try assumption. apply H; try assumption. apply RtoC_neq0. lra.
  - intros H z Hz D1 D2. pose proof (cross_ratio l1 l2 z (out_cross l1 l2 A1 A2 Z1 Z2 H) Hz) as Q.
    transitivity ((sos_num l1 z * sos_den l2 z) / (sos_den l1 z * sos_den l2 z))%C; [field; split; assumption|]. rewrite Q. field. split; assumption.
Qed.
Print Assumptions C110_transfer_is_behaviour.

(** Sections may be run in any order. *)
Theorem C110_section_order (l1 l2 : list (Sos R)) : normalised_at_rest l1 -> Permutation l1 l2 -> same_output l1 l2.
Proof.
  intros H1 P. assert (H2 : normalised_at_rest l2) by (eapply Permutation_Forall; eassumption). apply C110_transfer_is_behaviour; [exact H1|exact H2|].
  assert (Q : forall z, sos_num l1 z = sos_num l2 z /\ sos_den l1 z = sos_den l2 z).
  { intros z. clear H1 H2. induction P as [|s l l' P IH|s t l|l l' l'' P IH P' IH'].
    - split; reflexivity.
    - rewrite !sos_num_cons, !sos_den_cons. destruct IH as [-> ->]. split; reflexivity.
    - rewrite !sos_num_cons, !sos_den_cons. split; ring.
    - destruct IH as [-> ->]. exact IH'. }
  intros z Hz _ _. destruct (Q z) as [-> ->]. reflexivity.
Qed.
Print Assumptions C110_section_order.

Lemma realises_rest l f : realises l f -> normalised_at_rest l.
Proof. intros [F _]. exact F. Qed.
Lemma realises_same l1 l2 f : realises l1 f -> realises l2 f -> forall x, fst (filt x l1) = fst (filt x l2).
Proof.
  intros [F1 Q1] [F2 Q2] x. destruct (at_rest_split l1 F1) as [A1 Z1]. destruct (at_rest_split l2 F2) as [A2 Z2]. apply cross_out; try assumption.
  set (B := fold_right (fun p m => Rmax (cre p) m) 0 (zk_p f)).
  assert (HB : 0 <= B /\ forall p, In p (zk_p f) -> cre p <= B).
  { unfold B. clear. induction (zk_p f) as [|p l IH]; [split; [apply Rle_refl|intros p Hp; destruct Hp]|]. destruct IH as [IH1 IH2]. cbn [fold_right]. set (m := fold_right _ _ l) in *. pose proof (Rmax_l (cre p) m). pose proof (Rmax_r (cre p) m).
    split; [lra|]. intros q [<-|Hq]; [lra|]. specialize (IH2 q Hq). lra. }
  apply (cross_large l1 l2 B). intros t Ht. assert (T0 : RtoC t <> C0) by (apply RtoC_neq0; lra).
  assert (TP : ~ In (RtoC t) (zk_p f)) by (intros Hin; destruct HB as [_ HB]; specialize (HB _ Hin); cbn in HB; lra).
  destruct (Q1 _ T0 TP) as [D1 E1]. destruct (Q2 _ T0 TP) as [D2 E2]. apply ratio_cross; congruence.
Qed.
(** Any two ways of splitting one filter into sections filter identically: the pairing of
    zeros with poles and the order of the sections matter to rounding only. *)
Theorem C110_realisations_agree (l1 l2 : list (Sos R)) (f : @ZpkFormatFilter R) : realises l1 f -> realises l2 f -> same_output l1 l2.
Proof. intros H1 H2. apply filt_same. exact (realises_same l1 l2 f H1 H2). Qed.
Print Assumptions C110_realisations_agree.

(** Two different factorisations of one transfer function (a common factor cancels), and a
    permuted pair of sections. *)
Example C110_ex : let s a b c d e := mkSos a b c 1 d e 0 0 in
  normalised_at_rest [s 1 2 1 (1/2) (1/4); s 1 0 (-1) 0 (1/3)] /\
  normalised_at_rest [s 2 1 0 (1/2) 0] /\ normalised_at_rest [s 2 0 0 0 0] /\ same_transfer [s 2 1 0 (1/2) 0] [s 2 0 0 0 0] /\
  Permutation [s 1 2 1 (1/2) (1/4); s 1 0 (-1) 0 (1/3)] [s 1 0 (-1) 0 (1/3); s 1 2 1 (1/2) (1/4)].
Proof.
  cbv zeta. split; [repeat constructor|]. split; [repeat constructor|]. split; [repeat constructor|]. split; [|apply perm_swap].
  intros z Hz D1 D2. rewrite sos_num_cons, !sos_den_cons, !rpoly3 in *. rewrite sos_num_cons, rpoly3 in *. cbn [b0 b1 b2 a0 a1 a2] in *.
  change (sos_num [] z) with C1. change (sos_den [] z) with C1 in *.
  replace (RtoC 1 * (z * z) + RtoC (1 / 2)%R * z + RtoC 0)%C with (RtoC (1 / 2)%R * (RtoC 2 * (z * z) + RtoC 1 * z + RtoC 0))%C in *.
  2:{ apply C_ext; cbn; field. }
  assert (N : (RtoC 2 * (z * z) + RtoC 1 * z + RtoC 0)%C <> C0) by (intros Q; apply D1; rewrite Q; ring). set (w := (RtoC 2 * (z * z) + RtoC 1 * z + RtoC 0)%C) in *.
  replace (RtoC 2 * (z * z) + RtoC 0 * z + RtoC 0)%C with (RtoC 2 * (z * z))%C by (apply C_ext; cbn; ring). replace (RtoC 1 * (z * z) + RtoC 0 * z + RtoC 0)%C with (z * z)%C by (apply C_ext; cbn; ring).
  clearbody w. assert (H2 : RtoC 2 <> C0) by (apply RtoC_neq0; lra). replace (RtoC (1 / 2)%R) with (C1 / RtoC 2)%C by (apply C_ext; cbn; field). field. auto.
Qed.
