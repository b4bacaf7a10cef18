(** The output of a cascade at rest is determined by its transfer function, and determines it. *)
From Coq Require Import List Arith Bool Lia Reals Lra Permutation.
From Verif Require Import Base Num M_Complex M_Filter Cx S_Design S_Filter ListUtil P_Sosfilt P_Sos P_Transfer.
Import ListNotations.
Local Open Scope R_scope.

(** Polynomials by their values *)
Fixpoint ev (p : list R) (t : R) : R := match p with [] => 0 | a :: p' => a + t * ev p' t end.
Lemma ev_padd u v t : ev (padd u v) t = ev u t + ev v t.
Proof. revert v. induction u as [|a u IH]; intros [|b v]; cbn; try lra. rewrite IH. ring. Qed.
Lemma ev_map a q t : ev (map (Rmult a) q) t = a * ev q t.
Proof. induction q as [|b q IH]; cbn; [ring|]. rewrite IH. ring. Qed.
Lemma ev_polymul p q t : ev (polymul p q) t = ev p t * ev q t.
Proof. induction p as [|a p IH]; [cbn; ring|]. rewrite polymul_cons, ev_padd, ev_map. cbn [ev]. rewrite IH. ring. Qed.
Lemma ev_bound p : exists B, 0 <= B /\ forall t, Rabs t <= 1 -> Rabs (ev p t) <= B.
Proof.
  induction p as [|a p [B [B0 IH]]]; [exists 0; split; [lra|intros; cbn; rewrite Rabs_R0; lra]|].
  exists (Rabs a + B). pose proof (Rabs_pos a). split; [lra|]. intros t Ht. cbn [ev]. eapply Rle_trans; [apply Rabs_triang|]. apply Rplus_le_compat_l.
  rewrite Rabs_mult. specialize (IH t Ht). pose proof (Rabs_pos t). pose proof (Rabs_pos (ev p t)). nra.
Qed.
Lemma ev_zero p d : 0 < d -> (forall t, 0 < t < d -> ev p t = 0) -> forall k, nth k p 0 = 0.
Proof.
  induction p as [|a p IH]; intros Hd H k; [destruct k; reflexivity|].
  assert (A : a = 0).
  { destruct (ev_bound p) as [B [B0 HB]]. destruct (Req_dec a 0) as [Q|Q]; [exact Q|exfalso]. pose proof (Rabs_pos_lt a Q) as PA.
    set (t := Rmin (Rmin (d / 2) 1) (Rabs a / (2 * (B + 1)))).
    assert (P1 : 0 < Rabs a / (2 * (B + 1))) by (apply Rmult_lt_0_compat; [exact PA|apply Rinv_0_lt_compat; lra]).
    assert (T : 0 < t < d /\ t <= 1 /\ t <= Rabs a / (2 * (B + 1))).
    { unfold t. pose proof (Rmin_l (Rmin (d / 2) 1) (Rabs a / (2 * (B + 1)))). pose proof (Rmin_r (Rmin (d / 2) 1) (Rabs a / (2 * (B + 1)))).
      pose proof (Rmin_l (d / 2) 1). pose proof (Rmin_r (d / 2) 1). split; [|lra]. split; [|lra]. repeat apply Rmin_glb_lt; lra. }
    destruct T as (T1 & T2 & T3). specialize (H t T1). cbn [ev] in H. assert (HT : Rabs t <= 1) by (rewrite Rabs_right; lra). specialize (HB t HT).
    assert (E : Rabs a = t * Rabs (ev p t)). { replace a with (- (t * ev p t)) by lra. rewrite Rabs_Ropp, Rabs_mult, (Rabs_right t) by lra. reflexivity. }
    assert (L : t * (2 * (B + 1)) <= Rabs a). { apply (Rmult_le_compat_r (2 * (B + 1))) in T3; [|lra]. unfold Rdiv in T3. rewrite Rmult_assoc, Rinv_l in T3 by lra. lra. }
    assert (t * Rabs (ev p t) <= t * B) by (apply Rmult_le_compat_l; lra). nra. }
  destruct k as [|k]; [exact A|]. cbn [nth]. apply IH; [exact Hd|]. intros t Ht. specialize (H t Ht). cbn [ev] in H. rewrite A in H.
  apply (Rmult_eq_reg_l t); lra.
Qed.
Lemma nth_padd u v k : nth k (padd u v) 0 = nth k u 0 + nth k v 0.
Proof. revert v k. induction u as [|a u IH]; intros [|b v] [|k]; cbn; try lra; try apply IH. Qed.
Lemma nth_scale a q k : nth k (map (Rmult a) q) 0 = a * nth k q 0.
Proof. revert k. induction q as [|b q IH]; intros [|k]; cbn; try ring; apply IH. Qed.
Lemma ev_coefs p q d : 0 < d -> (forall t, 0 < t < d -> ev p t = ev q t) -> forall k, nth k p 0 = nth k q 0.
Proof.
  intros Hd H k. pose proof (ev_zero (padd p (map (Rmult (-1)) q)) d Hd) as Z. specialize (Z ltac:(intros t Ht; rewrite ev_padd, ev_map, (H t Ht); ring) k).
  rewrite nth_padd, nth_scale in Z. lra.
Qed.
Lemma coefs_ev p q t : (forall k, nth k p 0 = nth k q 0) -> ev p t = ev q t.
Proof.
  revert q. induction p as [|a p IH]; intros q H.
  - cbn [ev]. induction q as [|b q IHq]; [reflexivity|]. cbn [ev]. rewrite <- IHq; [pose proof (H 0%nat) as Q; cbn in Q; lra|]. intros k. specialize (H (S k)). cbn in H. destruct k; exact H.
  - destruct q as [|b q].
    + cbn [ev]. rewrite (IH []); [pose proof (H 0%nat) as Q; cbn in Q |- *; lra|]. intros k. specialize (H (S k)). cbn [nth] in H. rewrite H. destruct k; reflexivity.
    + cbn [ev]. rewrite (IH q); [pose proof (H 0%nat) as Q; cbn in Q; lra|]. intros k. exact (H (S k)).
Qed.

(** As operators on signals *)
Lemma op_coefs p q f i : (forall k, nth k p 0 = nth k q 0) -> op p f i = op q f i.
Proof.
  revert q i. induction p as [|a p IH]; intros q i H.
  - cbn [op]. revert i. induction q as [|b q IHq]; intros i; [reflexivity|]. cbn [op]. pose proof (H 0%nat) as Q. cbn in Q. subst b.
    assert (Hq : forall k, nth k [] 0 = nth k q 0) by (intros k; specialize (H (S k)); cbn in H; destruct k; exact H). specialize (IHq Hq). destruct i; cbn [D]; [lra|]. rewrite <- (IHq i). lra.
  - destruct q as [|b q].
    + assert (Hq : forall k, nth k p 0 = nth k [] 0) by (intros k; specialize (H (S k)); cbn [nth] in H; rewrite H; destruct k; reflexivity).
      pose proof (H 0%nat) as Q. cbn in Q. cbn [op]. rewrite Q. destruct i; cbn [D]; [lra|]. rewrite (IH [] i Hq). cbn. lra.
    + pose proof (H 0%nat) as Q. cbn in Q. cbn [op]. rewrite Q. f_equal. apply D_local. intros j _. apply IH. intros k. exact (H (S k)).
Qed.
Lemma op_inj a p f g n : a <> 0 -> (forall i, (i < n)%nat -> op (a :: p) f i = op (a :: p) g i) -> forall i, (i < n)%nat -> f i = g i.
Proof.
  intros Ha H i. induction i as [i IH] using (well_founded_induction lt_wf). intros Hi. specialize (H i Hi). cbn [op] in H.
  rewrite (D_local (op p f) (op p g)) in H.
  - apply (Rmult_eq_reg_l a); lra.
  - intros j Hj. apply op_local. intros k Hk. apply IH; lia.
Qed.
Definition delta (i : nat) : R := match i with O => 1 | S _ => 0 end.
Lemma op_delta p i : op p delta i = nth i p 0.
Proof. revert i. induction p as [|a p IH]; intros [|i]; cbn; try lra. rewrite IH. lra. Qed.

(** Sections in the delay and in z *)
Definition head1 (p : list R) : Prop := exists q, p = 1 :: q.
Lemma head1_mul p q : head1 p -> head1 q -> head1 (polymul p q).
Proof. intros [p' ->] [q' ->]. rewrite polymul_cons. cbn [map padd]. eexists. f_equal. ring. Qed.
Lemma den_head l : Forall (fun s => a0 s = 1) l -> head1 (cascade_den l).
Proof.
  induction 1 as [|s l A _ IH]; [exists []; reflexivity|]. change (cascade_den (s :: l)) with (polymul [a0 s; a1 s; a2 s] (cascade_den l)).
  apply head1_mul; [rewrite A; eexists; reflexivity|exact IH].
Qed.
Lemma sec_at a b c t : t <> 0 -> rpoly_at [a; b; c] (RtoC (/ t)) = RtoC (/ t ^ 2 * ev [a; b; c] t).
Proof. intros Ht. rewrite rpoly3. apply C_ext; cbn; field; exact Ht. Qed.
Lemma num_at l t : t <> 0 -> sos_num l (RtoC (/ t)) = RtoC (/ t ^ (2 * length l) * ev (cascade_num l) t).
Proof.
  intros Ht. induction l as [|s l IH]; [apply C_ext; cbn; field|]. rewrite sos_num_cons, IH, sec_at by exact Ht.
  change (cascade_num (s :: l)) with (polymul [b0 s; b1 s; b2 s] (cascade_num l)). rewrite ev_polymul. rewrite <- RtoC_mul. f_equal. cbn [length]. replace (2 * S (length l))%nat with (2 + 2 * length l)%nat by lia. rewrite pow_add.
  assert (t ^ (2 * length l) <> 0) by (apply pow_nonzero; exact Ht). field. split; assumption.
Qed.
Lemma den_at l t : t <> 0 -> sos_den l (RtoC (/ t)) = RtoC (/ t ^ (2 * length l) * ev (cascade_den l) t).
Proof.
  intros Ht. induction l as [|s l IH]; [apply C_ext; cbn; field|]. rewrite sos_den_cons, IH, sec_at by exact Ht.
  change (cascade_den (s :: l)) with (polymul [a0 s; a1 s; a2 s] (cascade_den l)). rewrite ev_polymul. rewrite <- RtoC_mul. f_equal. cbn [length]. replace (2 * S (length l))%nat with (2 + 2 * length l)%nat by lia. rewrite pow_add.
  assert (t ^ (2 * length l) <> 0) by (apply pow_nonzero; exact Ht). field. split; assumption.
Qed.
(** Over the complex numbers *)
Fixpoint cev (p : list R) (t : C) : C := match p with [] => C0 | a :: p' => (RtoC a + t * cev p' t)%C end.
Lemma cev_padd u v t : cev (padd u v) t = (cev u t + cev v t)%C.
Proof. revert v. induction u as [|a u IH]; intros [|b v]; cbn [padd cev]; try ring. rewrite IH, RtoC_add. ring. Qed.
Lemma cev_map a q t : cev (map (Rmult a) q) t = (RtoC a * cev q t)%C.
Proof. induction q as [|b q IH]; cbn [map cev]; [ring|]. rewrite IH, RtoC_mul. ring. Qed.
Lemma cev_polymul p q t : cev (polymul p q) t = (cev p t * cev q t)%C.
Proof. induction p as [|a p IH]; [cbn [polymul cev]; ring|]. rewrite polymul_cons, cev_padd, cev_map. cbn [cev]. rewrite IH. change (RtoC 0) with C0. ring. Qed.
Lemma coefs_cev p q t : (forall k, nth k p 0 = nth k q 0) -> cev p t = cev q t.
Proof.
  revert q. induction p as [|a p IH]; intros q H.
  - cbn [cev]. induction q as [|b q IHq]; [reflexivity|]. cbn [cev]. rewrite <- IHq; [pose proof (H 0%nat) as Q; cbn in Q; subst b; change (RtoC 0) with C0; ring|]. intros k. specialize (H (S k)). cbn in H. destruct k; exact H.
  - destruct q as [|b q].
    + cbn [cev]. rewrite (IH []); [pose proof (H 0%nat) as Q; cbn in Q; subst a; cbn [cev]; change (RtoC 0) with C0; ring|]. intros k. specialize (H (S k)). cbn [nth] in H. rewrite H. destruct k; reflexivity.
    + cbn [cev]. rewrite (IH q); [pose proof (H 0%nat) as Q; cbn in Q; subst b; reflexivity|]. intros k. exact (H (S k)).
Qed.
Lemma csec_at a b c z : z <> C0 -> rpoly_at [a; b; c] z = (z * z * cev [a; b; c] (C1 / z))%C.
Proof. intros Hz. rewrite rpoly3. cbn [cev]. field. exact Hz. Qed.
Lemma cnum_at l z : z <> C0 -> sos_num l z = (cpow z (2 * length l) * cev (cascade_num l) (C1 / z))%C.
Proof.
  intros Hz. induction l as [|s l IH]; [cbn [length Nat.mul cpow cascade_num map fold_right cev]; change (sos_num [] z) with C1; change (RtoC 1) with C1; change (cpow z (0 + (0 + 0))) with C1; field; exact Hz|].
  rewrite sos_num_cons, IH, csec_at by exact Hz. change (cascade_num (s :: l)) with (polymul [b0 s; b1 s; b2 s] (cascade_num l)). rewrite cev_polymul.
  cbn [length]. replace (2 * S (length l))%nat with (S (S (2 * length l))) by lia. cbn [cpow]. ring.
Qed.
Lemma cden_at l z : z <> C0 -> sos_den l z = (cpow z (2 * length l) * cev (cascade_den l) (C1 / z))%C.
Proof.
  intros Hz. induction l as [|s l IH]; [cbn [length Nat.mul cpow cascade_den map fold_right cev]; change (sos_den [] z) with C1; change (RtoC 1) with C1; change (cpow z (0 + (0 + 0))) with C1; field; exact Hz|].
  rewrite sos_den_cons, IH, csec_at by exact Hz. change (cascade_den (s :: l)) with (polymul [a0 s; a1 s; a2 s] (cascade_den l)). rewrite cev_polymul.
  cbn [length]. replace (2 * S (length l))%nat with (S (S (2 * length l))) by lia. cbn [cpow]. ring.
Qed.

Section Two.
Variables l1 l2 : list (Sos R).
Hypothesis A1 : Forall (fun s => a0 s = 1) l1.
Hypothesis A2 : Forall (fun s => a0 s = 1) l2.
Hypothesis Z1 : Forall zero_state l1.
Hypothesis Z2 : Forall zero_state l2.
Definition cross : Prop := forall k, nth k (polymul (cascade_num l1) (cascade_den l2)) 0 = nth k (polymul (cascade_num l2) (cascade_den l1)) 0.
Lemma cross_large B : (forall t, B < t -> (sos_num l1 (RtoC t) * sos_den l2 (RtoC t))%C = (sos_num l2 (RtoC t) * sos_den l1 (RtoC t))%C) -> cross.
Proof.
  intros H. assert (HB : 0 < Rmax B 1) by (pose proof (Rmax_r B 1); lra). unfold cross. apply (ev_coefs _ _ (/ Rmax B 1)); [apply Rinv_0_lt_compat; exact HB|]. intros t [T0 T1].
  assert (T : B < / t). { apply Rle_lt_trans with (Rmax B 1); [apply Rmax_l|]. rewrite <- (Rinv_inv (Rmax B 1)). apply Rinv_lt_contravar; [|exact T1]. apply Rmult_lt_0_compat; [exact T0|apply Rinv_0_lt_compat; exact HB]. }
  specialize (H (/ t) T). rewrite !num_at, !den_at in H by lra. rewrite <- !RtoC_mul in H. apply RtoC_inj in H. rewrite !ev_polymul.
  assert (P1 : t ^ (2 * length l1) <> 0) by (apply pow_nonzero; lra). assert (P2 : t ^ (2 * length l2) <> 0) by (apply pow_nonzero; lra).
  set (p := t ^ (2 * length l1)) in *. set (q := t ^ (2 * length l2)) in *. set (n1 := ev (cascade_num l1) t) in *. set (n2 := ev (cascade_num l2) t) in *. set (d1 := ev (cascade_den l1) t) in *. set (d2 := ev (cascade_den l2) t) in *.
  clearbody p q n1 n2 d1 d2. apply (f_equal (Rmult (p * q))) in H. replace (p * q * (/ p * n1 * (/ q * d2))) with (n1 * d2) in H by (field; split; assumption). replace (p * q * (/ q * n2 * (/ p * d1))) with (n2 * d1) in H by (field; split; assumption). exact H.
Qed.
Lemma cross_out x : cross -> fst (filt x l1) = fst (filt x l2).
Proof.
  intros H. apply (nth_ext _ _ 0 0); [rewrite !filt_length_out; reflexivity|]. rewrite filt_length_out. intros i Hi.
  set (y1 := fst (filt x l1)). set (y2 := fst (filt x l2)). change (sig y1 i = sig y2 i). set (d1 := cascade_den l1). set (d2 := cascade_den l2). set (n1 := cascade_num l1). set (n2 := cascade_num l2).
  pose proof (cascade_transfer l1 x Z1 A1) as T1. pose proof (cascade_transfer l2 x Z2 A2) as T2. fold y1 d1 n1 in T1. fold y2 d2 n2 in T2.
  destruct (head1_mul _ _ (den_head l1 A1) (den_head l2 A2)) as [p Hp]. fold d1 d2 in Hp.
  apply (op_inj 1 p (sig y1) (sig y2) (length x)); [lra| |exact Hi]. rewrite <- Hp. intros j Hj. rewrite !op_mul.
  rewrite (op_comm d1 d2). rewrite (op_local d2 (op d1 (sig y1)) (op n1 (sig x))) by (intros k Hk; apply T1; lia). rewrite (op_local d1 (op d2 (sig y2)) (op n2 (sig x))) by (intros k Hk; apply T2; lia).
  rewrite (op_comm d2 n1), (op_comm d1 n2), <- !op_mul. apply op_coefs. exact H.
Qed.
Lemma out_cross : (forall x, fst (filt x l1) = fst (filt x l2)) -> cross.
Proof.
  intros H k. set (x := 1 :: repeat 0 k). assert (Lx : length x = S k) by (unfold x; cbn [length]; rewrite repeat_length; reflexivity).
  assert (SX : forall j, sig x j = delta j). { intros [|j]; [reflexivity|]. unfold sig, x. cbn [nth delta]. destruct (Nat.lt_ge_cases j k) as [L|L]; [apply nth_repeat|apply nth_overflow; rewrite repeat_length; exact L]. }
  pose proof (cascade_transfer l1 x Z1 A1) as T1. pose proof (cascade_transfer l2 x Z2 A2) as T2. rewrite <- (H x) in T2. set (y := fst (filt x l1)) in *.
  rewrite <- !op_delta, !op_mul.
  rewrite (op_comm (cascade_num l1)), (op_comm (cascade_num l2)).
  rewrite (op_local (cascade_den l2) (op (cascade_num l1) delta) (op (cascade_den l1) (sig y))).
  2:{ intros j Hj. rewrite T1 by lia. apply op_local. intros; symmetry; apply SX. }
  rewrite (op_local (cascade_den l1) (op (cascade_num l2) delta) (op (cascade_den l2) (sig y))).
  2:{ intros j Hj. rewrite T2 by lia. apply op_local. intros; symmetry; apply SX. }
  apply op_comm.
Qed.
Lemma cross_ratio z : cross -> z <> C0 -> (sos_num l1 z * sos_den l2 z)%C = (sos_num l2 z * sos_den l1 z)%C.
Proof.
  intros H Hz. pose proof (coefs_cev _ _ (C1 / z)%C H) as E. rewrite !cev_polymul in E. rewrite !cnum_at, !cden_at by exact Hz.
  set (p := cpow z (2 * length l1)). set (q := cpow z (2 * length l2)). transitivity (p * q * (cev (cascade_num l1) (C1 / z) * cev (cascade_den l2) (C1 / z)))%C; [ring|]. rewrite E. ring.
Qed.
Lemma den_small (l : list (Sos R)) : Forall (fun s => a0 s = 1) l -> exists B, forall t, B < t -> sos_den l (RtoC t) <> C0.
Proof.
  intros A. destruct (den_head l A) as [p Hp]. destruct (ev_bound p) as [B [B0 HB]]. exists (B + 1). intros t Ht E.
  pose proof (den_at l (/ t)) as Q. rewrite Rinv_inv in Q. rewrite Q in E by (apply Rinv_neq_0_compat; lra). change C0 with (RtoC 0) in E. apply RtoC_inj in E.
  assert (T0 : 0 < / t) by (apply Rinv_0_lt_compat; lra). assert (T1 : / t * (B + 1) < 1). { apply (Rmult_lt_reg_l t); [lra|]. rewrite <- Rmult_assoc, Rinv_r by lra. lra. }
  assert (T2 : / t <= 1) by nra.
  apply Rmult_integral in E. destruct E as [E|E]; [revert E; apply Rinv_neq_0_compat, pow_nonzero; lra|]. rewrite Hp in E. cbn [ev] in E.
  specialize (HB (/ t)). rewrite (Rabs_right (/ t)) in HB by lra. specialize (HB T2). assert (- B <= ev p (/ t)) by (pose proof (Rle_abs (- ev p (/ t))) as Q2; rewrite Rabs_Ropp in Q2; lra). nra.
Qed.
End Two.
