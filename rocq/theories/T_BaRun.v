(** The coefficients of a design (Ba output) are those of the difference equation its sections (Sos output) run. *)
From Coq Require Import Reals ZArith List Permutation Lia Lra.
From Verif Require Import Base Num Trans M_Complex M_Fourier M_Filter M_Design Cx RSum S_Design S_Filter S_Ztrans P_Poly P_Sort P_Sosfilt P_Transfer P_Unique P_Iir T_Filter T_Unique T_Iir T_Design T_Sos T_Ztrans T_Cascade2.
Import ListNotations.
Local Open Scope R_scope.

Lemma small_not_in (l : list C) : exists d, 0 < d /\ forall t, 0 < t < d -> ~ In (RtoC (/ t)) l.
Proof.
  induction l as [|p l [d [D H]]]; [exists 1; split; [lra|intros t _ []]|].
  assert (P : 0 < / (1 + Rabs (cre p))) by (apply Rinv_0_lt_compat; pose proof (Rabs_pos (cre p)); lra).
  exists (Rmin d (/ (1 + Rabs (cre p)))). split; [apply Rmin_pos; assumption|]. intros t [T0 T1]. pose proof (Rmin_l d (/ (1 + Rabs (cre p)))). pose proof (Rmin_r d (/ (1 + Rabs (cre p)))).
  intros [E|I]; [|revert I; apply H; lra]. apply (f_equal cre) in E. cbn in E.
  assert (Q : 1 + Rabs (cre p) < / t) by (rewrite <- (Rinv_inv (1 + Rabs (cre p))); apply Rinv_lt_contravar; [apply Rmult_lt_0_compat; lra|lra]).
  pose proof (Rle_abs (cre p)). lra.
Qed.
Lemma rpoly_ev a t : t <> 0 -> rpoly_at a (RtoC (/ t)) = RtoC (/ t ^ (length a - 1) * ev a t).
Proof.
  intros Ht. assert (E : (RtoC (/ t) * RtoC t)%C = C1) by (apply C_ext; cbn; field; exact Ht).
  pose proof (rpoly_ztrans a _ _ E) as Q. rewrite ztrans_ev in Q.
  assert (P : forall n, cpow (RtoC t) n = RtoC (t ^ n)) by (induction n as [|n IH]; [reflexivity|]; cbn [cpow pow]; rewrite IH; apply C_ext; cbn; ring).
  rewrite P in Q. assert (Z : t ^ (length a - 1) <> 0) by (apply pow_nonzero, Ht).
  transitivity (rpoly_at a (RtoC (/ t)) * RtoC (t ^ (length a - 1)) * RtoC (/ t ^ (length a - 1)))%C.
  - rewrite <- (RtoC_mult (t ^ _)) || idtac. transitivity (rpoly_at a (RtoC (/ t)) * (RtoC (t ^ (length a - 1)) * RtoC (/ t ^ (length a - 1))))%C; [|ring]. rewrite <- RtoC_mult, Rinv_r by exact Z. change (RtoC 1) with C1. ring.
  - rewrite Q, <- RtoC_mult. f_equal. ring.
Qed.
Lemma RtoC_inj a b : RtoC a = RtoC b -> a = b.
Proof. intros H. apply (f_equal cre) in H. exact H. Qed.
Lemma ba_run (b a : list R) l f x : length b = length a -> Forall (fun s => a0 s = 1) l -> Forall zero_state l ->
  (forall z, z <> C0 -> ~ In z (zk_p f) -> rpoly_at a z <> C0 /\ (rpoly_at b z / rpoly_at a z)%C = H f z) ->
  (forall z, z <> C0 -> ~ In z (zk_p f) -> sos_den l z <> C0 /\ (sos_num l z / sos_den l z)%C = H f z) ->
  forall i, (i < length x)%nat -> delay_poly a (fst (filt x l)) i = delay_poly b x i.
Proof.
  intros L A Z Hb Hl. destruct (small_not_in (zk_p f)) as [d [D Nin]].
  assert (X : forall k, nth k (polymul b (cascade_den l)) 0 = nth k (polymul a (cascade_num l)) 0).
  { apply (ev_coefs _ _ d D). intros t Ht. rewrite !ev_polymul. assert (T : t <> 0) by lra.
    assert (Z0 : RtoC (/ t) <> C0) by (intros Q; apply (f_equal cre) in Q; cbn in Q; pose proof (Rinv_0_lt_compat t ltac:(lra)); lra).
    destruct (Hb _ Z0 (Nin t Ht)) as [B1 B2]. destruct (Hl _ Z0 (Nin t Ht)) as [L1 L2]. rewrite <- L2 in B2.
    apply ratio_cross in B2; [|exact B1|exact L1]. rewrite !rpoly_ev, num_at, den_at, L in B2 by exact T. rewrite <- !RtoC_mult in B2. apply RtoC_inj in B2.
    assert (P1 : t ^ (length a - 1) <> 0) by (apply pow_nonzero, T). assert (P2 : t ^ (2 * length l) <> 0) by (apply pow_nonzero, T).
    apply (Rmult_eq_reg_l (/ t ^ (length a - 1) * / t ^ (2 * length l))); [|apply Rmult_integral_contrapositive_currified; apply Rinv_neq_0_compat; assumption]. lra. }
  destruct (den_head l A) as [q Eq]. pose proof (cascade_transfer l x Z A) as C.
  assert (Main : forall i, (i < length x)%nat -> op a (sig (fst (filt x l))) i = op b (sig x) i).
  { apply (op_inj 1 q _ _ (length x) R1_neq_R0). rewrite <- Eq. intros i Hi. rewrite op_comm.
    rewrite (op_local a (op (cascade_den l) (sig (fst (filt x l)))) (op (cascade_num l) (sig x))) by (intros j Hj; apply C; lia).
    rewrite <- op_mul. rewrite op_comm, <- op_mul. symmetry. apply op_coefs. exact X. }
  intros i Hi. rewrite !delay_poly_op. apply Main, Hi.
Qed.
(** Digital Butterworth and Chebyshev I designs: the output y of the sections returned with Sos output for a signal x satisfies
    sum_j a_j y[i-j] = sum_j b_j x[i-j] at every sample, b and a returned with Ba output for the same arguments. *)
Theorem C145_ba_run epsilon sort N wn bt analog fs rp x :
  0 <= epsilon -> is_sort sort -> analog <> Some true -> valid_digital bt (normalised wn fs) ->
  let agree (zpk ba sos : res DigitalFilter) := exists f b a, zpk = Ok (DZpk f) /\ ba = Ok (DBa (mkBa b a)) /\ nth 0 a 0 = 1 /\
    (separated epsilon (zk_z f) -> separated epsilon (zk_p f) ->
     exists l y l', sos = Ok (DSos l) /\ sosfilt_dyn x l = Ok (y, l') /\ length y = length x /\
       forall i, (i < length x)%nat -> delay_poly a y i = delay_poly b x i) in
  (let butter out := butter_dyn epsilon sort N wn (Some bt) analog (Some out) fs in agree (butter OutZpk) (butter OutBa) (butter OutSos)) /\
  ((0 < N)%nat -> 0 < rp ->
   let cheby1 out := cheby1_dyn epsilon sort N rp wn (Some bt) analog (Some out) fs in agree (cheby1 OutZpk) (cheby1 OutBa) (cheby1 OutSos)).
Proof.
  intros He Hs Ha Hv agree.
  destruct (C65_ba_output epsilon sort N wn bt analog fs rp Hs Ha Hv) as [B1 B2]. destruct (C67_sos_output epsilon sort N wn bt analog fs rp He Hs Ha Hv) as [S1 S2].
  assert (G : forall zpk ba sos, (exists f b a, zpk = Ok (DZpk f) /\ ba = Ok (DBa (mkBa b a)) /\
      length b = (2 * N + 1)%nat /\ length a = (2 * N + 1)%nat /\ nth 0 a 0 = 1 /\
      forall x, x <> C0 -> ~ In x (zk_p f) -> rpoly_at a x <> C0 /\ (rpoly_at b x / rpoly_at a x)%C = H f x) ->
    (exists f, zpk = Ok (DZpk f) /\
      (separated epsilon (zk_z f) -> separated epsilon (zk_p f) ->
       exists l, sos = Ok (DSos l) /\ length l = Nat.max 1 ((band_arity bt * N + 1) / 2) /\
       Forall (fun s => a0 s = 1 /\ zi0 s = 0 /\ zi1 s = 0) l /\
       (forall x, x <> C0 -> ~ In x (zk_p f) -> sos_den l x <> C0 /\ (sos_num l x / sos_den l x)%C = H f x) /\
       (forall x, sos_den l x = C0 -> cnorm_sqr x < 1))) -> agree zpk ba sos).
  { intros zpk ba sos [f [b [a [E1 [E2 [Lb [La [N0 Hb]]]]]]]] [f' [E1' HS]]. rewrite E1 in E1'. injection E1' as <-. exists f, b, a. split; [exact E1|]. split; [exact E2|]. split; [exact N0|].
    intros Sz Sp. destruct (HS Sz Sp) as [l [El [_ [Fl [Hl _]]]]]. clear HS.
    assert (A : Forall (fun s => a0 s = 1) l) by (revert Fl; apply Forall_impl; tauto). assert (Z : Forall zero_state l) by (revert Fl; apply Forall_impl; unfold zero_state; tauto).
    exists l, (fst (filt x l)), (snd (filt x l)). split; [exact El|].
    split; [|split; [|apply (ba_run b a l f x); try assumption; congruence]].
    - rewrite sosfilt_dyn_pure. destruct (filt x l); reflexivity.
    - apply filt_length_out. }
  split; [exact (G _ _ _ B1 S1)|]. intros HN Hr. exact (G _ _ _ (B2 HN Hr) (S2 HN Hr)).
Qed.
Print Assumptions C145_ba_run.
(** A band-pass of order 2 N = 6 and any signal. *)
Example C145_ex x : exists b a l y l', butter_dyn 0 isort 3 [10; 20] (Some Bandpass) None (Some OutBa) (Some 100) = Ok (DBa (mkBa b a)) /\
  butter_dyn 0 isort 3 [10; 20] (Some Bandpass) None (Some OutSos) (Some 100) = Ok (DSos l) /\ sosfilt_dyn x l = Ok (y, l') /\
  forall i, (i < length x)%nat -> delay_poly a y i = delay_poly b x i.
Proof.
  destruct (C145_ba_run 0 isort 3 [10; 20] Bandpass None (Some 100) 1 x ltac:(lra) isort_is_sort ltac:(discriminate) C57_hyp_met) as [[f [b [a [_ [Eb [_ G]]]]]] _].
  destruct (G (C67_separated_exact _) (C67_separated_exact _)) as [l [y [l' [El [Ey [_ F]]]]]]. exists b, a, l, y, l'. split; [exact Eb|]. split; [exact El|]. split; [exact Ey|exact F].
Qed.
