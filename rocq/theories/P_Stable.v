(** Stable sections: decay of transients, bounded output, sinusoidal steady state. *)
From Coq Require Import List Arith Bool Lia Reals Lra Psatz.
From Verif Require Import Base Num Trans M_Complex M_Linalg M_Filter S_Filter ListUtil P_Sosfilt P_Transfer Cx S_Design S_Stable P_Lp P_Proto P_Sos.
Import ListNotations.
Local Open Scope R_scope.

(** ** The modulus of a complex number *)
Lemma cnorm_pos (z : C) : 0 <= cnorm z.
Proof. apply sqrt_pos. Qed.
Lemma cnorm_sq (z : C) : cnorm z * cnorm z = cnorm_sqr z.
Proof. apply sqrt_sqrt. unfold cnorm_sqr. cbn. nra. Qed.
Lemma cnorm_mul (z w : C) : cnorm (z * w)%C = cnorm z * cnorm w.
Proof. rewrite ?cnorm_def. rewrite cnorm_sqr_mul. apply sqrt_mult; unfold cnorm_sqr; cbn; nra. Qed.
Lemma cnorm_RtoC x : cnorm (RtoC x) = Rabs x.
Proof. rewrite ?cnorm_def. rewrite cnorm_sqr_RtoC. apply sqrt_Rsqr_abs. Qed.
Lemma cre_le (z : C) : Rabs (cre z) <= cnorm z.
Proof.
  apply Rsqr_incr_0_var; [|apply cnorm_pos]. rewrite <- Rsqr_abs. unfold Rsqr. rewrite cnorm_sq. unfold cnorm_sqr. cbn. nra.
Qed.
Lemma cnorm_add (z w : C) : cnorm (z + w)%C <= cnorm z + cnorm w.
Proof.
  pose proof (cnorm_pos z). pose proof (cnorm_pos w). apply Rsqr_incr_0_var; [|lra]. unfold Rsqr.
  assert (Q : cre z * cre w + cim z * cim w <= cnorm z * cnorm w).
  { apply Rle_trans with (Rabs (cre z * cre w + cim z * cim w)); [apply Rle_abs|].
    apply Rsqr_incr_0_var; [|apply Rmult_le_pos; assumption]. rewrite <- Rsqr_abs. unfold Rsqr.
    replace (cnorm z * cnorm w * (cnorm z * cnorm w)) with ((cnorm z * cnorm z) * (cnorm w * cnorm w)) by ring. rewrite !cnorm_sq. unfold cnorm_sqr. cbn. destruct z as [a b], w as [c d]. cbn. pose proof (Rle_0_sqr (a * d - b * c)) as Q. unfold Rsqr in Q. nra. }
  rewrite cnorm_sq. replace ((cnorm z + cnorm w) * (cnorm z + cnorm w)) with (cnorm z * cnorm z + cnorm w * cnorm w + 2 * (cnorm z * cnorm w)) by ring.
  rewrite !cnorm_sq. unfold cnorm_sqr in *. cbn in *. lra.
Qed.
Lemma cnorm_lt1 (z : C) : cnorm_sqr z < 1 -> cnorm z < 1.
Proof. intros Q. pose proof (cnorm_pos z). pose proof (cnorm_sq z). nra. Qed.

(** ** First-order recursions *)
Lemma geo_bound (p : C) (u e : nat -> C) K rho : cnorm p < rho -> 0 <= K ->
  (forall n, cnorm (e n) <= K * rho ^ n) -> (forall n, u (S n) = (p * u n + e n)%C) ->
  forall n, cnorm (u n) <= (cnorm (u 0%nat) + K / (rho - cnorm p)) * rho ^ n.
Proof.
  intros Hp HK He Hu. pose proof (cnorm_pos p) as P0. pose proof (cnorm_pos (u 0%nat)) as U0.
  set (B := cnorm (u 0%nat) + K / (rho - cnorm p)).
  assert (D : 0 <= K / (rho - cnorm p)) by (apply Rmult_le_pos; [lra|left; apply Rinv_0_lt_compat; lra]).
  assert (HB : cnorm p * B + K <= rho * B).
  { assert (E' : K = (rho - cnorm p) * (K / (rho - cnorm p))) by (field; lra). unfold B. nra. }
  induction n as [|n IH].
  - cbn [pow]. unfold B. lra.
  - rewrite Hu. eapply Rle_trans; [apply cnorm_add|]. rewrite cnorm_mul. specialize (He n).
    assert (0 <= rho ^ n) by (apply pow_le; lra). cbn [pow].
    apply Rle_trans with (cnorm p * (B * rho ^ n) + K * rho ^ n); [nra|]. nra.
Qed.

(** ** One section as a map of infinite signals *)
Fixpoint sst (s : Sos R) (z : R * R) (x : nat -> R) (n : nat) : R * R :=
  match n with
  | O => z
  | S k => let w := sst s z x k in
           let y := b0 s * x k + fst w in
           (b1 s * x k - a1 s * y + snd w, b2 s * x k - a2 s * y)
  end.
Definition sout (s : Sos R) (z : R * R) (x : nat -> R) (n : nat) : R := b0 s * x n + fst (sst s z x n).

Lemma sst_shift s z x n : sst s z x (S n) =
  sst s (b1 s * x 0%nat - a1 s * (b0 s * x 0%nat + fst z) + snd z, b2 s * x 0%nat - a2 s * (b0 s * x 0%nat + fst z)) (fun k => x (S k)) n.
Proof.
  induction n as [|n IH]; [reflexivity|]. cbn [sst] in IH |- *. rewrite IH. reflexivity.
Qed.
Lemma sst_local s z x x' n : (forall k, (k < n)%nat -> x k = x' k) -> sst s z x n = sst s z x' n.
Proof.
  induction n as [|n IH]; intros Hx; [reflexivity|]. cbn [sst]. rewrite IH by (intros; apply Hx; lia). rewrite (Hx n) by lia. reflexivity.
Qed.
Lemma sout_local s z x x' n : (forall k, (k <= n)%nat -> x k = x' k) -> sout s z x n = sout s z x' n.
Proof. intros Hx. unfold sout. rewrite (Hx n) by lia. rewrite (sst_local s z x x') by (intros; apply Hx; lia). reflexivity. Qed.
Lemma sst_coefs s t z x n : coefs s = coefs t -> sst s z x n = sst t z x n.
Proof.
  intros Q. unfold coefs in Q. injection Q as Q1 Q2 Q3 Q4 Q5 Q6. induction n as [|n IH]; cbn [sst]; [reflexivity|]. rewrite IH, Q1, Q2, Q3, Q5, Q6. reflexivity.
Qed.
Lemma sout_coefs s t z x n : coefs s = coefs t -> sout s z x n = sout t z x n.
Proof. intros Q. unfold sout. rewrite (sst_coefs s t) by exact Q. unfold coefs in Q. injection Q as Q1 _ _ _ _ _. rewrite Q1. reflexivity. Qed.
Lemma sst_sub s z z' x x' n :
  sst s (fst z - fst z', snd z - snd z') (fun k => x k - x' k) n = (fst (sst s z x n) - fst (sst s z' x' n), snd (sst s z x n) - snd (sst s z' x' n)).
Proof. induction n as [|n IH]; cbn [sst]; [reflexivity|]. rewrite IH. cbn [fst snd]. f_equal; ring. Qed.
Lemma sout_sub s z z' x x' n : sout s z x n - sout s z' x' n = sout s (fst z - fst z', snd z - snd z') (fun k => x k - x' k) n.
Proof. unfold sout. rewrite sst_sub. cbn [fst]. ring. Qed.

Lemma filt_single s y n : (n < length y)%nat -> nth n (fst (filt y [s])) 0 = sout s (zi0 s, zi1 s) (fun k => nth k y 0) n.
Proof.
  revert s n. induction y as [|x y IH]; intros s n Hn; [cbn in Hn; lia|].
  cbn [filt sosfilt_item biquad_fold]. cbn zeta. set (s' := set_state s _ _).
  destruct (filt y [s']) as [os s''] eqn:Ef. destruct n as [|n].
  - cbn [fst nth]. unfold sout. cbn. reflexivity.
  - cbn [fst nth]. specialize (IH s' n ltac:(cbn in Hn; lia)). rewrite Ef in IH. cbn [fst] in IH. rewrite IH.
    unfold sout. rewrite sst_shift. cbn [nth fst snd]. rewrite (sst_coefs s' s) by reflexivity. reflexivity.
Qed.

(** ** The cascade *)
Fixpoint cout (l : list (Sos R)) (x : nat -> R) : nat -> R :=
  match l with [] => x | s :: l' => cout l' (sout s (zi0 s, zi1 s) x) end.
Lemma cout_local l x x' n : (forall k, (k <= n)%nat -> x k = x' k) -> cout l x n = cout l x' n.
Proof.
  revert x x'. induction l as [|s l IH]; intros x x' Hx; cbn [cout]; [apply Hx; lia|].
  apply IH. intros k Hk. apply sout_local. intros j Hj. apply Hx. lia.
Qed.
Lemma filt_cout l y n : (n < length y)%nat -> nth n (fst (filt y l)) 0 = cout l (fun k => nth k y 0) n.
Proof.
  revert y. induction l as [|s l IH]; intros y Hn.
  - cbn [cout]. replace (fst (filt y [])) with y; [reflexivity|]. clear. induction y as [|x y IH]; [reflexivity|]. cbn. destruct (filt y []). cbn in *. congruence.
  - change (s :: l) with ([s] ++ l). rewrite filt_cascade. cbn [fst app]. rewrite IH by (rewrite filt_length_out; exact Hn).
    cbn [cout]. apply cout_local. intros k Hk. apply filt_single. lia.
Qed.
Lemma filt_signal l (x : nat -> R) N n : (n < N)%nat -> nth n (fst (filt (map x (seq 0 N)) l)) 0 = cout l x n.
Proof.
  intros Hn. rewrite filt_cout by (rewrite map_length, seq_length; exact Hn). apply cout_local. intros k Hk.
  rewrite nth_indep with (d' := x 0%nat) by (rewrite map_length, seq_length; lia). rewrite map_nth, seq_nth by lia. reflexivity.
Qed.

(** ** Bounds *)
Definition roots_within (rho : R) (s : Sos R) : Prop :=
  exists p q : C, (p + q = RtoC (- a1 s)%R)%C /\ (p * q = RtoC (a2 s))%C /\ cnorm p < rho /\ cnorm q < rho.

Lemma section_bound s rho : roots_within rho s -> 0 < rho ->
  exists G, 0 <= G /\ forall z x M, 0 <= M -> (forall n, Rabs (x n) <= M * rho ^ n) ->
    forall n, Rabs (sout s z x n) <= G * (M + Rabs (fst z) + Rabs (snd z)) * rho ^ n.
Proof.
  intros [p [q [Hsum [Hprod [Hp Hq]]]]] Hr.
  set (be0 := b1 s - a1 s * b0 s). set (be1 := b2 s - a2 s * b0 s).
  set (c := (p * RtoC be0 + RtoC be1)%C).
  set (A := / (rho - cnorm p)). set (B := / (rho - cnorm q)).
  assert (HA : 0 <= A) by (left; apply Rinv_0_lt_compat; lra). assert (HB : 0 <= B) by (left; apply Rinv_0_lt_compat; lra).
  pose proof (cnorm_pos p) as P0. pose proof (cnorm_pos c) as N0. pose proof (Rabs_pos be0) as E0.
  set (G := Rabs (b0 s) + 1 + B * (cnorm p + 1 + cnorm c * A + Rabs be0)).
  assert (HG : 0 <= B * (cnorm p + 1 + cnorm c * A + Rabs be0)) by (apply Rmult_le_pos; [exact HB|nra]).
  pose proof (Rabs_pos (b0 s)) as B0. exists G. split; [unfold G; lra|].
  intros z x M HM Hx n.
  set (u := fun n => RtoC (fst (sst s z x n))). set (w := fun n => (p * RtoC (fst (sst s z x n)) + RtoC (snd (sst s z x n)))%C).
  assert (Ea1 : RtoC (a1 s) = (- (p + q))%C) by (rewrite Hsum; cx). 
  assert (Ew : forall n, w (S n) = (p * w n + c * RtoC (x n))%C).
  { intros k. unfold w, c, be0, be1. cbn [sst fst snd]. rewrite ?RtoC_add, ?RtoC_sub, ?RtoC_mul, ?RtoC_add, ?RtoC_mul, Ea1, <- Hprod. ring. }
  assert (Eu : forall n, u (S n) = (q * u n + (w n + RtoC be0 * RtoC (x n)))%C).
  { intros k. unfold u, w, be0. cbn [sst fst snd]. rewrite ?RtoC_add, ?RtoC_sub, ?RtoC_mul, ?RtoC_add, ?RtoC_mul, Ea1. ring. }
  assert (Bw : forall n, cnorm (w n) <= (cnorm (w 0%nat) + cnorm c * M * A) * rho ^ n).
  { apply (geo_bound p w (fun n => c * RtoC (x n))%C (cnorm c * M) rho Hp); [nra| |exact Ew].
    intros k. rewrite cnorm_mul, cnorm_RtoC. specialize (Hx k). nra. }
  set (Kw := cnorm (w 0%nat) + cnorm c * M * A) in *.
  pose proof (cnorm_pos (w 0%nat)) as W0. assert (HcM : 0 <= cnorm c * M * A) by (apply Rmult_le_pos; [nra|exact HA]).
  assert (Bu : forall n, cnorm (u n) <= (cnorm (u 0%nat) + (Kw + Rabs be0 * M) * B) * rho ^ n).
  { apply (geo_bound q u (fun n => w n + RtoC be0 * RtoC (x n))%C (Kw + Rabs be0 * M) rho Hq); [unfold Kw; nra| |exact Eu].
    intros k. eapply Rle_trans; [apply cnorm_add|]. rewrite cnorm_mul, !cnorm_RtoC. specialize (Hx k). specialize (Bw k). nra. }
  specialize (Bu n). unfold u in Bu at 1 2. rewrite !cnorm_RtoC in Bu. cbn [sst] in Bu.
  assert (Bw0 : cnorm (w 0%nat) <= cnorm p * Rabs (fst z) + Rabs (snd z)).
  { unfold w. cbn [sst]. eapply Rle_trans; [apply cnorm_add|]. rewrite cnorm_mul, !cnorm_RtoC. lra. }
  unfold sout. eapply Rle_trans; [apply Rabs_triang|]. rewrite Rabs_mult. specialize (Hx n).
  assert (Hrn : 0 <= rho ^ n) by (apply pow_le; lra).
  apply Rle_trans with ((Rabs (b0 s) * M + (Rabs (fst z) + (Kw + Rabs be0 * M) * B)) * rho ^ n); [nra|].
  apply Rmult_le_compat_r; [exact Hrn|]. unfold G, Kw.
  set (Z0 := Rabs (fst z)) in *. set (Z1 := Rabs (snd z)) in *. assert (0 <= Z0) by apply Rabs_pos. assert (0 <= Z1) by apply Rabs_pos.
  set (nc := cnorm c) in *. set (np := cnorm p) in *. set (e0 := Rabs be0) in *. set (bb := Rabs (b0 s)) in *. set (w0 := cnorm (w 0%nat)) in *.
  assert (K1 : w0 + nc * M * A + e0 * M <= (np + 1 + nc * A + e0) * (M + Z0 + Z1)).
  { apply Rle_trans with (np * Z0 + Z1 + (nc * A) * M + e0 * M); [nra|]. assert (0 <= nc * A) by nra. set (na := nc * A) in *. nra. }
  assert (K2 : (w0 + nc * M * A + e0 * M) * B <= B * (np + 1 + nc * A + e0) * (M + Z0 + Z1)) by nra.
  nra.
Qed.

Lemma state_size_pos l : 0 <= state_size l.
Proof. induction l as [|s l IH]; cbn [state_size fold_right]; [lra|]. fold (state_size l). pose proof (Rabs_pos (zi0 s)). pose proof (Rabs_pos (zi1 s)). lra. Qed.

(** Two runs of the same sections, with different inputs and states, differ by at most a
    constant times the difference of inputs and the size of the states. *)
Lemma cascade_bound l rho : Forall (roots_within rho) l -> 0 < rho ->
  exists G, 0 <= G /\ forall l1 l2 x1 x2 M, same_coefs l1 l -> same_coefs l2 l -> 0 <= M ->
    (forall n, Rabs (x1 n - x2 n) <= M * rho ^ n) ->
    forall n, Rabs (cout l1 x1 n - cout l2 x2 n) <= G * (M + state_size l1 + state_size l2) * rho ^ n.
Proof.
  intros HF Hr. induction HF as [|s l Hs HF IH].
  - exists 1. split; [lra|]. intros l1 l2 x1 x2 M E1 E2 HM Hx n. destruct l1; [|discriminate E1]. destruct l2; [|discriminate E2].
    cbn [cout state_size fold_right]. specialize (Hx n). lra.
  - destruct IH as [G2 [HG2 IH]]. destruct (section_bound s rho Hs Hr) as [G1 [HG1 B1]].
    exists (G2 * (G1 + 1)). split; [apply Rmult_le_pos; lra|]. intros l1 l2 x1 x2 M E1 E2 HM Hx n.
    destruct l1 as [|s1 l1]; [discriminate E1|]. destruct l2 as [|s2 l2]; [discriminate E2|].
    unfold same_coefs in E1, E2. cbn [map] in E1, E2. 
    assert (C1' : coefs s1 = coefs s) by congruence. assert (C2' : coefs s2 = coefs s) by congruence.
    assert (T1 : map coefs l1 = map coefs l) by congruence. assert (T2 : map coefs l2 = map coefs l) by congruence.
    cbn [cout state_size fold_right]. fold (state_size l1). fold (state_size l2).
    pose proof (Rabs_pos (zi0 s1)). pose proof (Rabs_pos (zi1 s1)). pose proof (Rabs_pos (zi0 s2)). pose proof (Rabs_pos (zi1 s2)).
    pose proof (state_size_pos l1). pose proof (state_size_pos l2).
    set (S12 := Rabs (zi0 s1) + Rabs (zi1 s1) + (Rabs (zi0 s2) + Rabs (zi1 s2))) in *.
    assert (HS : 0 <= S12) by (unfold S12; lra).
    eapply Rle_trans; [apply (IH l1 l2 _ _ (G1 * (M + S12)) T1 T2)|].
    + apply Rmult_le_pos; lra.
    + intros k. rewrite (sout_coefs s1 s), (sout_coefs s2 s) by assumption. rewrite sout_sub. cbn [fst snd].
      eapply Rle_trans; [apply (B1 _ _ M HM Hx)|]. cbn [fst snd]. apply Rmult_le_compat_r; [apply pow_le; lra|]. apply Rmult_le_compat_l; [exact HG1|].
      pose proof (Rabs_triang (zi0 s1) (- zi0 s2)) as T3. pose proof (Rabs_triang (zi1 s1) (- zi1 s2)) as T4. rewrite Rabs_Ropp in T3, T4. unfold S12, Rminus. lra.
    + apply Rmult_le_compat_r; [apply pow_le; lra|]. unfold S12 in *. 
      set (sa := state_size l1) in *. set (sb := state_size l2) in *.
      rewrite Rmult_assoc. apply Rmult_le_compat_l; [exact HG2|].
      set (u := Rabs (zi0 s1)) in *. set (v := Rabs (zi1 s1)) in *. set (u' := Rabs (zi0 s2)) in *. set (v' := Rabs (zi1 s2)) in *.
      replace (M + (u + v + sa) + (u' + v' + sb)) with ((M + (u + v + (u' + v'))) + (sa + sb)) by ring.
      assert (0 <= G1 * (sa + sb)) by (apply Rmult_le_pos; lra). nra.
Qed.

(** ** Sinusoids *)
Definition sec_H (s : Sos R) (v : C) : C := (rpoly_at [b0 s; b1 s; b2 s] v / rpoly_at [a0 s; a1 s; a2 s] v)%C.
Lemma cre_lin3 x y z t : cre (x - y + z - t)%C = cre x - cre y + cre z - cre t.
Proof. reflexivity. Qed.
Lemma section_steady s (c v : C) : a0 s = 1 -> v <> C0 -> rpoly_at [a0 s; a1 s; a2 s] v <> C0 ->
  exists z, forall n, sout s z (fun k => cre (c * cpow v k)%C) n = cre (c * sec_H s v * cpow v n)%C.
Proof.
  intros A0 Hv Hd. set (h := sec_H s v).
  assert (Eh : (h * (v * v + RtoC (a1 s) * v + RtoC (a2 s)) = RtoC (b0 s) * (v * v) + RtoC (b1 s) * v + RtoC (b2 s))%C).
  { unfold h, sec_H. rewrite !rpoly3 in *. rewrite A0 in *. change (RtoC 1) with C1 in *. field. intros Q. apply Hd. rewrite <- Q. ring. }
  clearbody h. set (z0 := (h - RtoC (b0 s))%C). set (z1 := ((RtoC (b2 s) - RtoC (a2 s) * h) / v)%C).
  assert (I1 : (v * z1 = RtoC (b2 s) - RtoC (a2 s) * h)%C) by (unfold z1; field; exact Hv).
  assert (I0 : (v * z0 = RtoC (b1 s) - RtoC (a1 s) * h + z1)%C).
  { apply (P_CPoly.Cmul_cancel v); [exact Hv|]. replace (v * (RtoC (b1 s) - RtoC (a1 s) * h + z1))%C with (v * RtoC (b1 s) - v * RtoC (a1 s) * h + v * z1)%C by ring.
    rewrite I1. unfold z0. replace (v * (v * (h - RtoC (b0 s))))%C with (h * (v * v + RtoC (a1 s) * v + RtoC (a2 s)) - h * (RtoC (a1 s) * v + RtoC (a2 s)) - v * v * RtoC (b0 s))%C by ring.
    rewrite Eh. ring. }
  exists (cre (c * z0)%C, cre (c * z1)%C).
  assert (RL : forall r x, r * cre x = cre (RtoC r * x)%C) by (intros r x; cbn; ring).
  assert (St : forall n, sst s (cre (c * z0)%C, cre (c * z1)%C) (fun k => cre (c * cpow v k)%C) n = (cre (c * z0 * cpow v n)%C, cre (c * z1 * cpow v n)%C)).
  { induction n as [|n IH].
    - cbn [sst cpow]. f_equal; f_equal; ring.
    - cbn [sst]. rewrite IH. cbn [fst snd]. 
      assert (Ey : b0 s * cre (c * cpow v n)%C + cre (c * z0 * cpow v n)%C = cre (c * h * cpow v n)%C).
      { rewrite RL. change (cre (RtoC (b0 s) * (c * cpow v n))%C + cre (c * z0 * cpow v n)%C) with (cre (RtoC (b0 s) * (c * cpow v n) + c * z0 * cpow v n)%C). f_equal. unfold z0. ring. }
      rewrite Ey. cbn [cpow]. f_equal.
      + rewrite !RL. change (cre (RtoC (b1 s) * (c * cpow v n))%C - cre (RtoC (a1 s) * (c * h * cpow v n))%C + cre (c * z1 * cpow v n)%C)
          with (cre (RtoC (b1 s) * (c * cpow v n) - RtoC (a1 s) * (c * h * cpow v n) + c * z1 * cpow v n)%C). f_equal.
        replace (c * z0 * (v * cpow v n))%C with (c * cpow v n * (v * z0))%C by ring. rewrite I0. ring.
      + rewrite !RL. change (cre (RtoC (b2 s) * (c * cpow v n))%C - cre (RtoC (a2 s) * (c * h * cpow v n))%C)
          with (cre (RtoC (b2 s) * (c * cpow v n) - RtoC (a2 s) * (c * h * cpow v n))%C). f_equal.
        replace (c * z1 * (v * cpow v n))%C with (c * cpow v n * (v * z1))%C by ring. rewrite I1. ring. }
  intros n. unfold sout. rewrite St. cbn [fst]. rewrite RL.
  change (cre (RtoC (b0 s) * (c * cpow v n))%C + cre (c * z0 * cpow v n)%C) with (cre (RtoC (b0 s) * (c * cpow v n) + c * z0 * cpow v n)%C). f_equal. unfold z0. ring.
Qed.

Lemma cascade_steady l (v : C) : Forall (fun s => a0 s = 1) l -> v <> C0 -> sos_den l v <> C0 -> forall c,
  exists l', same_coefs l' l /\ forall n, cout l' (fun k => cre (c * cpow v k)%C) n = cre (c * (sos_num l v / sos_den l v) * cpow v n)%C.
Proof.
  intros HA Hv. induction HA as [|s l A0 HA IH]; intros Hd c.
  - exists []. split; [reflexivity|]. intros n. cbn [cout sos_num sos_den fold_right]. f_equal. field.
    intros Q; apply (f_equal fst) in Q; cbn in Q; lra.
  - change (sos_den (s :: l) v) with (rpoly_at [a0 s; a1 s; a2 s] v * sos_den l v)%C in *.
    change (sos_num (s :: l) v) with (rpoly_at [b0 s; b1 s; b2 s] v * sos_num l v)%C.
    assert (D1 : rpoly_at [a0 s; a1 s; a2 s] v <> C0) by (intros Q; apply Hd; rewrite Q; ring).
    assert (D2 : sos_den l v <> C0) by (intros Q; apply Hd; rewrite Q; ring).
    destruct (section_steady s c v A0 Hv D1) as [z Hz]. destruct (IH D2 (c * sec_H s v)%C) as [l' [El Hl]].
    exists (set_state s (fst z) (snd z) :: l'). split; [unfold same_coefs in *; cbn [map]; f_equal; exact El|].
    intros n. cbn [cout]. rewrite (cout_local l' _ (fun k => cre (c * sec_H s v * cpow v k)%C)).
    + rewrite Hl. f_equal. unfold sec_H. field. split; assumption.
    + intros k _. rewrite (sout_coefs _ s) by reflexivity. cbn [set_state zi0 zi1]. rewrite <- surjective_pairing. apply Hz.
Qed.

(** ** Stability in terms of the denominators *)
Lemma quadratic_roots (a b : R) : exists p q : C, (p + q = RtoC (- a)%R)%C /\ (p * q = RtoC b)%C /\
  (p * p + RtoC a * p + RtoC b = C0)%C /\ (q * q + RtoC a * q + RtoC b = C0)%C.
Proof.
  set (d := csqrt (RtoC (a * a / 4 - b))). assert (Ed : (d * d = RtoC (a * a / 4 - b)%R)%C) by apply csqrt_sq.
  set (h := RtoC (- a / 2)). assert (E1 : (h + h = RtoC (- a)%R)%C) by (unfold h; apply C_ext; cbn; field).
  assert (E2 : (h * h = RtoC (a * a / 4)%R)%C) by (unfold h; apply C_ext; cbn; field).
  assert (E3 : RtoC b = (h * h - d * d)%C) by (rewrite E2, Ed; apply C_ext; cbn; field).
  assert (E4 : RtoC a = (- (h + h))%C) by (rewrite E1; apply C_ext; cbn; field).
  exists (h + d)%C, (h - d)%C. rewrite <- E1, E3, E4. clearbody h d. repeat split; ring.
Qed.
Lemma stable_roots s : a0 s = 1 -> (forall x, rpoly_at [a0 s; a1 s; a2 s] x = C0 -> cnorm_sqr x < 1) -> exists r, r < 1 /\ forall rho, r < rho -> roots_within rho s.
Proof.
  intros A0 Hs. destruct (quadratic_roots (a1 s) (a2 s)) as [p [q [E1 [E2 [E3 E4]]]]].
  assert (Hp : cnorm p < 1) by (apply cnorm_lt1, Hs; rewrite rpoly3, A0; change (RtoC 1) with C1; rewrite <- E3; ring).
  assert (Hq : cnorm q < 1) by (apply cnorm_lt1, Hs; rewrite rpoly3, A0; change (RtoC 1) with C1; rewrite <- E4; ring).
  exists (Rmax (cnorm p) (cnorm q)). split; [apply Rmax_lub_lt; assumption|]. intros rho Hr.
  pose proof (Rmax_l (cnorm p) (cnorm q)). pose proof (Rmax_r (cnorm p) (cnorm q)).
  exists p, q. repeat split; try assumption; lra.
Qed.
Lemma cascade_roots l : Forall (fun s => a0 s = 1) l -> (forall x, sos_den l x = C0 -> cnorm_sqr x < 1) ->
  exists r, 0 < r < 1 /\ forall rho, r <= rho -> Forall (roots_within rho) l.
Proof.
  intros HA. induction HA as [|s l A0 HA IH]; intros Hs.
  - exists (1 / 2). split; [lra|]. intros; constructor.
  - assert (Hd : forall x, sos_den (s :: l) x = (rpoly_at [a0 s; a1 s; a2 s] x * sos_den l x)%C) by reflexivity.
    destruct IH as [r1 [H1 F1]]; [intros x Q; apply Hs; rewrite Hd, Q; ring|].
    destruct (stable_roots s A0) as [r2 [H2 F2]]; [intros x Q; apply Hs; rewrite Hd, Q; ring|].
    exists (Rmax r1 ((1 + r2) / 2)). pose proof (Rmax_l r1 ((1 + r2) / 2)). pose proof (Rmax_r r1 ((1 + r2) / 2)).
    split; [split; [lra|apply Rmax_lub_lt; lra]|]. intros rho Hr. constructor; [apply F2; lra|apply F1; lra].
Qed.
