(** Zero-phase filtering depends on the transfer function and the number of taps only, and
    the number of taps of a cascade that has the zeros and poles of a filter. *)
From Coq Require Import List Arith Bool Lia Reals Lra Psatz.
From Verif Require Import Base Num M_Complex M_Filter M_Design Cx S_Design S_Filter P_Sosfilt P_Sos P_Poly P_Stable P_Transfer P_Zi P_Filtfilt P_Unique T_Sos T_Unique.
Import ListNotations.
Local Open Scope R_scope.

(** ** Outputs from steady states *)
Lemma lincomb_self_rest c z l : same_coefs z l -> Forall (fun s => zi0 s = 0 /\ zi1 s = 0) l -> lincomb_state 1 (-1) (scale_state c z) (scale_state c z) = l.
Proof.
  unfold same_coefs, scale_state, lincomb_state. revert l. induction z as [|s z IH]; intros [|t l] H HZ; try discriminate; [reflexivity|].
  cbn [map combine fst snd] in *. pose proof (f_equal (hd []) H) as E1. pose proof (f_equal (@tl _) H) as E2. cbn [hd tl] in E1, E2. f_equal; [|apply IH; [exact E2|exact (Forall_inv_tail HZ)]].
  unfold coefs in E1. injection E1 as Q0 Q1 Q2 Q3 Q4 Q5. destruct (Forall_inv HZ) as [Z0 Z1]. destruct s, t. unfold set_state. cbn in *. subst. f_equal; ring.
Qed.
Lemma lincomb_back x n c : length x = n -> lincomb 1 1 (lincomb 1 (-1) x (repeat c n)) (repeat c n) = x.
Proof.
  unfold lincomb. revert n. induction x as [|a x IH]; intros [|n] H; try discriminate; [reflexivity|]. cbn [repeat combine map fst snd]. rewrite IH by (cbn in H; lia). f_equal. ring.
Qed.
Lemma steady_out l z c x : Forall stable_section l -> Forall (fun s => zi0 s = 0 /\ zi1 s = 0) l -> sosfilt_zi_dyn l = Ok z ->
  fst (filt x (scale_state c z)) = lincomb 1 1 (fst (filt (lincomb 1 (-1) x (repeat c (length x))) l)) (repeat (c * dc_gains l) (length x)).
Proof.
  intros HS HR E. destruct (sosfilt_zi_steady l HS) as (z' & E' & C & Q). rewrite E in E'. injection E' as <-. specialize (Q c (length x)).
  rewrite sosfilt_dyn_pure in Q. injection Q as Q. change (with_delays_times c z) with (scale_state c z) in Q.
  pose proof (filt_lin 1 (-1) x (repeat c (length x)) (scale_state c z) (scale_state c z) eq_refl ltac:(rewrite repeat_length; reflexivity)) as FL.
  rewrite (lincomb_self_rest c z l C HR) in FL. rewrite FL. cbn [fst]. rewrite Q. cbn [fst]. symmetry. apply lincomb_back. apply filt_length_out.
Qed.

Lemma C1_neq0 : C1 <> C0.
Proof. intros Q. pose proof (f_equal fst Q) as H. cbn in H. lra. Qed.
Lemma sum_at_one a b c : rpoly_at [a; b; c] C1 = RtoC (a + b + c).
Proof. rewrite rpoly3. apply C_ext; cbn; ring. Qed.
Lemma dc_ratio l : sos_den l C1 <> C0 -> Forall (fun s => a0 s + a1 s + a2 s <> 0) l /\ RtoC (dc_gains l) = (sos_num l C1 / sos_den l C1)%C.
Proof.
  induction l as [|s l IH]; intros H.
  - split; [constructor|]. unfold dc_gains, sos_num, sos_den. cbn [map fold_right]. change (RtoC 1) with C1. field. exact C1_neq0.
  - rewrite sos_den_cons, sum_at_one in H. assert (H1 : RtoC (a0 s + a1 s + a2 s) <> C0) by (intros Q; apply H; rewrite Q; ring). assert (H2 : sos_den l C1 <> C0) by (intros Q; apply H; rewrite Q; ring).
    destruct (IH H2) as [F Q]. assert (N : a0 s + a1 s + a2 s <> 0) by (intros X; apply H1; rewrite X; reflexivity). split; [constructor; assumption|].
    unfold dc_gains in *. cbn [map fold_right]. rewrite sos_num_cons, sos_den_cons, !sum_at_one.
    replace (RtoC (dc_gain s * fold_right Rmult 1 (map dc_gain l))) with (RtoC (dc_gain s) * RtoC (fold_right Rmult 1 (map dc_gain l)))%C by (apply C_ext; cbn; ring). rewrite Q.
    assert (D : RtoC (dc_gain s) = (RtoC (b0 s + b1 s + b2 s)%R / RtoC (a0 s + a1 s + a2 s)%R)%C).
    { unfold dc_gain. apply C_ext; cbn; unfold cnorm_sqr; cbn; field; exact N. }
    rewrite D. field. split; assumption.
Qed.
Lemma realises_sections l f : realises l f -> ~ In C1 (zk_p f) -> Forall stable_section l /\ Forall (fun s => zi0 s = 0 /\ zi1 s = 0) l /\ RtoC (dc_gains l) = Hd f C1.
Proof.
  intros [F Q] H1. destruct (Q C1 C1_neq0 H1) as [D E]. destruct (dc_ratio l D) as [S G]. split; [|split; [|congruence]].
  - clear - F S. induction F as [|s l [A _] F IH]; constructor; [split; [exact A|exact (Forall_inv S)]|apply IH; exact (Forall_inv_tail S)].
  - eapply Forall_impl; [|exact F]. cbn beta. intros s H. apply H.
Qed.
Lemma realises_filtfilt l1 l2 f : realises l1 f -> realises l2 f -> ~ In C1 (zk_p f) -> taps l1 = taps l2 -> forall x, sosfiltfilt_dyn x l1 = sosfiltfilt_dyn x l2.
Proof.
  intros R1 R2 H1 HT x. destruct (realises_sections l1 f R1 H1) as (S1 & Z1 & G1). destruct (realises_sections l2 f R2 H1) as (S2 & Z2 & G2).
  destruct (sosfilt_zi_steady l1 S1) as (z1 & E1 & _). destruct (sosfilt_zi_steady l2 S2) as (z2 & E2 & _).
  rewrite !sosfiltfilt_eq, HT. destruct (length x <=? 3 * taps l2)%nat; [reflexivity|]. rewrite E1, E2. cbn [bind]. f_equal.
  assert (DG : dc_gains l1 = dc_gains l2) by (rewrite <- G2 in G1; exact (f_equal fst G1)).
  assert (SO : forall c y, fst (filt y (scale_state c z1)) = fst (filt y (scale_state c z2))).
  { intros c y. rewrite (steady_out l1 z1 c y S1 Z1 E1), (steady_out l2 z2 c y S2 Z2 E2), DG, (realises_same l1 l2 f R1 R2). reflexivity. }
  unfold filtfilt. cbn zeta. rewrite HT, !SO. reflexivity.
Qed.

(** ** Counting taps *)
Definition b2_zeros (l : list (Sos R)) : nat := length (filter (fun s => Reqb (b2 s) 0) l).
Definition a2_zeros (l : list (Sos R)) : nat := length (filter (fun s => Reqb (a2 s) 0) l).
Lemma taps_counts (l : list (Sos R)) m : b2_zeros l = m -> (m <= a2_zeros l)%nat -> taps l = (2 * length l + 1 - m)%nat.
Proof. unfold b2_zeros, a2_zeros, taps. cbn [neqb nzero RNum]. lia. Qed.

Lemma num_small l : exists B, 0 < B /\ forall t, 0 < t <= 1 -> cnorm (sos_num l (RtoC t)) <= B * t ^ b2_zeros l.
Proof.
  induction l as [|s l (B & HB & IH)].
  - exists 1. split; [lra|]. intros t _. change (sos_num [] (RtoC t)) with (RtoC 1). rewrite cnorm_RtoC, Rabs_R1. cbn. lra.
  - set (S := 1 + Rabs (b0 s) + Rabs (b1 s) + Rabs (b2 s)). pose proof (Rabs_pos (b0 s)). pose proof (Rabs_pos (b1 s)). pose proof (Rabs_pos (b2 s)).
    exists (S * B). split; [apply Rmult_lt_0_compat; unfold S; lra|]. intros t Ht. rewrite sos_num_cons, cnorm_mul. specialize (IH t Ht).
    assert (E : rpoly_at [b0 s; b1 s; b2 s] (RtoC t) = RtoC (b0 s * (t * t) + b1 s * t + b2 s)) by (rewrite rpoly3; apply C_ext; cbn; ring). rewrite E, cnorm_RtoC.
    assert (T2 : t * t <= 1) by nra. assert (T3 : t * t <= t) by nra.
    assert (P : Rabs (b0 s * (t * t)) <= Rabs (b0 s) * t). { rewrite Rabs_mult, (Rabs_right (t * t)) by nra. apply Rmult_le_compat_l; lra. }
    assert (P1 : Rabs (b1 s * t) = Rabs (b1 s) * t) by (rewrite Rabs_mult, (Rabs_right t) by lra; reflexivity).
    pose proof (cnorm_pos (sos_num l (RtoC t))) as N0. assert (PW : 0 <= t ^ b2_zeros l) by (apply pow_le; lra).
    unfold b2_zeros in *. cbn [filter]. unfold Reqb at 1. destruct (Req_EM_T (b2 s) 0) as [Q|Q]; cbn [length pow].
    + replace (S * B * (t * t ^ length (filter (fun s0 => Reqb (b2 s0) 0) l))) with ((S * t) * (B * t ^ length (filter (fun s0 => Reqb (b2 s0) 0) l))) by ring.
      apply Rmult_le_compat; [apply Rabs_pos|exact N0| |exact IH]. rewrite Q, Rplus_0_r. eapply Rle_trans; [apply Rabs_triang|]. rewrite P1. unfold S. nra.
    + rewrite Rmult_assoc. apply Rmult_le_compat; [apply Rabs_pos|exact N0| |exact IH]. eapply Rle_trans; [apply Rabs_triang|]. eapply Rle_trans; [apply Rplus_le_compat_r, Rabs_triang|]. rewrite P1. unfold S. nra.
Qed.
Lemma cnorm_gt0 (z : C) : z <> C0 -> 0 < cnorm z.
Proof.
  intros H. pose proof (cnorm_pos z) as P. destruct P as [P|P]; [exact P|]. exfalso. apply H. pose proof (cnorm_sq z) as Q. rewrite <- P in Q. destruct z as [a b]. unfold cnorm_sqr in Q. cbn in Q.
  assert (a * a = 0 /\ b * b = 0) as [Ha Hb] by nra. apply C_ext; cbn; nra.
Qed.
Lemma rp_large z : ~ In C0 z -> exists d c, 0 < d /\ 0 < c /\ forall t, 0 < t <= d -> c <= cnorm (root_product z (RtoC t)).
Proof.
  induction z as [|r z IH]; intros H.
  - exists 1, 1. split; [lra|]. split; [lra|]. intros t _. change (root_product [] (RtoC t)) with (RtoC 1). rewrite cnorm_RtoC, Rabs_R1. lra.
  - destruct IH as (d & c & Hd & Hc & IH); [intros Q; apply H; right; exact Q|]. assert (R0 : 0 < cnorm r) by (apply cnorm_gt0; intros Q; apply H; left; exact Q).
    exists (Rmin d (cnorm r / 2)), (cnorm r / 2 * c). pose proof (Rmin_l d (cnorm r / 2)). pose proof (Rmin_r d (cnorm r / 2)). split; [apply Rmin_pos; lra|]. split; [apply Rmult_lt_0_compat; lra|].
    intros t Ht. change (root_product (r :: z) (RtoC t)) with ((RtoC t - r) * root_product z (RtoC t))%C. rewrite cnorm_mul. apply Rmult_le_compat; [lra|lra| |apply IH; lra].
    pose proof (cnorm_add (r - RtoC t)%C (RtoC t)) as T. replace (r - RtoC t + RtoC t)%C with r in T by ring. rewrite cnorm_RtoC, Rabs_right in T by lra.
    assert (E : cnorm (RtoC t - r)%C = cnorm (r - RtoC t)%C). { replace (RtoC t - r)%C with (RtoC (-1) * (r - RtoC t))%C by (apply C_ext; cbn; ring). rewrite cnorm_mul, cnorm_RtoC, Rabs_left by lra. ring. }
    rewrite E. lra.
Qed.
Lemma cnorm_cpow t n : 0 < t -> cnorm (cpow (RtoC t) n) = t ^ n.
Proof. intros Ht. induction n as [|n IH]; cbn [cpow pow]; [change C1 with (RtoC 1); rewrite cnorm_RtoC; apply Rabs_R1|]. rewrite cnorm_mul, IH, cnorm_RtoC, Rabs_right by lra. reflexivity. Qed.
Lemma b2_zeros_le l k z m : k <> 0 -> ~ In C0 z -> (forall x, sos_num l x = (RtoC k * root_product z x * cpow x m)%C) -> (b2_zeros l <= m)%nat.
Proof.
  intros Hk Hz H. destruct (le_lt_dec (b2_zeros l) m) as [L|L]; [exact L|]. exfalso. destruct (num_small l) as (B & HB & NS). destruct (rp_large z Hz) as (d & c & Hd & Hc & RL).
  pose proof (Rabs_pos_lt k Hk) as K0. set (g := Rabs k * c). assert (G : 0 < g) by (apply Rmult_lt_0_compat; assumption).
  set (t := Rmin (Rmin 1 d) (g / (2 * B))). assert (T0 : 0 < g / (2 * B)) by (apply Rdiv_lt_0_compat; lra).
  assert (T : 0 < t /\ t <= 1 /\ t <= d /\ t <= g / (2 * B)).
  { unfold t. pose proof (Rmin_l (Rmin 1 d) (g / (2 * B))). pose proof (Rmin_r (Rmin 1 d) (g / (2 * B))). pose proof (Rmin_l 1 d). pose proof (Rmin_r 1 d). split; [repeat apply Rmin_pos; lra|lra]. }
  destruct T as (T1 & T2 & T3 & T4). specialize (NS t (conj T1 T2)). specialize (RL t (conj T1 T3)). rewrite H, !cnorm_mul, cnorm_RtoC, cnorm_cpow in NS by exact T1.
  assert (PM : 0 < t ^ m) by (apply pow_lt; exact T1).
  assert (A : g * t ^ m <= Rabs k * cnorm (root_product z (RtoC t)) * t ^ m) by (apply Rmult_le_compat_r; [lra|]; unfold g; apply Rmult_le_compat_l; lra).
  assert (D : t ^ b2_zeros l <= t * t ^ m).
  { replace (b2_zeros l) with (S m + (b2_zeros l - S m))%nat by lia. rewrite pow_add. cbn [pow]. rewrite <- (Rmult_1_r (t * t ^ m)) at 2. apply Rmult_le_compat_l; [nra|].
    assert (Q : forall n, t ^ n <= 1) by (induction n as [|n IHn]; cbn [pow]; [lra|]; assert (0 <= t ^ n) by (apply pow_le; lra); nra). apply Q. }
  assert (X : g * t ^ m <= B * (t * t ^ m)) by (eapply Rle_trans; [exact A|]; eapply Rle_trans; [exact NS|]; apply Rmult_le_compat_l; lra).
  assert (Y : g <= B * t) by (apply (Rmult_le_reg_r (t ^ m)); [exact PM|lra]).
  assert (Z : B * t <= g / 2). { apply Rle_trans with (B * (g / (2 * B))); [apply Rmult_le_compat_l; lra|]. right. field. lra. } lra.
Qed.
Lemma num_at_zero l : sos_num l C0 = RtoC (fold_right (fun s acc => b2 s * acc) 1 l).
Proof.
  induction l as [|s l IH]; [reflexivity|]. rewrite sos_num_cons, IH, rpoly3. cbn [fold_right]. apply C_ext; cbn; ring.
Qed.
Lemma den_at_zero l : sos_den l C0 = RtoC (fold_right (fun s acc => a2 s * acc) 1 l).
Proof.
  induction l as [|s l IH]; [reflexivity|]. rewrite sos_den_cons, IH, rpoly3. cbn [fold_right]. apply C_ext; cbn; ring.
Qed.
Lemma prod_zero (p : Sos R -> R) l : fold_right (fun s acc => p s * acc) 1 l = 0 -> Exists (fun s => p s = 0) l.
Proof.
  induction l as [|s l IH]; cbn [fold_right]; intros H; [lra|]. apply Rmult_integral in H. destruct H as [H|H]; [apply Exists_cons_hd; exact H|apply Exists_cons_tl; apply IH; exact H].
Qed.
Lemma exists_count (p : Sos R -> R) l : Exists (fun s => p s = 0) l -> (1 <= length (filter (fun s => Reqb (p s) 0) l))%nat.
Proof.
  intros H. apply Exists_exists in H. destruct H as [s [Hin E]]. assert (In s (filter (fun s => Reqb (p s) 0) l)) by (apply filter_In; split; [exact Hin|apply Reqb_true; exact E]).
  destruct (filter _ l); [destruct H|cbn; lia].
Qed.
(** A cascade with the zeros and poles of a filter of order [n], none of the zeros at the
    origin, has n + 1 taps. *)
Lemma taps_zpk l k z p : k <> 0 -> ~ In C0 z -> length z = length p -> (length z <= 2 * length l)%nat -> (2 * length l <= length z + 1)%nat ->
  (forall x, sos_num l x = (RtoC k * root_product z x * cpow x (2 * length l - length z))%C /\ sos_den l x = (root_product p x * cpow x (2 * length l - length p))%C) ->
  b2_zeros l = (2 * length l - length z)%nat /\ (2 * length l - length z <= a2_zeros l)%nat /\ taps l = S (length z).
Proof.
  intros Hk Hz Lzp L1 L2 H. rewrite <- Lzp in H. set (m := (2 * length l - length z)%nat) in *.
  assert (U : (b2_zeros l <= m)%nat) by (apply (b2_zeros_le l k z m Hk Hz); intros x; exact (proj1 (H x))).
  assert (D : (m = 0 \/ m = 1)%nat) by lia.
  assert (Q : b2_zeros l = m /\ (m <= a2_zeros l)%nat).
  { destruct D as [D|D]; [split; lia|]. rewrite D in H. destruct (H C0) as [N0 D0]. cbn [cpow] in N0, D0. rewrite num_at_zero in N0. rewrite den_at_zero in D0.
    assert (X : forall r, RtoC r = C0 -> r = 0) by (intros r Q; exact (f_equal fst Q)).
    assert (EB : Exists (fun s => b2 s = 0) l) by (apply (prod_zero b2), X; rewrite N0; ring). assert (EA : Exists (fun s => a2 s = 0) l) by (apply (prod_zero a2), X; rewrite D0; ring).
    apply (exists_count b2) in EB. apply (exists_count a2) in EA. fold (b2_zeros l) in EB. fold (a2_zeros l) in EA. lia. }
  destruct Q as [Q1 Q2]. split; [exact Q1|]. split; [exact Q2|]. rewrite (taps_counts l m Q1 Q2). unfold m. lia.
Qed.
