(** Zero-phase filtering of sinusoids. *)
From Coq Require Import List Arith Bool Lia Reals Lra Psatz.
From Verif Require Import Base Num Trans M_Complex M_Linalg M_Filter M_Design S_Filter ListUtil P_Sosfilt P_Filtfilt P_Transfer Cx S_Design S_Stable
  S_Bessel P_Lp P_Proto P_Iir2 T_Iir P_Sos T_Sos P_Stable T_Stable.
Import ListNotations.
Local Open Scope R_scope.

(** ** Two runs from the same state *)
Lemma cascade_bound_same l rho : Forall (roots_within rho) l -> 0 < rho ->
  exists G, 0 <= G /\ forall l1 x1 x2 M, same_coefs l1 l -> 0 <= M ->
    (forall n, Rabs (x1 n - x2 n) <= M * rho ^ n) ->
    forall n, Rabs (cout l1 x1 n - cout l1 x2 n) <= G * M * rho ^ n.
Proof.
  intros HF Hr. induction HF as [|s l Hs HF IH].
  - exists 1. split; [lra|]. intros l1 x1 x2 M E1 HM Hx n. destruct l1; [|discriminate E1]. cbn [cout]. specialize (Hx n). lra.
  - destruct IH as [G2 [HG2 IH]]. destruct (section_bound s rho Hs Hr) as [G1 [HG1 B1]].
    exists (G2 * G1). split; [apply Rmult_le_pos; lra|]. intros l1 x1 x2 M E1 HM Hx n.
    destruct l1 as [|s1 l1]; [discriminate E1|]. unfold same_coefs in E1. cbn [map] in E1.
    assert (C1' : coefs s1 = coefs s) by congruence. assert (T1 : map coefs l1 = map coefs l) by congruence.
    cbn [cout]. rewrite (Rmult_assoc G2). apply (IH l1 _ _ (G1 * M) T1); [apply Rmult_le_pos; lra|].
    intros k. rewrite !(sout_coefs s1 s) by assumption. rewrite sout_sub. cbn [fst snd].
    eapply Rle_trans; [apply (B1 _ _ M HM Hx)|]. cbn [fst snd]. rewrite !Rminus_diag_eq, Rabs_R0 by reflexivity. right. ring.
Qed.

(** ** From rest *)
Definition at_rest (l : list (Sos R)) : list (Sos R) := map (fun s => set_state s 0 0) l.
Lemma at_rest_coefs l : same_coefs (at_rest l) l.
Proof. unfold same_coefs, at_rest. rewrite map_map. reflexivity. Qed.
Lemma at_rest_size l : state_size (at_rest l) = 0.
Proof. unfold at_rest. induction l as [|s l IH]; cbn; [reflexivity|]. unfold state_size in IH. rewrite IH, Rabs_R0. ring. Qed.
Lemma at_rest_zero l n : cout (at_rest l) (fun _ => 0) n = 0.
Proof.
  unfold at_rest. revert n. induction l as [|s l IH]; intros n; cbn [map cout]; [reflexivity|].
  rewrite (cout_local _ _ (fun _ => 0)); [apply IH|]. intros k _. unfold sout. cbn [set_state M_Filter.zi0 M_Filter.zi1 M_Filter.b0].
  assert (Z : forall m, sst (set_state s 0 0) (0, 0) (fun _ => 0) m = (0, 0)). { induction m as [|m IHm]; cbn [sst]; [reflexivity|]. rewrite IHm. cbn. f_equal; ring. }
  rewrite Z. cbn. ring.
Qed.
Lemma cascade_size l : Forall (roots_within 1) l ->
  exists G, 0 <= G /\ forall l0 x M, same_coefs l0 l -> 0 <= M -> (forall k, Rabs (x k) <= M) -> forall n, Rabs (cout l0 x n) <= G * (M + state_size l0).
Proof.
  intros HF. destruct (cascade_bound l 1 HF ltac:(lra)) as [G [HG B]]. exists G. split; [exact HG|]. intros l0 x M Hc HM Hx n.
  pose proof (B l0 (at_rest l) x (fun _ => 0) M Hc (at_rest_coefs l) HM) as B'.
  assert (Q : forall n, Rabs (x n - 0) <= M * 1 ^ n) by (intros k; rewrite pow1, Rminus_0_r, Rmult_1_r; apply Hx).
  specialize (B' Q n). rewrite at_rest_zero, at_rest_size, pow1, Rminus_0_r, Rplus_0_r, Rmult_1_r in B'. exact B'.
Qed.

(** ** The steady state: its size is bounded uniformly in the frequency *)
Lemma cnorm_sub_ge (z w : C) : cnorm z - cnorm w <= cnorm (z - w)%C.
Proof. pose proof (cnorm_add (z - w)%C w) as Q. replace (z - w + w)%C with z in Q by ring. lra. Qed.
Lemma cnorm_E t : cnorm (E t) = 1.
Proof. rewrite ?cnorm_def. rewrite E_norm. apply sqrt_1. Qed.
Lemma cnorm_div (z w : C) : w <> C0 -> cnorm (z / w)%C * cnorm w = cnorm z.
Proof. intros Hw. rewrite <- cnorm_mul. f_equal. field. exact Hw. Qed.

Lemma section_gain_bound s rho : roots_within rho s -> rho < 1 -> a0 s = 1 ->
  exists Z, 0 <= Z /\ forall t, rpoly_at [a0 s; a1 s; a2 s] (E t) <> C0 /\ cnorm (sec_H s (E t)) <= Z.
Proof.
  intros [p [q [Hsum [Hprod [Hp Hq]]]]] Hr A0. set (B := Rabs (b0 s) + Rabs (b1 s) + Rabs (b2 s)).
  assert (HB : 0 <= B) by (unfold B; pose proof (Rabs_pos (b0 s)); pose proof (Rabs_pos (b1 s)); pose proof (Rabs_pos (b2 s)); lra).
  set (D := (1 - rho) * (1 - rho)). assert (HD : 0 < D) by (apply Rmult_lt_0_compat; lra).
  exists (B / D). split; [apply Rmult_le_pos; [exact HB|left; apply Rinv_0_lt_compat, HD]|]. intros t.
  assert (Ed : rpoly_at [a0 s; a1 s; a2 s] (E t) = ((E t - p) * (E t - q))%C).
  { rewrite rpoly3, A0, <- Hprod. replace (RtoC (a1 s)) with (- (p + q))%C by (rewrite Hsum; apply C_ext; cbn; ring). change (RtoC 1) with C1. ring. }
  assert (Hd : D <= cnorm (rpoly_at [a0 s; a1 s; a2 s] (E t))).
  { rewrite Ed, cnorm_mul. unfold D. pose proof (cnorm_sub_ge (E t) p). pose proof (cnorm_sub_ge (E t) q). rewrite cnorm_E in *. apply Rmult_le_compat; lra. }
  assert (Nd : rpoly_at [a0 s; a1 s; a2 s] (E t) <> C0).
  { intros Q. rewrite Q in Hd. rewrite cnorm_def in Hd; unfold cnorm_sqr in Hd. cbn in Hd. replace (0 * 0 + 0 * 0) with 0 in Hd by ring. rewrite sqrt_0 in Hd. lra. }
  split; [exact Nd|]. pose proof (cnorm_div (rpoly_at [b0 s; b1 s; b2 s] (E t)) _ Nd) as Q. fold (sec_H s (E t)) in Q.
  assert (Hn : cnorm (rpoly_at [b0 s; b1 s; b2 s] (E t)) <= B).
  { rewrite rpoly3. eapply Rle_trans; [apply cnorm_add|]. eapply Rle_trans; [apply Rplus_le_compat_r, cnorm_add|].
    rewrite !cnorm_mul, !cnorm_RtoC, cnorm_E. unfold B. lra. }
  pose proof (cnorm_pos (sec_H s (E t))) as P. apply Rmult_le_reg_r with D; [exact HD|].
  replace (B / D * D) with B by (field; lra). apply Rle_trans with (2 := Hn). rewrite <- Q. apply Rmult_le_compat_l; [exact P|exact Hd].
Qed.

Lemma cascade_steady_bounded l rho : Forall (roots_within rho) l -> rho < 1 -> Forall (fun s => a0 s = 1) l ->
  exists Z, 0 <= Z /\ forall t, sos_den l (E t) <> C0 /\ cnorm (sos_num l (E t) / sos_den l (E t))%C <= Z /\
   forall c, exists ls, same_coefs ls l /\ state_size ls <= Z * cnorm c /\
    forall n, cout ls (fun k => cre (c * cpow (E t) k)%C) n = cre (c * (sos_num l (E t) / sos_den l (E t)) * cpow (E t) n)%C.
Proof.
  intros HF Hr HA. induction HF as [|s l Hs HF IH].
  - exists 1. split; [lra|]. intros t. cbn [sos_num sos_den fold_right].
    assert (N1 : C1 <> C0) by (intros Q; apply (f_equal fst) in Q; cbn in Q; lra). split; [exact N1|].
    split; [replace (C1 / C1)%C with (RtoC 1) by (change (RtoC 1) with C1; field; exact N1); rewrite cnorm_RtoC, Rabs_R1; lra|].
    intros c. exists []. split; [reflexivity|]. split; [unfold state_size; cbn [fold_right]; pose proof (cnorm_pos c); lra|]. intros n. cbn [cout]. f_equal. field. exact N1.
  - inversion HA as [|s' l'' A0 HA']. subst s' l''. destruct (IH HA') as [Z2 [HZ2 IH2]]. destruct (section_gain_bound s rho Hs Hr A0) as [Z1 [HZ1 G1]].
    set (BB := Rabs (b0 s) + Rabs (b1 s)). assert (HBB : 0 <= BB) by (unfold BB; pose proof (Rabs_pos (b0 s)); pose proof (Rabs_pos (b1 s)); lra).
    pose proof (Rabs_pos (a1 s)) as Pa1.
    exists (Z1 * Z2 + (Z1 + Rabs (b0 s)) + (Z1 + BB + Rabs (a1 s) * Z1)). pose proof (Rabs_pos (b0 s)) as Pb0.
    assert (P12 : 0 <= Z1 * Z2) by (apply Rmult_le_pos; assumption). assert (Pa : 0 <= Rabs (a1 s) * Z1) by (apply Rmult_le_pos; assumption).
    split; [lra|]. intros t. destruct (IH2 t) as [D2 [N2 S2]]. destruct (G1 t) as [D1 N1].
    change (sos_den (s :: l) (E t)) with (rpoly_at [a0 s; a1 s; a2 s] (E t) * sos_den l (E t))%C.
    change (sos_num (s :: l) (E t)) with (rpoly_at [b0 s; b1 s; b2 s] (E t) * sos_num l (E t))%C.
    assert (EH : (rpoly_at [b0 s; b1 s; b2 s] (E t) * sos_num l (E t) / (rpoly_at [a0 s; a1 s; a2 s] (E t) * sos_den l (E t)) = sec_H s (E t) * (sos_num l (E t) / sos_den l (E t)))%C)
      by (unfold sec_H; field; split; assumption).
    split; [intros Q; apply D2; apply (P_CPoly.Cmul_cancel _ _ _ D1); rewrite Q; ring|]. rewrite EH. split.
    { rewrite cnorm_mul. assert (Q : cnorm (sec_H s (E t)) * cnorm (sos_num l (E t) / sos_den l (E t))%C <= Z1 * Z2) by (apply Rmult_le_compat; try apply cnorm_pos; assumption). lra. }
    intros c. destruct (section_steady s c (E t) A0 (E_neq0 t) D1) as [z Hz]. destruct (S2 (c * sec_H s (E t))%C) as [l' [El [Sl Hl]]].
    exists (set_state s (fst z) (snd z) :: l'). split; [unfold same_coefs in *; cbn [map]; f_equal; exact El|]. split.
    + cbn [state_size fold_right]. fold (state_size l'). cbn [set_state zi0 zi1].
      pose proof (Hz 0%nat) as H0. pose proof (Hz 1%nat) as H1. unfold sout in H0, H1. cbn [sst fst snd] in H0, H1.
      set (h := sec_H s (E t)) in *. pose proof (cnorm_pos c) as Pc. pose proof (cnorm_pos h) as Ph.
      set (X0 := cre (c * cpow (E t) 0)%C) in *. set (X1 := cre (c * cpow (E t) 1)%C) in *.
      set (Y0 := cre (c * h * cpow (E t) 0)%C) in *. set (Y1 := cre (c * h * cpow (E t) 1)%C) in *.
      assert (Np : forall k, cnorm (cpow (E t) k) = 1) by (intros k; rewrite E_pow; apply cnorm_E).
      assert (BX0 : Rabs X0 <= cnorm c) by (eapply Rle_trans; [apply cre_le|]; rewrite cnorm_mul, Np; lra).
      assert (BX1 : Rabs X1 <= cnorm c) by (eapply Rle_trans; [apply cre_le|]; rewrite cnorm_mul, Np; lra).
      assert (Hch : cnorm c * cnorm h <= Z1 * cnorm c) by nra.
      assert (BY0 : Rabs Y0 <= Z1 * cnorm c) by (eapply Rle_trans; [apply cre_le|]; rewrite !cnorm_mul, Np; lra).
      assert (BY1 : Rabs Y1 <= Z1 * cnorm c) by (eapply Rle_trans; [apply cre_le|]; rewrite !cnorm_mul, Np; lra).
      rewrite H0 in H1. 
      assert (F0 : fst z = Y0 + - (b0 s * X0)) by lra. assert (F1 : snd z = Y1 + - (b0 s * X1) + - (b1 s * X0) + a1 s * Y0) by lra.
      assert (R0 : Rabs (fst z) <= (Z1 + Rabs (b0 s)) * cnorm c).
      { rewrite F0. eapply Rle_trans; [apply Rabs_triang|]. rewrite Rabs_Ropp, Rabs_mult. pose proof (Rmult_le_compat_l (Rabs (b0 s)) _ _ Pb0 BX0). lra. }
      assert (R1 : Rabs (snd z) <= (Z1 + BB + Rabs (a1 s) * Z1) * cnorm c).
      { rewrite F1. eapply Rle_trans; [apply Rabs_triang|]. eapply Rle_trans; [apply Rplus_le_compat_r, Rabs_triang|].
        eapply Rle_trans; [apply Rplus_le_compat_r, Rplus_le_compat_r, Rabs_triang|]. rewrite !Rabs_Ropp, !Rabs_mult.
        pose proof (Rmult_le_compat_l (Rabs (b0 s)) _ _ Pb0 BX1). pose proof (Rmult_le_compat_l (Rabs (b1 s)) _ _ (Rabs_pos _) BX0).
        pose proof (Rmult_le_compat_l (Rabs (a1 s)) _ _ Pa1 BY0). unfold BB. lra. }
      rewrite cnorm_mul in Sl. assert (Sl' : state_size l' <= Z1 * Z2 * cnorm c).
      { eapply Rle_trans; [exact Sl|]. replace (Z1 * Z2 * cnorm c) with (Z2 * (Z1 * cnorm c)) by ring. apply Rmult_le_compat_l; [exact HZ2|exact Hch]. }
      lra.
    + intros n. cbn [cout]. rewrite (cout_local l' _ (fun k => cre (c * sec_H s (E t) * cpow (E t) k)%C)).
      * rewrite Hl. f_equal. ring.
      * intros k _. rewrite (sout_coefs _ s) by reflexivity. cbn [set_state zi0 zi1]. rewrite <- surjective_pairing. apply Hz.
Qed.

(** The same for A cos(theta n + phi). *)
Lemma steady_cos l rho : Forall (roots_within rho) l -> rho < 1 -> Forall (fun s => a0 s = 1) l ->
  exists Z, 0 <= Z /\ forall t, sos_den l (E t) <> C0 /\ forall g psi, 0 <= g -> (sos_num l (E t) / sos_den l (E t))%C = (g * cos psi, g * sin psi) ->
    g <= Z /\ forall A phi, exists ls, same_coefs ls l /\ state_size ls <= Z * Rabs A /\
      forall n, cout ls (fun k => A * cos (t * INR k + phi)) n = A * g * cos (t * INR n + phi + psi).
Proof.
  intros HF Hr HA. destruct (cascade_steady_bounded l rho HF Hr HA) as [Z [HZ S]]. exists Z. split; [exact HZ|]. intros t.
  destruct (S t) as [D [N St]]. split; [exact D|]. intros g psi Hg0 Hg. split.
  { rewrite Hg in N. replace (g * cos psi, g * sin psi) with (RtoC g * E psi)%C in N by (apply C_ext; cbn; ring).
    rewrite cnorm_mul, cnorm_RtoC, cnorm_E, Rabs_pos_eq in N by exact Hg0. lra. }
  intros A phi. destruct (St (RtoC A * E phi)%C) as [ls [E1 [E2 E3]]]. exists ls. split; [exact E1|]. split.
  { rewrite cnorm_mul, cnorm_RtoC, cnorm_E, Rmult_1_r in E2. exact E2. }
  intros n. rewrite (cout_local ls _ (fun k => cre (RtoC A * E phi * cpow (E t) k)%C)).
  - rewrite E3, Hg, E_pow. replace (g * cos psi, g * sin psi) with (RtoC g * E psi)%C by (apply C_ext; cbn; ring).
    replace (RtoC A * E phi * (RtoC g * E psi) * E (t * INR n))%C with (RtoC A * RtoC g * (E (t * INR n) * E phi * E psi))%C by ring.
    rewrite <- !E_add, <- RtoC_mul. cbn. ring.
  - intros k _. rewrite E_pow. replace (RtoC A * E phi * E (t * INR k))%C with (RtoC A * (E (t * INR k) * E phi))%C by ring. rewrite <- E_add. cbn. ring.
Qed.

(** ** The padded signal *)
Lemma abs_le_inv x y : Rabs x <= y -> - y <= x <= y.
Proof. unfold Rabs. destruct (Rcase_abs x); lra. Qed.
Lemma ext_mid (y : list R) e i : (i < length y)%nat -> nth (e + i) (odd_extension e y) 0 = nth i y 0.
Proof.
  intros Hi. unfold odd_extension. cbn zeta. rewrite app_nth2; rewrite map_length, rev_length, seq_length; [|lia].
  replace (e + i - e)%nat with i by lia. apply app_nth1, Hi.
Qed.
Lemma ext_bound (y : list R) e M : 0 <= M -> (forall k, Rabs (nth k y 0) <= M) -> forall k, Rabs (nth k (odd_extension e y) 0) <= 3 * M.
Proof.
  intros HM Hy k.
  assert (T : forall i j, Rabs ((1 + 1) * nth i y 0 - nth j y 0) <= 3 * M).
  { intros i j. pose proof (Hy i) as Q1. pose proof (Hy j) as Q2. apply Rabs_le. apply abs_le_inv in Q1, Q2. lra. }
  assert (I : forall v, In v (odd_extension e y) -> Rabs v <= 3 * M).
  { intros v Hv. unfold odd_extension in Hv. cbn zeta in Hv. apply in_app_or in Hv. destruct Hv as [Hv|Hv]; [|apply in_app_or in Hv; destruct Hv as [Hv|Hv]].
    - apply in_map_iff in Hv. destruct Hv as [d [<- _]]. apply T.
    - destruct (In_nth _ _ 0 Hv) as [n [_ <-]]. specialize (Hy n). lra.
    - apply in_map_iff in Hv. destruct Hv as [d [<- _]]. apply T. }
  destruct (Nat.lt_ge_cases k (length (odd_extension e y))) as [L|L]; [apply I, nth_In, L|].
  rewrite nth_overflow, Rabs_R0 by exact L. lra.
Qed.
Lemma scale_size c (l : list (Sos R)) : state_size (scale_state c l) = Rabs c * state_size l.
Proof.
  induction l as [|s l IH]; [unfold state_size; cbn; ring|]. cbn [scale_state map state_size fold_right].
  fold (scale_state c l). fold (state_size (scale_state c l)). fold (state_size l). rewrite IH. cbn [set_state M_Filter.zi0 M_Filter.zi1 nmul RNum]. rewrite !Rabs_mult. ring.
Qed.
Lemma scale_coefs c (l : list (Sos R)) : same_coefs (scale_state c l) l.
Proof. unfold same_coefs, scale_state. rewrite map_map. reflexivity. Qed.
Lemma pow_split rho e n : (e <= n)%nat -> rho ^ n = rho ^ e * rho ^ (n - e).
Proof. intros H. rewrite <- pow_add. f_equal. lia. Qed.

(** One pass over a signal that agrees with a sinusoid on the middle stretch [e, e + N), up
    to an error that is bounded by a growing geometric sequence, and is only bounded before it. *)
Lemma one_pass l rho : Forall (roots_within rho) l -> 0 < rho < 1 -> (forall r, rho <= r -> Forall (roots_within r) l) -> Forall (fun s => a0 s = 1) l ->
  exists Z K, 0 <= Z /\ 0 <= K /\ forall t, sos_den l (E t) <> C0 /\ forall g psi, 0 <= g -> (sos_num l (E t) / sos_den l (E t))%C = (g * cos psi, g * sin psi) -> g <= Z /\
    forall l0 x e N A phi M X, same_coefs l0 l -> 0 <= M -> 0 <= X -> (forall k, Rabs (x k) <= M) ->
    (forall i, (i < N)%nat -> Rabs (x (e + i)%nat - A * cos (t * INR i + phi)) <= X * rho ^ (N - 1 - i)) ->
    forall i, (i < N)%nat -> Rabs (cout l0 x (e + i) - A * g * cos (t * INR i + phi + psi)) <=
      K * (M + Rabs A + state_size l0) * rho ^ i + K * X * rho ^ (N - 1 - i).
Proof.
  intros HF Hr HR HA. destruct (steady_cos l rho HF ltac:(lra) HA) as [Z [HZ St]].
  destruct (cascade_bound l rho HF ltac:(lra)) as [G [HG B]].
  assert (Hir : rho <= / rho). { apply Rmult_le_reg_r with rho; [lra|]. rewrite Rinv_l by lra. nra. }
  assert (Pir : 0 < / rho) by (apply Rinv_0_lt_compat; lra).
  destruct (cascade_bound_same l (/ rho) (HR _ Hir) Pir) as [G2 [HG2 B2]].
  exists Z, (G * (1 + Z) + G2). split; [exact HZ|]. split; [apply Rplus_le_le_0_compat; [apply Rmult_le_pos; lra|exact HG2]|].
  intros t. destruct (St t) as [D S2]. split; [exact D|]. intros g psi Hg0 Hg. destruct (S2 g psi Hg0 Hg) as [Hgz S3]. split; [exact Hgz|].
  intros l0 x e N A phi M X Hl0 HM HX Hx Hmid i Hi.
  set (phi' := phi - t * INR e). destruct (S3 A phi') as [ls [C1 [C2 C3]]].
  set (s := fun k => A * cos (t * INR k + phi')).
  assert (Es : forall j, s (e + j)%nat = A * cos (t * INR j + phi)).
  { intros j. unfold s, phi'. rewrite plus_INR. f_equal. f_equal. ring. }
  assert (Bs : forall k, Rabs (s k) <= Rabs A).
  { intros k. unfold s. rewrite Rabs_mult. pose proof (Rabs_pos A). assert (Rabs (cos (t * INR k + phi')) <= 1) by (apply Rabs_le; apply COS_bound). nra. }
  set (xa := fun k => if (k <? e + N)%nat then x k else s k).
  set (xb := fun k => if (k <? e)%nat then s k else xa k).
  assert (Pr : forall n, 0 < rho ^ n) by (intros n; apply pow_lt; lra).
  assert (E0 : cout l0 x (e + i) = cout l0 xa (e + i)).
  { apply cout_local. intros k Hk. unfold xa. destruct (Nat.ltb_spec k (e + N)); [reflexivity|lia]. }
  assert (T1 : Rabs (cout l0 xa (e + i) - cout ls xb (e + i)) <= G * ((M + Rabs A) * (/ rho) ^ e + state_size l0 + state_size ls) * rho ^ (e + i)).
  { apply (B l0 ls); [exact Hl0|exact C1| |].
    - apply Rmult_le_pos; [pose proof (Rabs_pos A); lra|]. left. apply pow_lt, Pir.
    - intros n. unfold xb. destruct (Nat.ltb_spec n e) as [L|L].
      + unfold xa. destruct (Nat.ltb_spec n (e + N)); [|lia]. apply Rle_trans with (M + Rabs A).
        { pose proof (Hx n) as Q1. pose proof (Bs n) as Q2. apply Rabs_le. apply abs_le_inv in Q1, Q2. lra. }
        rewrite Rmult_assoc. rewrite <- (Rmult_1_r (M + Rabs A)) at 1. apply Rmult_le_compat_l; [pose proof (Rabs_pos A); lra|].
        replace e with (n + (e - n))%nat by lia. rewrite pow_add, (Rmult_comm ((/ rho) ^ n)), Rmult_assoc, <- Rpow_mult_distr, Rinv_l, pow1, Rmult_1_r by lra.
        apply pow_R1_Rle. apply Rmult_le_reg_r with rho; [lra|]. rewrite Rinv_l by lra. lra.
      + rewrite Rminus_diag_eq, Rabs_R0 by reflexivity. apply Rmult_le_pos; [apply Rmult_le_pos; [pose proof (Rabs_pos A); lra|left; apply pow_lt, Pir]|left; apply Pr]. }
  assert (T2 : Rabs (cout ls xb (e + i) - cout ls s (e + i)) <= G2 * (X * rho ^ (e + N - 1)) * (/ rho) ^ (e + i)).
  { apply (B2 ls); [exact C1| |].
    - apply Rmult_le_pos; [exact HX|left; apply Pr].
    - intros n. assert (Z0 : Rabs (s n - s n) <= X * rho ^ (e + N - 1) * (/ rho) ^ n).
      { rewrite Rminus_diag_eq, Rabs_R0 by reflexivity. apply Rmult_le_pos; [apply Rmult_le_pos; [exact HX|left; apply Pr]|left; apply pow_lt, Pir]. }
      unfold xb. destruct (Nat.ltb_spec n e) as [L|L]; [exact Z0|]. unfold xa. destruct (Nat.ltb_spec n (e + N)) as [L'|L']; [|exact Z0].
      specialize (Hmid (n - e)%nat ltac:(lia)). replace (e + (n - e))%nat with n in Hmid by lia. rewrite <- Es in Hmid. replace (e + (n - e))%nat with n in Hmid by lia.
      eapply Rle_trans; [exact Hmid|]. right. rewrite Rmult_assoc. f_equal. replace (e + N - 1)%nat with ((N - 1 - (n - e)) + n)%nat by lia.
      rewrite pow_add, Rmult_assoc, <- Rpow_mult_distr, Rinv_r, pow1 by lra. ring. }
  assert (T2' : G2 * (X * rho ^ (e + N - 1)) * (/ rho) ^ (e + i) = G2 * X * rho ^ (N - 1 - i)).
  { replace (e + N - 1)%nat with ((N - 1 - i) + (e + i))%nat by lia. rewrite (pow_add rho (N - 1 - i)).
    replace (G2 * (X * (rho ^ (N - 1 - i) * rho ^ (e + i))) * (/ rho) ^ (e + i)) with (G2 * X * rho ^ (N - 1 - i) * (rho ^ (e + i) * (/ rho) ^ (e + i))) by ring.
    rewrite <- Rpow_mult_distr, Rinv_r, pow1 by lra. ring. }
  assert (T1' : G * ((M + Rabs A) * (/ rho) ^ e + state_size l0 + state_size ls) * rho ^ (e + i) <= G * (1 + Z) * (M + Rabs A + state_size l0) * rho ^ i).
  { rewrite pow_add. replace (G * ((M + Rabs A) * (/ rho) ^ e + state_size l0 + state_size ls) * (rho ^ e * rho ^ i))
      with (G * ((M + Rabs A) * (rho ^ e * (/ rho) ^ e) + (state_size l0 + state_size ls) * rho ^ e) * rho ^ i) by ring.
    rewrite <- Rpow_mult_distr, Rinv_r, pow1, Rmult_1_r by lra. apply Rmult_le_compat_r; [left; apply Pr|]. rewrite Rmult_assoc. apply Rmult_le_compat_l; [exact HG|].
    assert (Hre : rho ^ e <= 1) by (rewrite <- (pow1 e); apply pow_incr; lra). pose proof (Pr e) as Hre'. pose proof (Rabs_pos A) as PA.
    pose proof (state_size_pos l0) as P0. pose proof (state_size_pos ls) as Ps.
    assert (U : (state_size l0 + state_size ls) * rho ^ e <= state_size l0 + Z * Rabs A).
    { apply Rle_trans with ((state_size l0 + state_size ls) * 1); [apply Rmult_le_compat_l; lra|lra]. }
    assert (V : 0 <= Z * (M + state_size l0)) by (apply Rmult_le_pos; lra). lra. }
  rewrite C3 in T2. replace (A * g * cos (t * INR (e + i) + phi' + psi)) with (A * g * cos (t * INR i + phi + psi)) in T2
    by (unfold phi'; rewrite plus_INR; f_equal; f_equal; ring).
  rewrite E0. rewrite T2' in T2. pose proof (Rle_trans _ _ _ T1 T1') as T3.
  set (o1 := cout l0 xa (e + i)) in *. set (o2 := cout ls xb (e + i)) in *. set (o3 := A * g * cos (t * INR i + phi + psi)) in *.
  assert (TT : Rabs (o1 - o3) <= Rabs (o1 - o2) + Rabs (o2 - o3)) by (replace (o1 - o3) with ((o1 - o2) + (o2 - o3)) by ring; apply Rabs_triang).
  assert (W1 : 0 <= G2 * (M + Rabs A + state_size l0) * rho ^ i).
  { apply Rmult_le_pos; [|left; apply Pr]. apply Rmult_le_pos; [exact HG2|]. pose proof (Rabs_pos A). pose proof (state_size_pos l0). lra. }
  assert (W2 : 0 <= G * (1 + Z) * X * rho ^ (N - 1 - i)).
  { apply Rmult_le_pos; [|left; apply Pr]. apply Rmult_le_pos; [apply Rmult_le_pos; lra|exact HX]. }
  lra.
Qed.

(** ** Both passes *)
Lemma filtfilt_cos l init rho : Forall (roots_within rho) l -> 0 < rho < 1 -> (forall r, rho <= r -> Forall (roots_within r) l) -> Forall (fun s => a0 s = 1) l ->
  same_coefs init l ->
  exists K, 0 <= K /\ forall t A phi N i, (i < N)%nat ->
    Rabs (nth i (filtfilt (sinusoid A t phi N) l init) 0 - A * cnorm_sqr (sos_num l (E t) / sos_den l (E t))%C * cos (t * INR i + phi))
      <= K * Rabs A * (rho ^ i + rho ^ (N - 1 - i)).
Proof.
  intros HF Hr HR HA HI. destruct (one_pass l rho HF Hr HR HA) as [Z [K [HZ [HK P]]]].
  destruct (cascade_size l (HR 1 ltac:(lra))) as [G [HG B]].
  set (Zi := state_size init). assert (HZi : 0 <= Zi) by apply state_size_pos.
  set (K1 := K * (4 + 3 * Zi)). set (Bw := G * (3 + 3 * Zi)). 
  assert (HK1 : 0 <= K1) by (apply Rmult_le_pos; lra). assert (HBw : 0 <= Bw) by (apply Rmult_le_pos; lra).
  assert (HBZ : 0 <= Bw * Zi) by (apply Rmult_le_pos; assumption).
  set (K2 := K * (Bw + Z + Bw * Zi)). assert (HK2 : 0 <= K2) by (apply Rmult_le_pos; lra).
  assert (HKK : 0 <= K * K1) by (apply Rmult_le_pos; assumption).
  exists (K2 + K * K1). split; [lra|]. intros t A phi N i Hi. destruct (P t) as [D P1].
  destruct (polar (sos_num l (E t) / sos_den l (E t))%C) as [psi Hpsi]. set (g := cnorm (sos_num l (E t) / sos_den l (E t))%C) in *.
  assert (Hg0 : 0 <= g) by apply cnorm_pos. destruct (P1 g psi Hg0 Hpsi) as [Hgz P2]. rewrite <- cnorm_sq. fold g.
  pose proof (Rabs_pos A) as PA. set (y := sinusoid A t phi N).
  assert (Ly : length y = N) by (unfold y, sinusoid; rewrite map_length; apply seq_length).
  assert (Ny : forall k, (k < N)%nat -> nth k y 0 = A * cos (t * INR k + phi)).
  { intros k Hk. unfold y, sinusoid. rewrite (nth_indep _ 0 (A * cos (t * INR 0 + phi))) by (rewrite map_length, seq_length; exact Hk).
    rewrite (map_nth (fun n => A * cos (t * INR n + phi))), seq_nth by exact Hk. reflexivity. }
  assert (Bc : forall u, Rabs (A * cos u) <= Rabs A).
  { intros u. rewrite Rabs_mult. rewrite <- (Rmult_1_r (Rabs A)) at 2. apply Rmult_le_compat_l; [exact PA|]. apply Rabs_le, COS_bound. }
  assert (By : forall k, Rabs (nth k y 0) <= Rabs A).
  { intros k. destruct (Nat.lt_ge_cases k N) as [L|L]; [rewrite Ny by exact L; apply Bc|]. rewrite nth_overflow by lia. rewrite Rabs_R0. exact PA. }
  unfold filtfilt. cbn zeta. set (e := (3 * taps l)%nat). rewrite Ly. set (ext := odd_extension e y).
  assert (Lx : length ext = (N + 2 * e)%nat) by (unfold ext; rewrite odd_extension_length, Ly; reflexivity).
  assert (Bx : forall k, Rabs (nth k ext 0) <= 3 * Rabs A) by (apply ext_bound; assumption).
  set (l0 := scale_state (nth 0 ext nzero) init).
  assert (C0' : same_coefs l0 l) by (unfold same_coefs, l0; rewrite scale_coefs; exact HI).
  assert (S0 : state_size l0 <= 3 * Rabs A * Zi) by (unfold l0; rewrite scale_size; apply Rmult_le_compat_r; [exact HZi|apply Bx]).
  set (w := fst (filt ext l0)). assert (Lw : length w = (N + 2 * e)%nat) by (unfold w; rewrite filt_length_out; exact Lx).
  assert (W1 : forall k, (k < N)%nat -> Rabs (nth (e + k) w 0 - A * g * cos (t * INR k + phi + psi)) <= K1 * Rabs A * rho ^ k).
  { intros k Hk. unfold w. rewrite filt_cout by lia. eapply Rle_trans; [apply (P2 l0 (fun j => nth j ext 0) e N A phi (3 * Rabs A) 0); [exact C0'|lra|lra|exact Bx| |exact Hk]|].
    - intros j Hj. unfold ext. rewrite ext_mid by lia. rewrite Ny, Rminus_diag_eq, Rabs_R0 by (exact Hj || reflexivity). lra.
    - rewrite Rmult_0_r, Rmult_0_l, Rplus_0_r. apply Rmult_le_compat_r; [apply pow_le; lra|]. unfold K1. rewrite Rmult_assoc. apply Rmult_le_compat_l; [exact HK|]. lra. }
  assert (BW : forall k, Rabs (nth k w 0) <= Bw * Rabs A).
  { intros k. destruct (Nat.lt_ge_cases k (N + 2 * e)) as [L|L].
    - unfold w. rewrite filt_cout by lia. eapply Rle_trans; [apply (B l0 _ (3 * Rabs A)); [exact C0'|lra|exact Bx]|].
      unfold Bw. rewrite Rmult_assoc. apply Rmult_le_compat_l; [exact HG|]. lra.
    - rewrite nth_overflow, Rabs_R0 by lia. apply Rmult_le_pos; assumption. }
  assert (NR : forall k, (k < N + 2 * e)%nat -> nth k (rev w) 0 = nth (N + 2 * e - S k) w 0) by (intros k Hk; rewrite rev_nth by lia; rewrite Lw; reflexivity).
  assert (BR : forall k, Rabs (nth k (rev w) 0) <= Bw * Rabs A).
  { intros k. destruct (Nat.lt_ge_cases k (N + 2 * e)) as [L|L]; [rewrite NR by exact L; apply BW|].
    rewrite nth_overflow, Rabs_R0 by (rewrite rev_length; lia). apply Rmult_le_pos; assumption. }
  set (l1 := scale_state (nth 0 (rev w) nzero) init).
  assert (C1' : same_coefs l1 l) by (unfold same_coefs, l1; rewrite scale_coefs; exact HI).
  assert (S1 : state_size l1 <= Bw * Rabs A * Zi) by (unfold l1; rewrite scale_size; apply Rmult_le_compat_r; [exact HZi|apply BR]).
  set (phi2 := - (t * INR (N - 1) + phi + psi)).
  assert (IM : forall j, (j < N)%nat -> t * INR j - t * INR (N - 1) = - (t * INR (N - 1 - j))).
  { intros j Hj. rewrite (minus_INR (N - 1) j) by lia. ring. }
  assert (HAg : Rabs (A * g) <= Z * Rabs A) by (rewrite Rabs_mult, (Rabs_pos_eq g), Rmult_comm by exact Hg0; apply Rmult_le_compat_r; assumption).
  rewrite rev_nth by (rewrite firstn_length, skipn_length, filt_length_out, rev_length, Lw; lia).
  replace (length (firstn N (skipn e (fst (filt (rev w) l1))))) with N by (rewrite firstn_length, skipn_length, filt_length_out, rev_length, Lw; lia).
  set (j := (N - S i)%nat). assert (Hj : (j < N)%nat) by (unfold j; lia).
  assert (NT : nth j (firstn N (skipn e (fst (filt (rev w) l1)))) 0 = nth (e + j) (fst (filt (rev w) l1)) 0).
  { rewrite <- (firstn_skipn e (fst (filt (rev w) l1))) at 2.
    rewrite app_nth2; rewrite firstn_length, filt_length_out, rev_length, Lw; [|lia].
    replace (e + j - Nat.min e (N + 2 * e))%nat with j by lia. rewrite <- (firstn_skipn N (skipn e _)) at 2.
    rewrite app_nth1; [reflexivity|]. rewrite firstn_length, skipn_length, filt_length_out, rev_length, Lw. lia. }
  rewrite NT, filt_cout by (rewrite rev_length, Lw; lia).
  assert (H2 : forall k, (k < N)%nat -> Rabs (nth (e + k) (rev w) 0 - A * g * cos (t * INR k + phi2)) <= K1 * Rabs A * rho ^ (N - 1 - k)).
  { intros k Hk. rewrite NR by lia. replace (N + 2 * e - S (e + k))%nat with (e + (N - 1 - k))%nat by lia.
    replace (cos (t * INR k + phi2)) with (cos (t * INR (N - 1 - k) + phi + psi)); [apply W1; lia|].
    rewrite <- cos_neg. f_equal. unfold phi2. specialize (IM k Hk). lra. }
  pose proof (P2 l1 (fun k => nth k (rev w) 0) e N (A * g) phi2 (Bw * Rabs A) (K1 * Rabs A) C1' ltac:(apply Rmult_le_pos; assumption)
    ltac:(apply Rmult_le_pos; assumption) BR H2 j Hj) as F.
  replace (A * (g * g) * cos (t * INR i + phi)) with (A * g * g * cos (t * INR j + phi2 + psi)).
  2:{ rewrite <- (cos_neg (t * INR i + phi)). replace (t * INR j + phi2 + psi) with (- (t * INR i + phi)); [ring|].
      specialize (IM j Hj). replace (N - 1 - j)%nat with i in IM by (unfold j; lia). unfold phi2. lra. }
  eapply Rle_trans; [exact F|]. replace (N - 1 - j)%nat with i by (unfold j; lia). replace j with (N - 1 - i)%nat by (unfold j; lia).
  assert (Pr : forall n, 0 <= rho ^ n) by (intros n; apply pow_le; lra).
  assert (Q1 : K * (Bw * Rabs A + Rabs (A * g) + state_size l1) <= K2 * Rabs A).
  { unfold K2. rewrite Rmult_assoc. apply Rmult_le_compat_l; [exact HK|]. lra. }
  pose proof (Rmult_le_compat_r _ _ _ (Pr (N - 1 - i)%nat) Q1) as Q2.
  assert (U1 : 0 <= K * K1 * Rabs A * rho ^ (N - 1 - i)) by (apply Rmult_le_pos; [apply Rmult_le_pos; assumption|apply Pr]).
  assert (U2 : 0 <= K2 * Rabs A * rho ^ i) by (apply Rmult_le_pos; [apply Rmult_le_pos; assumption|apply Pr]).
  lra.
Qed.
