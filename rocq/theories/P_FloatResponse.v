(** Frequency responses of filters with nearly the same zeros, poles, gain or coefficients. *)
From Coq Require Import Reals List Lia Lra Psatz Bool.
From Verif Require Import Base Num Trans M_Complex M_Filter M_Design Cx RSum S_Design S_Filter S_FloatZpk S_FloatResponse P_Poly P_Stable P_ZeroPhase P_FloatFft.
Import ListNotations.
Local Open Scope R_scope.

Lemma cnorm_le_parts (z : C) : cnorm z <= Rabs (cre z) + Rabs (cim z).
Proof.
  apply Rsqr_incr_0_var; [|pose proof (Rabs_pos (cre z)); pose proof (Rabs_pos (cim z)); lra].
  unfold Rsqr. rewrite cnorm_sq. unfold cnorm_sqr, cre, cim. cbn [nadd nmul RNum].
  pose proof (Rabs_pos (fst z)). pose proof (Rabs_pos (snd z)).
  assert (fst z * fst z = Rabs (fst z) * Rabs (fst z)) by (rewrite <- Rabs_mult; symmetry; apply Rabs_pos_eq; nra).
  assert (snd z * snd z = Rabs (snd z) * Rabs (snd z)) by (rewrite <- Rabs_mult; symmetry; apply Rabs_pos_eq; nra).
  nra.
Qed.
Lemma cwithin_norm e (x y : C) : cwithin e x y -> cnorm (x - y)%C <= 2 * e.
Proof. intros [A B]. eapply Rle_trans; [apply cnorm_le_parts|]. unfold csub, cre, cim. cbn. lra. Qed.
Lemma cnorm_C1 : cnorm C1 = 1.
Proof. change C1 with (RtoC 1). rewrite cnorm_RtoC. apply Rabs_R1. Qed.
Lemma cnorm_pow x n : cnorm (cpow x n) = cnorm x ^ n.
Proof. induction n; cbn [cpow pow]; [apply cnorm_C1|]. rewrite cnorm_mul, IHn. reflexivity. Qed.
Lemma cnorm_tri (x y z : C) : cnorm (x - z)%C <= cnorm (x - y)%C + cnorm (y - z)%C.
Proof. replace (x - z)%C with ((x - y) + (y - z))%C by ring. apply cnorm_add. Qed.
Lemma cnorm_le_diff (x y : C) : cnorm x <= cnorm y + cnorm (x - y)%C.
Proof. replace x with (y + (x - y))%C at 1 by ring. apply cnorm_add. Qed.
Lemma cnorm_ge_diff (x y : C) : cnorm y - cnorm (x - y)%C <= cnorm x.
Proof. pose proof (cnorm_sub_ge y (y - x)%C) as A. replace (y - (y - x))%C with x in A by ring.
  replace (y - x)%C with (- C1 * (x - y))%C in A by ring. rewrite cnorm_mul in A.
  replace (cnorm (- C1)%C) with 1 in A; [lra|]. replace (- C1)%C with (RtoC (-1)) by (cx; ring). rewrite cnorm_RtoC. unfold Rabs; destruct Rcase_abs; lra. Qed.

(** Products of distances to roots. *)
Lemma root_lower (p : list C) : Forall (fun r => cnorm_sqr r < 1) p ->
  exists d, 0 < d <= 1 /\ forall x, 1 <= cnorm x -> d * cnorm x ^ length p <= cnorm (root_product p x).
Proof.
  induction p as [|r p IH]; intros Hp.
  - exists 1. split; [lra|]. intros x Hx. cbn [root_product fold_right length pow]. rewrite cnorm_C1. lra.
  - inversion Hp as [|? ? Hr Hp']. subst. destruct (IH Hp') as [d [Hd Q]]. pose proof (cnorm_lt1 _ Hr) as L. pose proof (cnorm_pos r).
    exists ((1 - cnorm r) * d). split; [nra|]. intros x Hx. cbn [root_product fold_right length pow]. fold (root_product p x). rewrite cnorm_mul.
    specialize (Q x Hx). pose proof (cnorm_sub_ge x r) as A.
    replace ((1 - cnorm r) * d * (cnorm x * cnorm x ^ length p)) with (((1 - cnorm r) * cnorm x) * (d * cnorm x ^ length p)) by ring.
    apply Rmult_le_compat; [nra| |nra|exact Q]. apply Rmult_le_pos; [lra|apply pow_le; lra].
Qed.
Lemma root_upper (p : list C) : exists B, 1 <= B /\ forall x, cnorm x = 1 -> cnorm (root_product p x) <= B.
Proof.
  induction p as [|r p [B [HB Q]]].
  - exists 1. split; [lra|]. intros x Hx. cbn [root_product fold_right]. rewrite cnorm_C1. lra.
  - pose proof (cnorm_pos r). exists ((1 + cnorm r) * B). split; [nra|]. intros x Hx. cbn [root_product fold_right]. fold (root_product p x). rewrite cnorm_mul. specialize (Q x Hx).
    assert (cnorm (x - r)%C <= 1 + cnorm r).
    { replace (x - r)%C with (x + RtoC (-1) * r)%C by (cx; ring). eapply Rle_trans; [apply cnorm_add|]. rewrite cnorm_mul, cnorm_RtoC, Hx. unfold Rabs. destruct Rcase_abs; lra. }
    apply Rmult_le_compat; try apply cnorm_pos; assumption.
Qed.
Lemma root_near (p : list C) : exists K, 1 <= K /\ forall q e, Forall2 (cwithin e) q p -> 0 <= e <= 1 -> forall x, cnorm x = 1 ->
  cnorm (root_product q x - root_product p x)%C <= K * e.
Proof.
  induction p as [|r p [K [HK Q]]].
  - exists 1. split; [lra|]. intros q e F He x Hx. inversion F; subst. cbn [root_product fold_right]. replace (C1 - C1)%C with (RtoC 0) by (cx; ring).
    rewrite cnorm_RtoC, Rabs_R0. lra.
  - destruct (root_upper p) as [B [HB U]]. pose proof (cnorm_pos r).
    exists ((3 + cnorm r) * K + 2 * B). split; [nra|]. intros q e F He x Hx. inversion F as [|s r' q' p' Hs F']; subst. cbn [root_product fold_right]. fold (root_product p x) (root_product q' x).
    specialize (Q q' e F' He x Hx). specialize (U x Hx). set (P := root_product p x) in *. set (P' := root_product q' x) in *.
    replace ((x - s) * P' - (x - r) * P)%C with ((x - s) * (P' - P) + (r - s) * P)%C by ring.
    eapply Rle_trans; [apply cnorm_add|]. rewrite !cnorm_mul.
    pose proof (cwithin_norm _ _ _ Hs) as D. replace (s - r)%C with (RtoC (-1) * (r - s))%C in D by (cx; ring). rewrite cnorm_mul, cnorm_RtoC in D.
    replace (Rabs (-1)) with 1 in D by (unfold Rabs; destruct Rcase_abs; lra).
    assert (cnorm (x - s)%C <= 3 + cnorm r).
    { replace (x - s)%C with (x + (RtoC (-1) * r + (r - s)))%C by (cx; ring). eapply Rle_trans; [apply cnorm_add|]. rewrite Hx.
      pose proof (cnorm_add (RtoC (-1) * r)%C (r - s)%C) as A. rewrite cnorm_mul, cnorm_RtoC in A. replace (Rabs (-1)) with 1 in A by (unfold Rabs; destruct Rcase_abs; lra). lra. }
    pose proof (cnorm_pos (x - s)%C). pose proof (cnorm_pos (P' - P)%C). pose proof (cnorm_pos (r - s)%C). pose proof (cnorm_pos P).
    apply Rle_trans with ((3 + cnorm r) * (K * e) + 2 * e * B); [|lra].
    apply Rplus_le_compat; apply Rmult_le_compat; lra.
Qed.

(** Quotients. *)
Lemma quot_near n0 d0 n d A B e : 0 < B -> 0 <= e -> cnorm n0 <= A -> 2 * B <= cnorm d0 -> cnorm (n - n0)%C <= e -> cnorm (d - d0)%C <= e -> e <= B ->
  B <= cnorm d /\ cnorm (n / d - n0 / d0)%C <= (1 / B + A / (B * B)) * e.
Proof.
  intros HB He HA HD Hn Hd Hs. pose proof (cnorm_ge_diff d d0) as L. assert (Ld : B <= cnorm d) by lra. split; [exact Ld|].
  assert (Nd : d <> C0) by (intros ->; replace (cnorm C0) with 0 in Ld by (change C0 with (RtoC 0); rewrite cnorm_RtoC, Rabs_R0; reflexivity); lra).
  assert (Nd0 : d0 <> C0) by (intros ->; replace (cnorm C0) with 0 in HD by (change C0 with (RtoC 0); rewrite cnorm_RtoC, Rabs_R0; reflexivity); lra).
  assert (E1 : ((n / d - n0 / d0) * (d * d0) = (n - n0) * d0 - n0 * (d - d0))%C) by (field; auto).
  apply (f_equal cnorm) in E1. rewrite !cnorm_mul in E1.
  assert (U : cnorm ((n - n0) * d0 - n0 * (d - d0))%C <= e * cnorm d0 + A * e).
  { replace ((n - n0) * d0 - n0 * (d - d0))%C with ((n - n0) * d0 + (RtoC (-1) * n0) * (d - d0))%C by (cx; ring).
    eapply Rle_trans; [apply cnorm_add|]. rewrite !cnorm_mul, cnorm_RtoC. replace (Rabs (-1)) with 1 by (unfold Rabs; destruct Rcase_abs; lra). rewrite Rmult_1_l.
    pose proof (cnorm_pos (n - n0)%C). pose proof (cnorm_pos (d - d0)%C). pose proof (cnorm_pos n0). pose proof (cnorm_pos d0).
    apply Rplus_le_compat; apply Rmult_le_compat; lra. }
  rewrite <- E1 in U. set (X := cnorm (n / d - n0 / d0)%C) in *. assert (HX : 0 <= X) by apply cnorm_pos.
  assert (HA0 : 0 <= A) by (pose proof (cnorm_pos n0); lra).
  set (D := cnorm d) in *. set (D0 := cnorm d0) in *. clearbody X D D0. clear E1 L.
  (* X D D0 <= e D0 + A e, D >= B, D0 >= 2B >= B *)
  assert (Y : X * B * D0 <= e * D0 + A * e).
  { eapply Rle_trans; [|exact U]. rewrite Rmult_assoc. apply Rmult_le_compat_l; [exact HX|]. apply Rmult_le_compat_r; lra. }
  assert (Z : X * B <= e + A * e / B).
  { apply (Rmult_le_reg_r D0); [lra|]. eapply Rle_trans; [exact Y|]. rewrite Rmult_plus_distr_r. apply Rplus_le_compat_l.
    unfold Rdiv. rewrite Rmult_assoc. rewrite <- (Rmult_1_r (A * e)) at 1. apply Rmult_le_compat_l; [nra|].
    apply (Rmult_le_reg_l B); [lra|]. rewrite <- Rmult_assoc, Rinv_r by lra. lra. }
  apply (Rmult_le_reg_r B); [lra|]. eapply Rle_trans; [exact Z|]. right. field. lra.
Qed.
Lemma sqr_near (x y : C) M e : cnorm y <= M -> cnorm (x - y)%C <= e -> e <= 1 -> Rabs (cnorm_sqr x - cnorm_sqr y) <= (2 * M + 1) * e.
Proof.
  intros HM He H1. rewrite <- !cnorm_sq. pose proof (cnorm_le_diff x y) as A. pose proof (cnorm_ge_diff x y) as B. pose proof (cnorm_pos x). pose proof (cnorm_pos y). pose proof (cnorm_pos (x - y)%C).
  replace (cnorm x * cnorm x - cnorm y * cnorm y) with ((cnorm x - cnorm y) * (cnorm x + cnorm y)) by ring. rewrite Rabs_mult.
  rewrite (Rabs_pos_eq (cnorm x + cnorm y)) by lra. rewrite Rmult_comm. apply Rmult_le_compat; [lra|apply Rabs_pos|lra|]. apply Rabs_le. lra.
Qed.

(** Zeros, poles and gain. *)
Lemma zpk_response (h : @ZpkFormatFilter R) : stable_digital h -> exists K, 1 <= K /\ forall g e, zpk_within e g h -> 0 <= e -> K * e <= 1 ->
  forall t, cnorm (H g (cos t, sin t) - H h (cos t, sin t))%C <= K * e /\ Rabs (dgain_sqr g t - dgain_sqr h t) <= K * e.
Proof.
  intros Hs. destruct (root_lower _ Hs) as [d [Hd QL]]. destruct (root_upper (zk_z h)) as [B [HB QU]]. destruct (root_near (zk_z h)) as [K1 [HK1 QZ]]. destruct (root_near (zk_p h)) as [K2 [HK2 QP]].
  set (k := Rabs (zk_k h)). assert (Hk : 0 <= k) by apply Rabs_pos.
  set (e1 := (k + 1) * K1 + B + K2). assert (He1 : 1 <= e1) by (unfold e1; nra).
  set (G := d / 2). assert (HG : 0 < G <= 1 / 2) by (unfold G; lra).
  set (K3 := (1 / G + k * B / (G * G)) * e1).
  assert (P1 : 1 <= 1 / G) by (apply (Rmult_le_reg_r G); [lra|]; replace (1 / G * G) with 1 by (field; lra); lra).
  assert (P2 : 0 <= k * B / (G * G)) by (apply Rle_mult_inv_pos; nra).
  assert (HK3 : e1 * (1 / G) <= K3) by (unfold K3; nra).
  set (M := k * B / G). assert (HM : 0 <= M) by (unfold M; apply Rle_mult_inv_pos; nra).
  exists ((2 * M + 1) * K3). assert (H13 : 1 <= K3) by nra. split; [nra|].
  intros g e [Wz [Wp Wk]] He HKe t. set (x := (cos t, sin t)). assert (Hx : cnorm x = 1) by (apply (cnorm_E t)).
  assert (K3e : K3 * e <= 1) by nra.
  assert (Ge : e1 * e <= G).
  { apply (Rmult_le_reg_r (1 / G)); [lra|]. replace (G * (1 / G)) with 1 by (field; lra). nra. }
  assert (el1 : e <= 1) by nra.
  specialize (QL x ltac:(lra)). rewrite Hx, pow1, Rmult_1_r in QL. specialize (QU x Hx). specialize (QZ _ _ Wz ltac:(lra) x Hx). specialize (QP _ _ Wp ltac:(lra) x Hx).
  set (Z := root_product (zk_z h) x) in *. set (Z' := root_product (zk_z g) x) in *. set (P := root_product (zk_p h) x) in *. set (P' := root_product (zk_p g) x) in *.
  assert (N0 : cnorm (RtoC (zk_k h) * Z)%C <= k * B).
  { rewrite cnorm_mul, cnorm_RtoC. fold k. apply Rmult_le_compat_l; assumption. }
  assert (N1 : cnorm (RtoC (zk_k g) * Z' - RtoC (zk_k h) * Z)%C <= e1 * e).
  { replace (RtoC (zk_k g) * Z' - RtoC (zk_k h) * Z)%C with (RtoC (zk_k g) * (Z' - Z) + RtoC (zk_k g - zk_k h)%R * Z)%C by (rewrite RtoC_sub; ring).
    eapply Rle_trans; [apply cnorm_add|]. rewrite !cnorm_mul, !cnorm_RtoC.
    assert (Rabs (zk_k g) <= k + 1). { unfold k. pose proof (Rabs_triang (zk_k h) (zk_k g - zk_k h)) as T. replace (zk_k h + (zk_k g - zk_k h)) with (zk_k g) in T by ring. lra. }
    pose proof (Rabs_pos (zk_k g)). pose proof (Rabs_pos (zk_k g - zk_k h)). pose proof (cnorm_pos (Z' - Z)%C). pose proof (cnorm_pos Z).
    apply Rle_trans with ((k + 1) * (K1 * e) + e * B); [apply Rplus_le_compat; apply Rmult_le_compat; lra|]. unfold e1. assert (0 <= K2 * e) by (apply Rmult_le_pos; lra). lra. }
  assert (N2 : cnorm (P' - P)%C <= e1 * e). { eapply Rle_trans; [exact QP|]. apply Rmult_le_compat_r; [lra|]. unfold e1. assert (0 <= (k + 1) * K1) by (apply Rmult_le_pos; lra). lra. }
  assert (GP : 2 * G <= cnorm P) by (unfold G; lra). assert (Ee : 0 <= e1 * e) by (apply Rmult_le_pos; lra).
  destruct (quot_near (RtoC (zk_k h) * Z)%C P (RtoC (zk_k g) * Z')%C P' (k * B) G (e1 * e) (proj1 HG) Ee N0 GP N1 N2 Ge) as [LD Q].
  replace ((1 / G + k * B / (G * G)) * (e1 * e)) with (K3 * e) in Q by (unfold K3; ring).
  assert (Q' : cnorm (H g x - H h x)%C <= K3 * e) by exact Q. clear Q.
  split; [eapply Rle_trans; [exact Q'|]; apply Rmult_le_compat_r; [lra|]; assert (0 <= M * K3) by (apply Rmult_le_pos; lra); lra|].
  assert (MH : cnorm (H h x) <= M).
  { unfold H. fold Z P. assert (ND : P <> C0) by (intros E1; rewrite E1 in QL; replace (cnorm C0) with 0 in QL by (change C0 with (RtoC 0); rewrite cnorm_RtoC, Rabs_R0; reflexivity); lra).
    pose proof (cnorm_div (RtoC (zk_k h) * Z)%C P ND) as E1. apply (Rmult_le_reg_r (cnorm P)); [lra|]. rewrite E1. eapply Rle_trans; [exact N0|].
    unfold M. apply Rle_trans with (k * B / G * G); [right; field; lra|]. apply Rmult_le_compat_l; [exact HM|]. unfold G. lra. }
  pose proof (sqr_near _ _ M (K3 * e) MH Q' K3e) as S1. unfold dgain_sqr. fold x. eapply Rle_trans; [exact S1|]. right. ring.
Qed.

(** Coefficients. *)
Lemma csum_norm n f : cnorm (csum n f) <= rsum n (fun i => cnorm (f i)).
Proof.
  induction n; cbn [csum rsum]; [change C0 with (RtoC 0); rewrite cnorm_RtoC, Rabs_R0; lra|].
  eapply Rle_trans; [apply cnorm_add|]. lra.
Qed.
Lemma rpoly_near (a : list R) : forall a' e, Forall2 (fun x y => Rabs (x - y) <= e) a' a -> 0 <= e -> forall x, 1 <= cnorm x ->
  cnorm (rpoly_at a' x - rpoly_at a x)%C <= INR (length a) * e * cnorm x ^ (length a - 1).
Proof.
  intros a' e F He x Hx. assert (L : length a' = length a) by (clear - F; induction F; cbn; congruence).
  unfold rpoly_at, poly_at. rewrite !map_length, L. rewrite <- csum_minus.
  eapply Rle_trans; [apply csum_norm|].
  apply Rle_trans with (rsum (length a) (fun _ => e * cnorm x ^ (length a - 1))).
  - apply rsum_le. intros i Hi. change C0 with (RtoC 0). rewrite !map_nth.
    replace (RtoC (nth i a' 0) * cpow x (length a - 1 - i) - RtoC (nth i a 0) * cpow x (length a - 1 - i))%C
      with (RtoC (nth i a' 0 - nth i a 0)%R * cpow x (length a - 1 - i))%C by (rewrite RtoC_sub; ring).
    rewrite cnorm_mul, cnorm_RtoC, cnorm_pow. apply Rmult_le_compat; [apply Rabs_pos|apply pow_le; lra| |apply Rle_pow; [exact Hx|lia]].
    clear - F Hi. revert i Hi. induction F; intros i Hi; cbn in *; [lia|]. destruct i; [assumption|]. apply IHF. lia.
  - rewrite rsum_const. lra.
Qed.

Lemma cnorm_C0 : cnorm C0 = 0.
Proof. change C0 with (RtoC 0). rewrite cnorm_RtoC, Rabs_R0. reflexivity. Qed.
Lemma ba_response (h : @ZpkFormatFilter R) N : stable_digital h -> real_filter h -> length (zk_z h) = length (zk_p h) -> (length (zk_p h) <= N)%nat ->
  exists K, 1 <= K /\ forall b a e, Forall2 (fun x y => Rabs (x - y) <= e) b (padded_coef N (zk_k h) (zk_z h)) -> Forall2 (fun x y => Rabs (x - y) <= e) a (padded_coef N 1 (zk_p h)) ->
    0 <= e -> K * e <= 1 -> ba_stable a /\ forall t, Rabs (ba_gain_sqr b a t - dgain_sqr h t) <= K * e.
Proof.
  intros Hs [Rz Rp] Hl HN. destruct (root_lower _ Hs) as [d [Hd QL]]. destruct (root_upper (zk_z h)) as [B [HB QU]].
  set (k := Rabs (zk_k h)). assert (Hk : 0 <= k) by apply Rabs_pos.
  set (e1 := INR (N + 1)). assert (He1 : 1 <= e1) by (unfold e1; rewrite plus_INR; pose proof (pos_INR N); cbn [INR]; lra).
  set (G := d / 2). assert (HG : 0 < G <= 1 / 2) by (unfold G; lra).
  set (K3 := (1 / G + k * B / (G * G)) * e1).
  assert (P1 : 1 <= 1 / G) by (apply (Rmult_le_reg_r G); [lra|]; replace (1 / G * G) with 1 by (field; lra); lra).
  assert (P2 : 0 <= k * B / (G * G)) by (apply Rle_mult_inv_pos; nra).
  assert (HK3 : e1 * (1 / G) <= K3) by (unfold K3; nra).
  set (M := k * B / G). assert (HM : 0 <= M) by (unfold M; apply Rle_mult_inv_pos; nra).
  exists ((2 * M + 1) * K3). assert (H13 : 1 <= K3) by nra. split; [nra|].
  intros b a e Wb Wa He HKe. assert (K3e : K3 * e <= 1) by nra.
  assert (Ge : e1 * e <= G).
  { apply (Rmult_le_reg_r (1 / G)); [lra|]. replace (G * (1 / G)) with 1 by (field; lra). nra. }
  set (b0 := padded_coef N (zk_k h) (zk_z h)) in *. set (a0 := padded_coef N 1 (zk_p h)) in *.
  assert (Lb : length b0 = (N + 1)%nat) by (unfold b0, padded_coef; rewrite map_length, seq_length; reflexivity).
  assert (La : length a0 = (N + 1)%nat) by (unfold a0, padded_coef; rewrite map_length, seq_length; reflexivity).
  assert (Ea : forall x, rpoly_at a0 x = (root_product (zk_p h) x * cpow x (N - length (zk_p h)))%C).
  { intros x. unfold a0. rewrite padded_eval by assumption. change (RtoC 1) with C1. ring. }
  assert (Na : forall x, 1 <= cnorm x -> d * cnorm x ^ N <= cnorm (rpoly_at a0 x)).
  { intros x Hx. rewrite Ea, cnorm_mul, cnorm_pow. replace N with (length (zk_p h) + (N - length (zk_p h)))%nat at 1 by lia. rewrite pow_add, <- Rmult_assoc.
    apply Rmult_le_compat_r; [apply pow_le; lra|]. apply QL. exact Hx. }
  split.
  - intros x Hx E0. pose proof (rpoly_near a0 a e Wa He x Hx) as D. rewrite La in D. replace (N + 1 - 1)%nat with N in D by lia. fold e1 in D.
    pose proof (cnorm_ge_diff (rpoly_at a x) (rpoly_at a0 x)) as T. rewrite E0, cnorm_C0 in T. rewrite E0 in D. specialize (Na x Hx).
    assert (1 <= cnorm x ^ N) by (apply pow_R1_Rle; exact Hx). unfold G in Ge. nra.
  - intros t. unfold ba_gain_sqr. set (x := (cos t, sin t)). assert (Hx : cnorm x = 1) by (apply (cnorm_E t)).
    pose proof (rpoly_near a0 a e Wa He x ltac:(lra)) as Da. pose proof (rpoly_near b0 b e Wb He x ltac:(lra)) as Db.
    rewrite La, Hx, pow1, Rmult_1_r in Da. rewrite Lb, Hx, pow1, Rmult_1_r in Db. fold e1 in Da, Db.
    specialize (Na x ltac:(lra)). rewrite Hx, pow1, Rmult_1_r in Na. specialize (QU x Hx).
    assert (N0 : cnorm (rpoly_at b0 x) <= k * B).
    { unfold b0. rewrite padded_eval by (assumption || lia). rewrite !cnorm_mul, cnorm_RtoC, cnorm_pow, Hx, pow1, Rmult_1_r. fold k. apply Rmult_le_compat_l; assumption. }
    assert (GP : 2 * G <= cnorm (rpoly_at a0 x)) by (unfold G; lra). assert (Ee : 0 <= e1 * e) by (apply Rmult_le_pos; lra).
    destruct (quot_near (rpoly_at b0 x) (rpoly_at a0 x) (rpoly_at b x) (rpoly_at a x) (k * B) G (e1 * e) (proj1 HG) Ee N0 GP Db Da Ge) as [LD Q].
    replace ((1 / G + k * B / (G * G)) * (e1 * e)) with (K3 * e) in Q by (unfold K3; ring).
    assert (Xn : x <> C0) by (intros E0; rewrite E0, cnorm_C0 in Hx; lra).
    assert (EH : (rpoly_at b0 x / rpoly_at a0 x)%C = H h x).
    { assert (Pn : root_product (zk_p h) x <> C0). { intros E0. specialize (QL x ltac:(lra)). rewrite E0, cnorm_C0, Hx, pow1 in QL. lra. }
      rewrite Ea. unfold b0. rewrite padded_eval by (assumption || lia). rewrite Hl. unfold H. pose proof (cpow_neq0 x (N - length (zk_p h)) Xn). field. split; assumption. }
    rewrite EH in Q.
    assert (MH : cnorm (H h x) <= M).
    { rewrite <- EH. assert (ND : rpoly_at a0 x <> C0) by (intros E0; rewrite E0, cnorm_C0 in Na; lra).
      pose proof (cnorm_div (rpoly_at b0 x) _ ND) as E1. apply (Rmult_le_reg_r (cnorm (rpoly_at a0 x))); [lra|]. rewrite E1. eapply Rle_trans; [exact N0|].
      unfold M. apply Rle_trans with (k * B / G * G); [right; field; lra|]. apply Rmult_le_compat_l; [exact HM|]. unfold G. lra. }
    pose proof (sqr_near _ _ M (K3 * e) MH Q K3e) as S1. unfold dgain_sqr. fold x. eapply Rle_trans; [exact S1|]. right. ring.
Qed.
