(** Distance of designed zeros and poles from the real axis (C82). *)
From Coq Require Import List Arith ZArith Reals Permutation Lra Lia Rtrigo_calc.
From Verif Require Import Base Num Trans M_Complex M_Design RSum Cx S_Design S_Bessel P_Bessel P_Savgol P_Poly P_Lp P_CPoly P_Proto P_Cheb P_Iir P_Sos P_Stable S_Margin.
Import ListNotations.
Local Open Scope R_scope.

(** ** Trigonometry *)
(** Jordan's inequality *)
Lemma jordan x : 0 <= x <= PI / 2 -> 2 * x / PI <= sin x.
Proof.
  intros [H0 H1]. pose proof PI_RGT_0 as HP.
  destruct (Rle_lt_dec (2 * x / PI) (sin x)) as [L|L]; [exact L|exfalso].
  assert (X0 : 0 < x). { destruct (Rle_lt_or_eq_dec 0 x H0) as [Q|Q]; [exact Q|]. subst x. rewrite sin_0 in L. unfold Rdiv in L. rewrite Rmult_0_r, Rmult_0_l in L. lra. }
  assert (X1 : x < PI / 2). { destruct (Rle_lt_or_eq_dec x (PI / 2) H1) as [Q|Q]; [exact Q|]. subst x. rewrite sin_PI2 in L. replace (2 * (PI / 2) / PI) with 1 in L by (field; lra). lra. }
  destruct (MVT_cor2 sin cos 0 x X0) as [u [Eu [Hu1 Hu2]]]. { intros c _. apply derivable_pt_lim_sin. }
  destruct (MVT_cor2 sin cos x (PI / 2) X1) as [v [Ev [Hv1 Hv2]]]. { intros c _. apply derivable_pt_lim_sin. }
  rewrite sin_0 in Eu. rewrite sin_PI2 in Ev.
  assert (C : cos v < cos u) by (apply cos_decreasing_1; lra).
  assert (E1 : cos u < 2 / PI). { apply (Rmult_lt_reg_r x); [lra|]. replace (2 / PI * x) with (2 * x / PI) by (field; lra). lra. }
  assert (E2 : 2 / PI < cos v).
  { apply (Rmult_lt_reg_r (PI / 2 - x)); [lra|]. replace (2 / PI * (PI / 2 - x)) with (1 - 2 * x / PI) by (field; lra). lra. }
  lra.
Qed.
Lemma sin_phi_gap n k : (k < n)%nat -> sin (phi n k) = 0 \/ 1 / INR n <= Rabs (sin (phi n k)).
Proof.
  intros Hk. assert (Hn : 0 < INR n) by (apply lt_0_INR; lia). pose proof PI_RGT_0 as HP. pose proof (phi_range n k Hk) as [R1 R2].
  set (m := (1 - Z.of_nat n + 2 * Z.of_nat k)%Z). assert (Em : phi n k = PI * IZR m / (2 * INR n)) by (unfold phi, m; rewrite IZR_m; reflexivity).
  assert (G : forall j : Z, (1 <= j)%Z -> PI * IZR j / (2 * INR n) < PI / 2 -> 1 / INR n <= sin (PI * IZR j / (2 * INR n))).
  { intros j Hj L. apply IZR_le in Hj. assert (P0 : 0 <= PI * IZR j / (2 * INR n)) by (apply Rmult_le_pos; [nra|left; apply Rinv_0_lt_compat; lra]).
    eapply Rle_trans; [|apply jordan; lra]. replace (2 * (PI * IZR j / (2 * INR n)) / PI) with (IZR j * (1 / INR n)) by (field; lra).
    assert (0 < 1 / INR n) by (apply Rdiv_lt_0_compat; lra). nra. }
  destruct (Z.lt_trichotomy m 0) as [L|[L|L]].
  - right. specialize (G (- m)%Z ltac:(lia)). rewrite opp_IZR in G.
    replace (PI * - IZR m / (2 * INR n)) with (- phi n k) in G by (rewrite Em; field; lra). rewrite sin_neg in G.
    specialize (G ltac:(lra)). rewrite <- Rabs_Ropp. eapply Rle_trans; [exact G|apply Rle_abs].
  - left. rewrite Em, L, Rmult_0_r. unfold Rdiv. rewrite Rmult_0_l. apply sin_0.
  - right. specialize (G m ltac:(lia)). rewrite <- Em in G. specialize (G R2). eapply Rle_trans; [exact G|apply Rle_abs].
Qed.
(** the real pole occurs for odd orders only *)
Lemma sin_phi_odd n k : (k < n)%nat -> sin (phi n k) = 0 -> Nat.Odd n /\ cos (phi n k) = 1.
Proof.
  intros Hk Q. assert (Hn : 0 < INR n) by (apply lt_0_INR; lia). pose proof PI_RGT_0 as HP. pose proof (phi_range n k Hk) as [R1 R2].
  assert (P0 : phi n k = 0).
  { destruct (Rtotal_order (phi n k) 0) as [L|[L|L]]; [|exact L|]; exfalso.
    - assert (0 < sin (- phi n k)) by (apply sin_gt_0; lra). rewrite sin_neg in H. lra.
    - assert (0 < sin (phi n k)) by (apply sin_gt_0; lra). lra. }
  split; [|rewrite P0; apply cos_0].
  assert (Z0 : IZR (1 - Z.of_nat n + 2 * Z.of_nat k) = 0).
  { rewrite IZR_m. unfold phi in P0. apply (Rmult_eq_reg_l (PI / (2 * INR n))); [|apply Rgt_not_eq, Rdiv_lt_0_compat; lra].
    rewrite Rmult_0_r, <- P0. field. lra. }
  apply eq_IZR in Z0. exists k. lia.
Qed.
Lemma lp_margin w : 0 < w < 1 -> let T := tan (PI * w / 2) in 0 < T /\ Rmin w (1 - w) * (1 + T) ^ 2 <= 2 * T.
Proof.
  intros Hw T. pose proof PI_RGT_0 as HP. set (a := PI * w / 2).
  assert (Ha : 0 < a < PI / 2) by (unfold a; nra).
  assert (Sa : 0 < sin a) by (apply sin_gt_0; lra). assert (Ca : 0 < cos a) by (apply cos_gt_0; lra).
  assert (ET : T = sin a / cos a) by reflexivity. assert (T0 : 0 < T) by (rewrite ET; apply Rdiv_lt_0_compat; assumption).
  split; [exact T0|].
  assert (S2 : sin (PI * w) = 2 * sin a * cos a) by (replace (PI * w) with (2 * a) by (unfold a; field); apply sin_2a).
  assert (M : 2 * Rmin w (1 - w) <= sin (PI * w)).
  { destruct (Rle_lt_dec w (1 / 2)) as [L|L].
    - rewrite Rmin_left by lra. replace (2 * w) with (2 * (PI * w) / PI) by (field; lra). apply jordan. nra.
    - rewrite Rmin_right by lra. replace (2 * (1 - w)) with (2 * (PI * (1 - w)) / PI) by (field; lra).
      replace (PI * w) with (PI - PI * (1 - w)) by ring. rewrite sin_PI_x. apply jordan. nra. }
  pose proof (sin2_cos2 a) as SC. unfold Rsqr in SC. pose proof (SIN_bound (PI * w)) as [_ SB].
  (* (1+T)^2 = (1 + sin 2a) / cos^2 a <= 2 / cos^2 a *)
  assert (Q : (1 + T) ^ 2 = (1 + sin (PI * w)) / (cos a * cos a)).
  { rewrite ET, S2. apply (Rmult_eq_reg_r (cos a * cos a)); [|nra]. unfold Rdiv at 2. rewrite Rmult_assoc, Rinv_l by nra.
    replace ((1 + sin a / cos a) ^ 2 * (cos a * cos a)) with ((cos a + sin a) * (cos a + sin a)) by (field; lra). lra. }
  rewrite Q. apply (Rmult_le_reg_r (cos a * cos a)); [nra|]. 
  replace (Rmin w (1 - w) * ((1 + sin (PI * w)) / (cos a * cos a)) * (cos a * cos a)) with (Rmin w (1 - w) * (1 + sin (PI * w))) by (field; lra).
  replace (2 * T * (cos a * cos a)) with (sin (PI * w)) by (rewrite ET, S2; field; lra).
  assert (M0 : 0 <= Rmin w (1 - w)) by (apply Rmin_glb; lra). nra.
Qed.

(** ** The bilinear transform and the real axis *)
Definition clear epsilon (r : C) : Prop := cim r = 0 \/ 100 * epsilon * Rabs (cre r) < Rabs (cim r).
Definition bil (s : C) : C := ((RtoC 4 + s) / (RtoC 4 - s))%C.
Lemma bil_im s : cre s <= 0 -> cim (bil s) = 8 * cim s / ((4 - cre s) * (4 - cre s) + cim s * cim s).
Proof. intros H. destruct s as [x y]. cbn in *. field. nra. Qed.
Lemma bil_re s : cre s <= 0 -> Rabs (cre (bil s)) <= 1.
Proof.
  intros H. destruct s as [x y]. cbn in H. assert (D0 : 0 < (4 - x) * (4 - x) + y * y) by nra.
  replace (cre (bil (x, y))) with ((16 - x * x - y * y) / ((4 - x) * (4 - x) + y * y)) by (cbn; field; nra).
  set (D := (4 - x) * (4 - x) + y * y) in *. apply Rabs_le. split; apply (Rmult_le_reg_r D); try exact D0;
    replace ((16 - x * x - y * y) / D * D) with (16 - x * x - y * y) by (field; lra); unfold D; nra.
Qed.
Lemma clear_bil epsilon s m M : 0 <= epsilon -> cre s <= 0 -> 0 <= M -> cnorm s <= M -> cim s = 0 \/ m <= Rabs (cim s) ->
  100 * epsilon * (4 + M) ^ 2 < 8 * m -> clear epsilon (bil s).
Proof.
  intros He Hre HM HN Him HL. unfold clear. rewrite bil_im by exact Hre.
  destruct Him as [Q|Q]; [left; rewrite Q; unfold Rdiv; ring|right].
  pose proof (bil_re s Hre) as R1. set (D := (4 - cre s) * (4 - cre s) + cim s * cim s).
  assert (D0 : 0 < D) by (unfold D; nra).
  assert (DM : D <= (4 + M) ^ 2).
  { pose proof (cnorm_sq s) as E. pose proof (cnorm_pos s) as P. unfold cnorm_sqr in E. cbn [nadd nmul RNum] in E. change (cre s * cre s + cim s * cim s) with (cre s * cre s + cim s * cim s) in E.
    pose proof (cre_le s) as RL. pose proof (Rle_abs (- cre s)) as RA. rewrite Rabs_Ropp in RA.
    assert (cnorm s * cnorm s <= M * M) by (apply Rmult_le_compat; lra). unfold D. nra. }
  unfold Rdiv. rewrite !Rabs_mult, (Rabs_right 8), (Rabs_right (/ D)) by (try (apply Rle_ge, Rlt_le, Rinv_0_lt_compat; exact D0); lra).
  apply (Rmult_lt_reg_r D); [exact D0|]. replace (8 * Rabs (cim s) * / D * D) with (8 * Rabs (cim s)) by (field; lra).
  apply Rle_lt_trans with (100 * epsilon * (4 + M) ^ 2); [|lra].
  apply Rmult_le_compat; [apply Rmult_le_pos; [lra|apply Rabs_pos]|lra| |exact DM].
  rewrite <- (Rmult_1_r (100 * epsilon)) at 2. apply Rmult_le_compat_l; lra.
Qed.

(** ** Roots of s^2 - b q s + wo^2 *)
Lemma band_root_upper (s q : C) b wo : 0 < wo -> 0 <= b -> (s * s - RtoC b * q * s + RtoC (wo * wo)%R = C0)%C -> cnorm s <= wo + b * cnorm q.
Proof.
  intros Hw Hb E. assert (E' : (s * s)%C = (RtoC b * q * s + - RtoC (wo * wo)%R)%C).
  { transitivity ((s * s - RtoC b * q * s + RtoC (wo * wo)%R) + (RtoC b * q * s + - RtoC (wo * wo)%R))%C; [ring|]. rewrite E. ring. }
  pose proof (cnorm_add (RtoC b * q * s)%C (- RtoC (wo * wo)%R)%C) as T. rewrite <- E' in T. rewrite <- RtoC_opp, !cnorm_mul, !cnorm_RtoC in T.
  rewrite Rabs_Ropp, (Rabs_right b), (Rabs_right (wo * wo)) in T by nra. pose proof (cnorm_pos s). pose proof (cnorm_pos q).
  destruct (Rle_lt_dec (cnorm s) (wo + b * cnorm q)) as [L|L]; [exact L|exfalso]. assert (0 <= b * cnorm q) by (apply Rmult_le_pos; assumption). nra.
Qed.
Lemma band_root_lower (s q : C) b wo : 0 < wo -> 0 <= b -> (s * s - RtoC b * q * s + RtoC (wo * wo)%R = C0)%C -> wo * wo <= cnorm s * (wo + b * cnorm q).
Proof.
  intros Hw Hb E. assert (Hs : s <> C0).
  { intros ->. assert (Q : RtoC (wo * wo) = C0) by (rewrite <- E; ring). apply (f_equal cre) in Q. cbn in Q. nra. }
  set (u := (RtoC (wo * wo)%R / s)%C). assert (Eu : (u * s = RtoC (wo * wo)%R)%C) by (unfold u; field; exact Hs).
  assert (E2 : (u * u - RtoC b * q * u + RtoC (wo * wo)%R = C0)%C).
  { apply (Cmul_cancel (s * s)%C); [apply Cmul_neq0; exact Hs|].
    transitivity ((u * s) * (u * s) - RtoC b * q * s * (u * s) + (s * s) * RtoC (wo * wo)%R)%C; [ring|]. rewrite Eu.
    transitivity (RtoC (wo * wo)%R * (s * s - RtoC b * q * s + RtoC (wo * wo)%R))%C; [ring|]. rewrite E. ring. }
  pose proof (band_root_upper u q b wo Hw Hb E2) as L. apply (f_equal cnorm) in Eu. rewrite cnorm_mul, cnorm_RtoC, Rabs_right in Eu by nra.
  rewrite <- Eu, Rmult_comm. apply Rmult_le_compat_l; [apply cnorm_pos|exact L].
Qed.
Lemma band_root_im (s q : C) b wo P Q : 0 < wo -> 0 < b -> 0 < P -> P <= Rabs (cim q) -> cnorm q <= Q ->
  (s * s - RtoC b * q * s + RtoC (wo * wo)%R = C0)%C ->
  cnorm s <= wo + b * Q /\ b * P * wo ^ 2 / (wo + b * Q) ^ 2 <= Rabs (cim s).
Proof.
  intros Hw Hb HP Hi Hq E. pose proof (band_root_upper s q b wo Hw (Rlt_le _ _ Hb) E) as U. pose proof (band_root_lower s q b wo Hw (Rlt_le _ _ Hb) E) as L.
  pose proof (cnorm_pos s) as S0. pose proof (cnorm_pos q) as Q0. set (M := wo + b * Q).
  assert (M1 : wo + b * cnorm q <= M) by (unfold M; apply Rplus_le_compat_l, Rmult_le_compat_l; lra).
  assert (M0 : wo <= M) by (apply Rle_trans with (2 := M1); nra). split; [lra|].
  assert (L' : wo * wo <= cnorm s * M) by (apply Rle_trans with (1 := L); apply Rmult_le_compat_l; lra). clear L U M1.
  pose proof (cnorm_sq s) as Es. set (NN := cnorm s * cnorm s) in *.
  assert (Im : cim s * (NN - wo * wo) = b * cim q * NN).
  { rewrite Es. destruct s as [x y], q as [u v]. cbn. pose proof (f_equal cre E) as E1. pose proof (f_equal cim E) as E2. cbn in E1, E2.
    assert (E1' : x * x - y * y - b * (u * x - v * y) + wo * wo = 0) by lra. assert (E2' : x * y + y * x - b * (u * y + v * x) = 0) by lra. clear - E1' E2'.
    replace (y * (x * x + y * y - wo * wo) - b * v * (x * x + y * y)) with (x * (x * y + y * x - b * (u * y + v * x)) - y * (x * x - y * y - b * (u * x - v * y) + wo * wo)) by ring || idtac.
    assert (Z : y * (x * x + y * y - wo * wo) - b * v * (x * x + y * y) = x * (x * y + y * x - b * (u * y + v * x)) - y * (x * x - y * y - b * (u * x - v * y) + wo * wo)) by ring.
    rewrite E1', E2' in Z. lra. }
  assert (N0 : 0 < NN). { assert (0 < cnorm s) by (destruct (Rle_lt_or_eq_dec 0 (cnorm s) S0) as [Z|Z]; [exact Z|rewrite <- Z in L'; nra]). unfold NN. nra. }
  assert (A : Rabs (cim s) * Rabs (NN - wo * wo) = b * Rabs (cim q) * NN).
  { rewrite <- Rabs_mult, Im, !Rabs_mult, (Rabs_right b), (Rabs_right NN) by lra. reflexivity. }
  apply (Rmult_le_reg_r (M ^ 2)); [nra|]. unfold Rdiv. rewrite Rmult_assoc, Rinv_l, Rmult_1_r by nra.
  assert (K : b * P * NN <= Rabs (cim s) * Rabs (NN - wo * wo)).
  { rewrite A. apply Rmult_le_compat_r; [lra|]. apply Rmult_le_compat_l; lra. }
  assert (NW : (wo * wo) * (wo * wo) <= NN * M ^ 2).
  { replace (NN * M ^ 2) with ((cnorm s * M) * (cnorm s * M)) by (unfold NN; ring). apply Rmult_le_compat; nra. }
  pose proof (Rabs_pos (cim s)) as I0.
  assert (bP : 0 < b * P) by nra.
  destruct (Rle_lt_dec (wo * wo) NN) as [G|G].
  - rewrite (Rabs_right (NN - wo * wo)) in K by lra. assert (b * P <= Rabs (cim s)).
    { apply (Rmult_le_reg_r NN); [exact N0|]. apply Rle_trans with (1 := K). apply Rmult_le_compat_l; nra. }
    assert (wo ^ 2 <= M ^ 2) by (apply pow_incr; lra). apply Rmult_le_compat; nra.
  - rewrite (Rabs_left (NN - wo * wo)) in K by lra.
    assert (K2 : b * P * NN <= Rabs (cim s) * (wo * wo)) by (apply Rle_trans with (1 := K); apply Rmult_le_compat_l; lra).
    apply (Rmult_le_reg_r (wo * wo)); [nra|].
    apply Rle_trans with (b * P * (NN * M ^ 2)); [replace (b * P * wo ^ 2 * (wo * wo)) with (b * P * (wo * wo * (wo * wo))) by ring; apply Rmult_le_compat_l; lra|].
    replace (b * P * (NN * M ^ 2)) with (b * P * NN * M ^ 2) by ring. replace (Rabs (cim s) * M ^ 2 * (wo * wo)) with (Rabs (cim s) * (wo * wo) * M ^ 2) by ring.
    apply Rmult_le_compat_r; [apply pow2_ge_0|exact K2].
Qed.
Lemma band_root_real (s : C) r b wo : 0 < wo -> (s * s - RtoC b * RtoC r * s + RtoC (wo * wo)%R = C0)%C ->
  cim s = 0 \/ (cnorm s = wo /\ 4 * (cim s * cim s) = 4 * (wo * wo) - (b * r) ^ 2).
Proof.
  intros Hw E. destruct s as [x y]. pose proof (f_equal cre E) as E1. pose proof (f_equal cim E) as E2. cbn in E1, E2. cbn [cim snd].
  assert (E1' : x * x - y * y - b * r * x + wo * wo = 0) by lra. assert (E2' : y * (2 * x - b * r) = 0) by lra. clear E E1 E2.
  destruct (Rmult_integral _ _ E2') as [Z|Z]; [left; exact Z|right]. assert (X : b * r = 2 * x) by lra. rewrite X in E1' |- *.
  assert (N : x * x + y * y = wo * wo) by lra. split; [|lra].
  rewrite ?cnorm_def; unfold cnorm_sqr. change (sqrt (x * x + y * y) = wo). rewrite N. apply sqrt_square. lra.
Qed.

(** ** Prototype poles on the ellipse with semi-axes sh <= ch *)
Section Ellipse.
Variables (n : nat) (sh ch epsilon : R).
Hypothesis Hn : (0 < n)%nat.
Hypothesis Hsh : 0 < sh.
Hypothesis Hsc : sh <= ch.
Hypothesis Hc1 : 1 <= ch.
Hypothesis He : 0 <= epsilon.
Definition ep (k : nat) : C := (- (sh * cos (phi n k)), - (ch * sin (phi n k))).
Let Hn' : 0 < INR n.
Proof. apply lt_0_INR. exact Hn. Qed.
Let Hn1 : 1 <= INR n.
Proof. apply (le_INR 1). lia. Qed.
Lemma ep_norm2 k : sh * sh <= cnorm_sqr (ep k) <= ch * ch.
Proof.
  unfold ep, cnorm_sqr. cbn [cre cim fst snd nadd nmul RNum]. pose proof (sin2_cos2 (phi n k)) as Q. unfold Rsqr in Q.
  set (s := sin _) in *. set (c := cos _) in *. assert (sh * sh <= ch * ch) by (apply Rmult_le_compat; lra).
  assert (0 <= s * s) by (apply Rle_0_sqr). assert (0 <= c * c) by (apply Rle_0_sqr).
  change (sh * sh <= - (sh * c) * - (sh * c) + - (ch * s) * - (ch * s) <= ch * ch).
  replace (- (sh * c) * - (sh * c) + - (ch * s) * - (ch * s)) with (sh * sh * (c * c) + ch * ch * (s * s)) by ring.
  replace (c * c) with (1 - s * s) by lra. split; nra.
Qed.
Lemma ep_norm k : sh <= cnorm (ep k) <= ch.
Proof.
  pose proof (ep_norm2 k) as [A B]. pose proof (cnorm_sq (ep k)) as E. pose proof (cnorm_pos (ep k)) as P. rewrite <- E in A, B. split; nra.
Qed.
Lemma ep_im k : (k < n)%nat -> (cim (ep k) = 0 /\ Nat.Odd n /\ ep k = RtoC (- sh)) \/ ch / INR n <= Rabs (cim (ep k)).
Proof.
  intros Hk. destruct (sin_phi_gap n k Hk) as [Q|Q].
  - left. destruct (sin_phi_odd n k Hk Q) as [O C]. unfold ep. rewrite Q, C. cbn [cim snd]. split; [ring|]. split; [exact O|]. apply C_ext; cbn; ring.
  - right. unfold ep. cbn [cim snd]. rewrite Rabs_Ropp, Rabs_mult, (Rabs_right ch) by lra. unfold Rdiv. apply Rmult_le_compat_l; [lra|]. rewrite <- (Rmult_1_l (/ INR n)). exact Q.
Qed.
Lemma inv_im (p : C) : p <> C0 -> cim (C1 / p)%C = - cim p / cnorm_sqr p.
Proof. intros Hp. apply cnorm_sqr_pos in Hp. destruct p as [x y]. cbn in *. field. lra. Qed.
Lemma inv_norm (p : C) : p <> C0 -> cnorm (C1 / p)%C = / cnorm p.
Proof.
  intros Hp. assert (E : (p * (C1 / p) = C1)%C) by (field; exact Hp). apply (f_equal cnorm) in E. rewrite cnorm_mul in E. change C1 with (RtoC 1) in E at 2. rewrite cnorm_RtoC, Rabs_R1 in E.
  apply (Rmult_eq_reg_l (cnorm p)); [|intros Z; rewrite Z in E; lra]. rewrite E, Rinv_r; [reflexivity|intros Z; rewrite Z in E; lra].
Qed.
Lemma ep_neq0 k : ep k <> C0.
Proof. intros Q. pose proof (ep_norm2 k) as [A _]. rewrite Q in A. unfold cnorm_sqr in A. cbn in A. nra. Qed.
Lemma epi_im k : (k < n)%nat -> (Nat.Odd n /\ (C1 / ep k)%C = RtoC (- (1 / sh))) \/ 1 / (INR n * ch) <= Rabs (cim (C1 / ep k)%C).
Proof.
  intros Hk. destruct (ep_im k Hk) as [[_ [O C]]|Q].
  - left. split; [exact O|]. rewrite C. apply C_ext; cbn; field; lra.
  - right. rewrite inv_im by apply ep_neq0. pose proof (ep_norm2 k) as [A B]. set (NN := cnorm_sqr (ep k)) in *. assert (N0 : 0 < NN) by nra.
    unfold Rdiv at 2. rewrite Rabs_mult, Rabs_Ropp, (Rabs_right (/ NN)) by (apply Rle_ge, Rlt_le, Rinv_0_lt_compat; exact N0).
    replace (1 / (INR n * ch)) with (ch / INR n * / (ch * ch)) by (field; split; lra).
    apply Rmult_le_compat; [left; apply Rdiv_lt_0_compat; lra|left; apply Rinv_0_lt_compat; nra|exact Q|]. apply Rinv_le_contravar; [exact N0|exact B].
Qed.

(** low-pass and high-pass *)
Lemma lp_clear w k : (k < n)%nat -> 0 < w < 1 -> cre (ep k * RtoC (warp w))%C <= 0 -> 100 * epsilon * INR n * ch < Rmin w (1 - w) ->
  clear epsilon (bil (ep k * RtoC (warp w))%C).
Proof.
  intros Hk Hw Hre HL. destruct (lp_margin w Hw) as [T0 TM]. change (warp w) with (2 * 2 * tan (PI * w / 2)) in *. set (T := tan (PI * w / 2)) in *.
  apply (clear_bil epsilon _ (ch / INR n * (4 * T)) (4 * T * ch)); [exact He|exact Hre|nra| | |].
  - rewrite cnorm_mul, cnorm_RtoC, Rabs_right by lra. destruct (ep_norm k) as [_ B]. nra.
  - replace (cim (ep k * RtoC (2 * 2 * T)%R)%C) with (cim (ep k) * (4 * T)) by (destruct (ep k); cbn; ring).
    destruct (ep_im k Hk) as [[Q _]|Q]; [left; rewrite Q; ring|right]. rewrite Rabs_mult, (Rabs_right (4 * T)) by lra. apply Rmult_le_compat_r; lra.
  - assert (U : (1 + T * ch) ^ 2 <= ch ^ 2 * (1 + T) ^ 2) by (rewrite <- Rpow_mult_distr; apply pow_incr; nra).
    apply Rle_lt_trans with (100 * epsilon * (16 * (ch ^ 2 * (1 + T) ^ 2))).
    { apply Rmult_le_compat_l; [nra|]. replace ((4 + 4 * T * ch) ^ 2) with (16 * (1 + T * ch) ^ 2) by ring. lra. }
    apply (Rmult_lt_reg_r (INR n)); [lra|]. replace (8 * (ch / INR n * (4 * T)) * INR n) with (16 * ch * (2 * T)) by (field; lra).
    replace (100 * epsilon * (16 * (ch ^ 2 * (1 + T) ^ 2)) * INR n) with (16 * ch * (100 * epsilon * INR n * ch * (1 + T) ^ 2)) by ring.
    apply Rmult_lt_compat_l; [lra|]. eapply Rlt_le_trans; [|exact TM]. apply Rmult_lt_compat_r; [apply pow_lt; lra|exact HL].
Qed.
Lemma hp_clear w k : (k < n)%nat -> 0 < w < 1 -> cre (RtoC (warp w) / ep k)%C <= 0 -> 100 * epsilon * INR n * ch < Rmin w (1 - w) ->
  clear epsilon (bil (RtoC (warp w) / ep k)%C).
Proof.
  intros Hk Hw Hre HL. destruct (lp_margin w Hw) as [T0 TM]. change (warp w) with (2 * 2 * tan (PI * w / 2)) in *. set (T := tan (PI * w / 2)) in *.
  pose proof (ep_norm k) as [A B]. pose proof (ep_neq0 k) as P0. set (r := cnorm (ep k)) in *. assert (R0 : 0 < r) by lra.
  assert (Er : cnorm_sqr (ep k) = r * r) by (symmetry; apply cnorm_sq).
  assert (ES : (RtoC (2 * 2 * T)%R / ep k)%C = (RtoC (4 * T)%R * (C1 / ep k))%C).
  { replace (2 * 2 * T) with (4 * T) by ring. field. exact P0. }
  apply (clear_bil epsilon _ (4 * T * (ch / INR n / (r * r))) (4 * T / r)); [exact He|exact Hre|left; apply Rdiv_lt_0_compat; lra| | |].
  - rewrite ES, cnorm_mul, cnorm_RtoC, Rabs_right, inv_norm by (assumption || lra). fold r. apply Rle_refl.
  - rewrite ES. replace (cim (RtoC (4 * T)%R * (C1 / ep k))%C) with (4 * T * cim (C1 / ep k)%C) by (destruct (C1 / ep k)%C; cbn; ring).
    rewrite inv_im, Er by exact P0. destruct (ep_im k Hk) as [[Q _]|Q]; [left; rewrite Q; unfold Rdiv; ring|right].
    rewrite Rabs_mult, (Rabs_right (4 * T)) by lra. apply Rmult_le_compat_l; [lra|]. unfold Rdiv at 3. rewrite Rabs_mult, Rabs_Ropp, (Rabs_right (/ (r * r))).
    + apply Rmult_le_compat_r; [left; apply Rinv_0_lt_compat; nra|exact Q].
    + apply Rle_ge, Rlt_le, Rinv_0_lt_compat. nra.
  - apply (Rmult_lt_reg_r (INR n * (r * r))); [apply Rmult_lt_0_compat; nra|].
    replace (8 * (4 * T * (ch / INR n / (r * r))) * (INR n * (r * r))) with (16 * ch * (2 * T)) by (field; lra).
    replace (100 * epsilon * (4 + 4 * T / r) ^ 2 * (INR n * (r * r))) with (16 * (100 * epsilon * INR n) * (r + T) ^ 2) by (field; lra).
    assert (U : (r + T) ^ 2 <= ch ^ 2 * (1 + T) ^ 2) by (rewrite <- Rpow_mult_distr; apply pow_incr; nra).
    apply Rle_lt_trans with (16 * (100 * epsilon * INR n) * (ch ^ 2 * (1 + T) ^ 2)).
    { apply Rmult_le_compat_l; [|exact U]. apply Rmult_le_pos; [lra|]. apply Rmult_le_pos; nra. }
    replace (16 * (100 * epsilon * INR n) * (ch ^ 2 * (1 + T) ^ 2)) with (16 * ch * (100 * epsilon * INR n * ch * (1 + T) ^ 2)) by ring.
    apply Rmult_lt_compat_l; [lra|]. eapply Rlt_le_trans; [|exact TM]. apply Rmult_lt_compat_r; [apply pow_lt; lra|exact HL].
Qed.
End Ellipse.

(** Band-pass and band-stop. *)
Lemma band_clear n epsilon m b Q P r (q s : C) : 0 <= epsilon -> 0 < m -> 0 < b -> 0 < P -> 0 <= Q -> 0 <= r ->
  cre s <= 0 -> (s * s - RtoC (4 * b)%R * q * s + RtoC (4 * m * (4 * m))%R = C0)%C -> cnorm q <= Q ->
  (Nat.Odd n /\ q = RtoC (- r)) \/ P <= Rabs (cim q) ->
  100 * epsilon * (1 + m + b * Q) ^ 2 * (m + b * Q) ^ 2 < 2 * b * P * m ^ 2 ->
  (Nat.Odd n -> b * r < 2 * m -> 100 * epsilon * (1 + m) ^ 2 < sqrt (4 * m ^ 2 - (b * r) ^ 2)) ->
  clear epsilon (bil s).
Proof.
  intros He Hm Hb HP HQ Hr Hre E Hq Hi H1 H2. assert (bQ : 0 <= b * Q) by nra.
  destruct Hi as [[O ->]|Hi].
  - destruct (band_root_real s (- r) (4 * b) (4 * m) ltac:(lra) E) as [Z|[Nw Z]].
    + apply (clear_bil epsilon s (100 * epsilon * (4 + cnorm s) ^ 2 + 1) (cnorm s)); [exact He|exact Hre|apply cnorm_pos|apply Rle_refl|left; exact Z|].
      assert (0 <= 100 * epsilon * (4 + cnorm s) ^ 2) by (apply Rmult_le_pos; [lra|apply pow2_ge_0]). lra.
    + destruct (Req_dec (cim s) 0) as [Y|Y].
      { apply (clear_bil epsilon s (100 * epsilon * (4 + cnorm s) ^ 2 + 1) (cnorm s)); [exact He|exact Hre|apply cnorm_pos|apply Rle_refl|left; exact Y|].
        assert (0 <= 100 * epsilon * (4 + cnorm s) ^ 2) by (apply Rmult_le_pos; [lra|apply pow2_ge_0]). lra. }
      assert (Y2 : 0 < cim s * cim s) by (destruct (Rdichotomy _ _ Y); nra).
      assert (D : 4 * m ^ 2 - (b * r) ^ 2 = (Rabs (cim s) / 2) ^ 2).
      { replace ((Rabs (cim s) / 2) ^ 2) with (Rabs (cim s) * Rabs (cim s) / 4) by field. rewrite <- Rabs_mult, Rabs_right by lra. nra. }
      assert (L : b * r < 2 * m) by (assert (0 <= b * r) by nra; assert (0 < (2 * m) ^ 2 - (b * r) ^ 2) by nra; nra).
      specialize (H2 O L). rewrite D in H2. rewrite sqrt_pow2 in H2 by (pose proof (Rabs_pos (cim s)); lra).
      apply (clear_bil epsilon s (Rabs (cim s)) (4 * m)); [exact He|exact Hre|lra|lra|right; apply Rle_refl|].
      replace ((4 + 4 * m) ^ 2) with (16 * (1 + m) ^ 2) by ring. lra.
  - destruct (band_root_im s q (4 * b) (4 * m) P Q ltac:(lra) ltac:(lra) HP Hi Hq E) as [U V].
    apply (clear_bil epsilon s (4 * b * P * (4 * m) ^ 2 / (4 * m + 4 * b * Q) ^ 2) (4 * m + 4 * b * Q)); [exact He|exact Hre|lra|exact U|right; exact V|].
    assert (M0 : 0 < (m + b * Q) ^ 2) by (apply pow_lt; lra).
    replace (8 * (4 * b * P * (4 * m) ^ 2 / (4 * m + 4 * b * Q) ^ 2)) with (16 * (2 * b * P * m ^ 2 / (m + b * Q) ^ 2)) by (field; lra).
    replace (100 * epsilon * (4 + (4 * m + 4 * b * Q)) ^ 2) with (16 * (100 * epsilon * (1 + m + b * Q) ^ 2)) by ring.
    apply Rmult_lt_compat_l; [lra|]. apply (Rmult_lt_reg_r ((m + b * Q) ^ 2)); [exact M0|].
    replace (2 * b * P * m ^ 2 / (m + b * Q) ^ 2 * (m + b * Q) ^ 2) with (2 * b * P * m ^ 2) by (field; lra). exact H1.
Qed.
Lemma stop_zero_clear epsilon m b Q P y : 0 <= epsilon -> 0 < m -> 0 < b -> 0 <= P <= Q -> Rabs y = 4 * m ->
  100 * epsilon * (1 + m + b * Q) ^ 2 * (m + b * Q) ^ 2 < 2 * b * P * m ^ 2 -> clear epsilon (bil (0, y)).
Proof.
  intros He Hm Hb HP Hy H1. assert (bQ : 0 <= b * Q) by (apply Rmult_le_pos; lra). assert (bP : b * P <= b * Q) by (apply Rmult_le_compat_l; lra).
  apply (clear_bil epsilon _ (4 * m) (4 * m)); [exact He|cbn; lra|lra| |right; cbn [cim snd]; lra|].
  - replace (cnorm (0, y)) with (Rabs y); [lra|]. rewrite ?cnorm_def; unfold cnorm_sqr. change (Rabs y = sqrt (0 * 0 + y * y)). rewrite Rmult_0_l, Rplus_0_l. symmetry. apply sqrt_Rsqr_abs.
  - replace (100 * epsilon * (4 + 4 * m) ^ 2) with (16 * (100 * epsilon * (1 + m) ^ 2)) by ring. replace (8 * (4 * m)) with (16 * (2 * m)) by ring.
    apply Rmult_lt_compat_l; [lra|]. set (u := m + b * Q) in *. assert (U : 0 < u) by (unfold u; lra). assert (Um : m <= u) by (unfold u; lra).
    apply (Rmult_lt_reg_r (u ^ 2)); [apply pow_lt; exact U|].
    apply Rle_lt_trans with (100 * epsilon * (1 + m + b * Q) ^ 2 * u ^ 2).
    { apply Rmult_le_compat_r; [apply pow2_ge_0|]. apply Rmult_le_compat_l; [lra|]. apply pow_incr. lra. }
    eapply Rlt_le_trans; [exact H1|]. assert (bPu : b * P <= u) by (unfold u; lra).
    replace (2 * b * P * m ^ 2) with (2 * m * (b * P * m)) by ring. replace (2 * m * u ^ 2) with (2 * m * (u * u)) by ring.
    apply Rmult_le_compat_l; [lra|]. apply Rmult_le_compat; nra.
Qed.

(** ** The digital filter *)
Lemma bil_eq (s : C) : cdiv (cadd (nmul two 2, 0) s) (csub (nmul two 2, 0) s) = bil s.
Proof. unfold bil. replace (nmul two 2, 0) with (RtoC 4); [reflexivity|]. unfold two. apply C_ext; cbn; ring. Qed.
Lemma bilinear_clear epsilon f1 f' : bilinear_zpk_dyn f1 2 = Ok f' -> Forall (fun s => clear epsilon (bil s)) (zk_z f1) -> Forall (fun s => clear epsilon (bil s)) (zk_p f1) ->
  separated epsilon (zk_z f') /\ separated epsilon (zk_p f').
Proof.
  intros E Hz Hp. unfold bilinear_zpk_dyn in E. destruct (relative_degree_dyn (zk_z f1) (zk_p f1)) as [d| | |]; cbn [bind] in E; try discriminate.
  apply (f_equal (fun x => match x with Ok f => (zk_z f, zk_p f) | _ => ([], []) end)) in E. cbn [zk_z zk_p] in E.
  pose proof (f_equal fst E) as E1. pose proof (f_equal snd E) as E2. cbn [fst snd] in E1, E2. rewrite <- E1, <- E2. split.
  - apply Forall_app. split.
    + apply Forall_forall. intros r Hr. apply in_map_iff in Hr. destruct Hr as [s [<- Hs]]. rewrite bil_eq. rewrite Forall_forall in Hz. exact (Hz s Hs).
    + apply Forall_forall. intros r Hr. apply repeat_spec in Hr. subst r. left. reflexivity.
  - apply Forall_forall. intros r Hr. apply in_map_iff in Hr. destruct Hr as [s [<- Hs]]. rewrite bil_eq. rewrite Forall_forall in Hp. exact (Hp s Hs).
Qed.
Lemma root_eq (a s c : C) wo2 : (c * c = csquare a - wo2)%C -> s = (a + c)%C \/ s = (a - c)%C -> (s * s - (a + a) * s + wo2 = C0)%C.
Proof.
  intros Hc [-> | ->].
  - transitivity (c * c - (a * a - wo2))%C; [ring|]. rewrite Hc. unfold csquare. ring.
  - transitivity (c * c - (a * a - wo2))%C; [ring|]. rewrite Hc. unfold csquare. ring.
Qed.
Lemma in_pm (l : list C) (wo2 : C) s : In s (map (fun ab => cadd (fst ab) (snd ab)) (map (fun zi => (zi, csqrt (csub (csquare zi) wo2))) l) ++
    map (fun ab => csub (fst ab) (snd ab)) (map (fun zi => (zi, csqrt (csub (csquare zi) wo2))) l)) ->
  exists a, In a l /\ (s * s - (a + a) * s + wo2 = C0)%C.
Proof.
  rewrite !map_map. cbn [fst snd]. intros Hin. apply in_app_iff in Hin. destruct Hin as [Hin|Hin]; apply in_map_iff in Hin; destruct Hin as [a [<- Ha]]; exists a; (split; [exact Ha|]).
  - apply (root_eq a _ (csqrt (csub (csquare a) wo2))); [apply csqrt_sq|left; reflexivity].
  - apply (root_eq a _ (csqrt (csub (csquare a) wo2))); [apply csqrt_sq|right; reflexivity].
Qed.
Lemma clear_0 epsilon : clear epsilon (bil (0, 0)).
Proof. left. rewrite bil_im by (cbn; lra). cbn. unfold Rdiv. ring. Qed.

Lemma two_freqs bt wn : bt = Bandpass \/ bt = Bandstop -> valid_digital bt wn ->
  let T0 := tan (PI * nth 0 wn 0 / 2) in let T1 := tan (PI * nth 1 wn 0 / 2) in
  0 < T1 - T0 /\ 0 < sqrt (T0 * T1) /\ nth 1 (map warp wn) 0 - nth 0 (map warp wn) 0 = 4 * (T1 - T0) /\
  sqrt (nth 0 (map warp wn) 0 * nth 1 (map warp wn) 0) = 4 * sqrt (T0 * T1).
Proof.
  intros Hb Hv T0 T1. pose proof (valid_warp bt wn Hv) as VW. destruct Hv as [Hl _].
  destruct wn as [|w0 [|w1 [|? ?]]]; try (destruct Hb as [-> | ->]; discriminate Hl).
  assert (V : 0 < 4 * T0 < 4 * T1).
  { replace (4 * T0) with (warp w0) by (unfold warp, T0; cbn [nth]; ring). replace (4 * T1) with (warp w1) by (unfold warp, T1; cbn [nth]; ring). destruct Hb as [-> | ->]; exact VW. }
  cbn [map nth]. unfold warp. fold T0 T1. change (tan (PI * w0 / 2)) with T0. change (tan (PI * w1 / 2)) with T1.
  assert (P : 0 < T0 * T1) by nra. split; [lra|]. split; [apply sqrt_lt_R0, P|]. split; [ring|].
  replace (2 * 2 * T0 * (2 * 2 * T1)) with (4 ^ 2 * (T0 * T1)) by ring. rewrite sqrt_mult by nra. rewrite sqrt_pow2 by lra. reflexivity.
Qed.
Theorem design_clear n sh ch epsilon k bt wn f1 f' : (0 < n)%nat -> 0 < sh -> sh <= ch -> 1 <= ch -> 0 <= epsilon ->
  valid_digital bt wn -> clear_of_tolerance epsilon bt n ch sh wn ->
  Forall (fun r => cre r < 0) (map (ep n sh ch) (seq 0 n)) -> conj_closed (map (ep n sh ch) (seq 0 n)) ->
  apply_band bt (mkZpk [] (map (ep n sh ch) (seq 0 n)) k) (map warp wn) = Ok f1 -> bilinear_zpk_dyn f1 2 = Ok f' ->
  separated epsilon (zk_z f') /\ separated epsilon (zk_p f').
Proof.
  intros Hn Hsh Hsc Hc1 He Hv HC Hst Hcc E1 E2. apply (bilinear_clear epsilon f1 f' E2).
  all: destruct (band_spec _ k Hst Hcc bt (map warp wn) (valid_warp bt wn Hv)) as [f [Ef [_ [_ [St _]]]]]; rewrite E1 in Ef; injection Ef as <-.
  all: unfold stable_analog in St; rewrite Forall_forall in St.
  all: assert (Hn' : 0 < INR n) by (apply lt_0_INR; exact Hn); assert (Hn1 : 1 <= INR n) by (apply (le_INR 1); lia).
  all: pose proof (two_freqs bt wn) as TF; cbv zeta in TF; unfold clear_of_tolerance in HC; cbv zeta in HC.
  all: pose proof (fun Q => TF Q Hv) as TF'; clear TF; set (T0 := tan (PI * nth 0 wn 0 / 2)) in *; set (T1 := tan (PI * nth 1 wn 0 / 2)) in *;
       set (m := sqrt (T0 * T1)) in *; set (b := T1 - T0) in *.
  - (* zeros *)
    destruct bt; cbn [apply_band] in E1.
    + unfold lp2lp_zpk_dyn, relative_degree_dyn in E1. cbn [zk_z zk_p zk_k length map] in E1. inversion E1. constructor.
    + unfold lp2hp_zpk_dyn, relative_degree_dyn in E1. cbn [zk_z zk_p zk_k length map app] in E1. inversion E1. cbn [zk_z].
      apply Forall_forall. intros s Hs. apply repeat_spec in Hs. subst s. apply clear_0.
    + unfold lp2bp_zpk_dyn, relative_degree_dyn in E1. cbn [zk_z zk_p zk_k length map app] in E1. inversion E1. cbn [zk_z].
      apply Forall_forall. intros s Hs. apply repeat_spec in Hs. subst s. apply clear_0.
    + destruct (TF' (or_intror eq_refl)) as [b0 [m0 [Eb Em]]]. destruct HC as [HC _].
      assert (PQ : 0 <= 1 / (INR n * ch) <= 1 / sh).
      { split; [left; apply Rdiv_lt_0_compat; nra|]. unfold Rdiv. rewrite !Rmult_1_l. apply Rinv_le_contravar; nra. }
      unfold lp2bs_zpk_dyn, relative_degree_dyn in E1. cbn [zk_z zk_p zk_k length map app unwrap_or] in E1. rewrite Em in E1. inversion E1. cbn [zk_z].
      apply Forall_app. split; apply Forall_forall; intros s Hs; apply repeat_spec in Hs; subst s;
        apply (stop_zero_clear epsilon m b (1 / sh) (1 / (INR n * ch))); try assumption;
        cbn; rewrite ?Rmult_1_l; rewrite ?Rabs_mult, ?Rabs_Ropp, ?Rabs_R1; rewrite ?(Rabs_left (-1)), ?(Rabs_right 4), ?(Rabs_right m) by lra; ring.
  - (* poles *)
    apply Forall_forall. intros s Hs. pose proof (Rlt_le _ _ (St s Hs)) as Hre. clear St.
    destruct bt; cbn [apply_band] in E1.
    + unfold lp2lp_zpk_dyn, relative_degree_dyn in E1. cbn [zk_z zk_p zk_k length map unwrap_or] in E1. inversion E1; subst f1. cbn [zk_p] in Hs.
      destruct Hv as [Hl [Hf _]]. destruct wn as [|w [|? ?]]; try discriminate Hl. inversion Hf as [|? ? Hw _]; subst. cbn [nth map] in *.
      apply in_map_iff in Hs. destruct Hs as [p [<- Hp]]. apply in_map_iff in Hp. destruct Hp as [j [<- Hj]]. apply in_seq in Hj.
      apply lp_clear; try assumption; lia.
    + unfold lp2hp_zpk_dyn, relative_degree_dyn in E1. cbn [zk_z zk_p zk_k length map app unwrap_or] in E1. inversion E1; subst f1. cbn [zk_p] in Hs.
      destruct Hv as [Hl [Hf _]]. destruct wn as [|w [|? ?]]; try discriminate Hl. inversion Hf as [|? ? Hw _]; subst. cbn [nth map] in *.
      apply in_map_iff in Hs. destruct Hs as [p [<- Hp]]. apply in_map_iff in Hp. destruct Hp as [j [<- Hj]]. apply in_seq in Hj.
      apply hp_clear; try assumption; lia.
    + destruct (TF' (or_introl eq_refl)) as [b0 [m0 [Eb Em]]]. destruct HC as [HC1 HC2].
      unfold lp2bp_zpk_dyn, relative_degree_dyn in E1. cbn [zk_z zk_p zk_k length map app unwrap_or] in E1. rewrite Em, Eb in E1. inversion E1; subst f1. cbn [zk_p] in Hs.
      apply in_pm in Hs. destruct Hs as [a [Ha Er]]. apply in_map_iff in Ha. destruct Ha as [p [<- Hp]]. apply in_map_iff in Hp. destruct Hp as [j [<- Hj]]. apply in_seq in Hj.
      apply (band_clear n epsilon m b ch (ch / INR n) sh (ep n sh ch j)); try assumption; try lra.
      * apply Rdiv_lt_0_compat; lra.
      * rewrite <- Er. apply C_ext; destruct (ep n sh ch j), s; cbn; field.
      * apply ep_norm; assumption.
      * destruct (ep_im n sh ch Hc1 j ltac:(lia)) as [[_ Q]|Q]; [left; exact Q|right; exact Q].
    + destruct (TF' (or_intror eq_refl)) as [b0 [m0 [Eb Em]]]. destruct HC as [HC1 HC2].
      unfold lp2bs_zpk_dyn, relative_degree_dyn in E1. cbn [zk_z zk_p zk_k length map app unwrap_or] in E1. rewrite Em, Eb in E1. inversion E1; subst f1. cbn [zk_p] in Hs.
      apply in_pm in Hs. destruct Hs as [a [Ha Er]]. apply in_map_iff in Ha. destruct Ha as [p [<- Hp]]. apply in_map_iff in Hp. destruct Hp as [j [<- Hj]]. apply in_seq in Hj.
      pose proof (ep_neq0 n sh ch Hsh Hsc j) as P0.
      assert (I : 0 < 1 / sh) by (apply Rdiv_lt_0_compat; lra).
      apply (band_clear n epsilon m b (1 / sh) (1 / (INR n * ch)) (1 / sh) (C1 / ep n sh ch j)%C); try assumption; try lra.
      * apply Rdiv_lt_0_compat; nra.
      * rewrite <- Er.
        match goal with |- context [cmul (cdiv ?u (ep n sh ch j)) ?v] => replace (cmul (cdiv u (ep n sh ch j)) v) with (RtoC (2 * b)%R * (C1 / ep n sh ch j))%C end.
        { set (q := (C1 / ep n sh ch j)%C). apply C_ext; destruct q, s; cbn; ring. }
        apply cnorm_sqr_pos in P0. destruct (ep n sh ch j) as [x y]. unfold two. unfold cnorm_sqr in P0. apply C_ext; cbn in *; field; lra.
      * rewrite inv_norm by exact P0. unfold Rdiv. rewrite Rmult_1_l. apply Rinv_le_contravar; [lra|]. apply (ep_norm n sh ch Hsh Hsc); assumption.
      * destruct (epi_im n sh ch Hn Hsh Hsc Hc1 j ltac:(lia)) as [Q|Q]; [left; exact Q|right; exact Q].
Qed.
