(** Rounding in the complex square root: the float computed is an exact square root of the
    float argument, up to a multiple of the unit roundoff, on whichever side of the branch
    cut the argument has been rounded to. *)
From Coq Require Import Reals Ratan ZArith SpecFloat List Lia Lra Bool.
From Flocq Require Import Core BinarySingleNaN.
From Verif Require Import Base Num Trans M_Complex M_Filter M_Design Cx S_Design S_Filter S_Float S_FloatFft S_FloatZpk S_FloatTrans
  P_Float P_FloatStats P_Sqrt P_Poly P_Lp P_Proto P_Stable P_Zi P_FloatI0 P_FloatZi P_FloatPoly T_FloatPoly P_FloatDesign P_FloatResponse.
Import ListNotations.
Local Open Scope R_scope.

Lemma Rabs_sin_le x : Rabs (sin x) <= Rabs x.
Proof.
  assert (P : forall y, 0 <= y -> Rabs (sin y) <= y).
  { intros y Hy. destruct (Rle_lt_dec 1 y) as [B|B].
    - pose proof (SIN_bound y). apply Rabs_le. lra.
    - destruct (Req_dec y 0) as [->|Ny]; [rewrite sin_0, Rabs_R0; lra|]. pose proof PI_RGT_0. pose proof PI2_1.
      assert (0 < y) by lra. pose proof (sin_lt_x y ltac:(lra)). assert (0 <= sin y) by (apply sin_ge_0; lra). rewrite Rabs_right; lra. }
  destruct (Rle_lt_dec 0 x) as [Hx|Hx]; [rewrite (Rabs_right x) by lra; apply P; exact Hx|].
  rewrite (Rabs_left x) by lra. rewrite <- (Ropp_involutive x), sin_neg, Rabs_Ropp, Ropp_involutive. apply P. lra.
Qed.
Lemma cos_lip a b : Rabs (cos a - cos b) <= Rabs (a - b).
Proof.
  rewrite form2. rewrite !Rabs_mult. rewrite (Rabs_left (-2)) by lra. pose proof (Rabs_sin_le ((a - b) / 2)) as H.
  unfold Rdiv in H at 2. rewrite Rabs_mult, (Rabs_right (/ 2)) in H by lra.
  assert (Rabs (sin ((a + b) / 2)) <= 1) by (apply Rabs_le; apply SIN_bound). pose proof (Rabs_pos (sin ((a - b) / 2))). pose proof (Rabs_pos (sin ((a + b) / 2))). nra.
Qed.
Lemma sin_lip a b : Rabs (sin a - sin b) <= Rabs (a - b).
Proof. rewrite !sin_cos. pose proof (cos_lip (PI / 2 + a) (PI / 2 + b)) as H. replace (PI / 2 + a - (PI / 2 + b)) with (a - b) in H by ring. replace (- cos (PI / 2 + a) - - cos (PI / 2 + b)) with (- (cos (PI / 2 + a) - cos (PI / 2 + b))) by ring. rewrite Rabs_Ropp. exact H. Qed.

Section Varying.
Variable I : Type.
Variables pr em : I -> Z.
Variable V : I -> Prop.
Notation napp := (napp I pr em V).
Notation fmt_ok := (fmt_ok I pr em V).
Notation ev := (ev I pr em V).
Ltac pq := unfold Prec_gt_0, Prec_lt_emax; lia.
Ltac fm Hi := apply (fmt_mono I pr em V _ _ _ Hi).

(** Closeness to a bounded target that may move with the format. *)
Definition vapp (c : I -> R) (f : I -> spec_float) : Prop :=
  exists K, 1 <= K /\ forall i, fmt_ok K i -> finite (pr i) (em i) (f i) /\ Rabs (fval (f i) - c i) <= K * uround (pr i) /\ Rabs (c i) <= K.
Lemma vapp_op c (f : I -> spec_float) (v : I -> R) K : 1 <= K ->
  (forall i, fmt_ok K i -> Rabs (v i - c i) <= K * uround (pr i) /\ Rabs (c i) <= K /\
     (Rabs (v i) <= fmax (pr i) (em i) -> finite (pr i) (em i) (f i) /\
        fval (f i) = round radix2 (FLT_exp (SpecFloat.emin (pr i) (em i)) (pr i)) ZnearestE (v i))) ->
  vapp c f.
Proof.
  intros HK H. exists (K + K + 2). split; [lra|]. intros i Hi.
  pose proof (fmt_mono I pr em V _ K i Hi ltac:(lra)) as Hi'. destruct (H i Hi') as [E [B O]]. destruct Hi as (_ & Hpe & HU). destruct Hi' as (_ & _ & HU').
  destruct (u_half (pr i) ltac:(lia)) as [U0 U1]. pose proof (tiny_le_u _ _ Hpe) as T. pose proof (fmax_inv_u _ _ _ Hpe HU) as M.
  assert (B2 : Rabs (v i) <= K + 1).
  { replace (v i) with ((v i - c i) + c i) by ring. eapply Rle_trans; [apply Rabs_triang|]. lra. }
  destruct (O ltac:(lra)) as [F E2]. split; [exact F|]. split; [|lra]. rewrite E2.
  pose proof (rnd_err (pr i) (em i) ltac:(unfold Prec_gt_0; lia) (v i)) as Q.
  match type of Q with Rabs (?w - _) <= _ => set (W := w) in * end.
  replace (W - c i) with ((W - v i) + (v i - c i)) by ring. eapply Rle_trans; [apply Rabs_triang|].
  assert (uround (pr i) * Rabs (v i) <= uround (pr i) * (K + 1)) by (apply Rmult_le_compat_l; lra).
  rewrite !Rmult_plus_distr_r. lra.
Qed.
Lemma vapp_self c f : napp c f -> vapp (fun i => fval (f i)) f.
Proof.
  intros [K [HK H]]. exists (K + Rabs c + 1). pose proof (Rabs_pos c). split; [lra|]. intros i Hi.
  pose proof (fmt_mono I pr em V _ K i Hi ltac:(lra)) as Hk. destruct (H i Hk) as [F E]. destruct Hk as (_ & Hpe & HU). destruct (u_half (pr i) ltac:(lia)) as [U0 _].
  split; [exact F|]. split; [rewrite Rminus_diag_eq, Rabs_R0 by reflexivity; apply Rmult_le_pos; lra|].
  replace (fval (f i)) with ((fval (f i) - c) + c) by ring. eapply Rle_trans; [apply Rabs_triang|]. lra.
Qed.
Lemma vapp_zero s : vapp (fun _ => 0) (fun _ => S754_zero s).
Proof.
  exists 1. split; [lra|]. intros i (_ & Hpe & _). destruct (u_half (pr i) ltac:(lia)) as [U0 _]. cbn [fval]. rewrite Rminus_0_r, Rabs_R0.
  split; [split; [reflexivity|exact Logic.I]|]. split; lra.
Qed.
Lemma vapp_opp c f : vapp c f -> vapp (fun i => - c i) (fun i => SFopp (f i)).
Proof.
  intros (K & HK & H). exists K. split; [exact HK|]. intros i Hi. destruct (H i Hi) as [[F1 F2] [E B]].
  assert (fval (SFopp (f i)) = - fval (f i)) as ->.
  { destruct (f i) as [s|s| |s m e]; cbn; try ring. destruct s; cbn; ring. }
  split; [|split; [|rewrite Rabs_Ropp; exact B]].
  - destruct (f i) as [s|s| |s m e]; try destruct F2; split; try exact Logic.I; try reflexivity. exact F1.
  - replace (- fval (f i) - - c i) with (- (fval (f i) - c i)) by ring. rewrite Rabs_Ropp. exact E.
Qed.
Lemma vapp_mul c d f g : vapp c f -> vapp d g -> vapp (fun i => c i * d i) (fun i => SFmul (pr i) (em i) (f i) (g i)).
Proof.
  intros (K & HK & H) (L & HL & G).
  apply (vapp_op _ _ (fun i => fval (f i) * fval (g i)) (K * (L + 1) + K * L)); [nra|].
  intros i Hi. assert (K <= K * (L + 1) + K * L) by nra. assert (L <= K * (L + 1) + K * L) by nra.
  pose proof (fmt_mono I pr em V _ L i Hi ltac:(assumption)) as HiL.
  destruct (H i (fmt_mono I pr em V _ K i Hi ltac:(assumption))) as [F1 [E1 B1]]. destruct (G i HiL) as [F2 [E2 B2]].
  destruct Hi as (_ & Hpe & _). destruct (u_half (pr i) ltac:(lia)) as [U0 _]. pose proof (Rabs_pos (c i)). pose proof (Rabs_pos (d i)).
  split; [|split].
  - replace (fval (f i) * fval (g i) - c i * d i) with ((fval (f i) - c i) * fval (g i) + c i * (fval (g i) - d i)) by ring.
    eapply Rle_trans; [apply Rabs_triang|]. rewrite !Rabs_mult. destruct HiL as (_ & _ & HU).
    assert (B : Rabs (fval (g i)) <= L + 1).
    { replace (fval (g i)) with ((fval (g i) - d i) + d i) by ring. eapply Rle_trans; [apply Rabs_triang|]. lra. }
    pose proof (Rabs_pos (fval (f i) - c i)). pose proof (Rabs_pos (fval (g i) - d i)). pose proof (Rabs_pos (fval (g i))).
    assert (Rabs (fval (f i) - c i) * Rabs (fval (g i)) <= (K * uround (pr i)) * (L + 1)) by (apply Rmult_le_compat; assumption).
    assert (Rabs (c i) * Rabs (fval (g i) - d i) <= K * (L * uround (pr i))) by (apply Rmult_le_compat; assumption).
    lra.
  - rewrite Rabs_mult. assert (Rabs (c i) * Rabs (d i) <= K * L) by (apply Rmult_le_compat; assumption). nra.
  - intros M. apply fmul_ok; try assumption; pq.
Qed.
Lemma ev_two : ev (fun i => finite (pr i) (em i) (SFadd (pr i) (em i) (SpecFloat.binary_normalize (pr i) (em i) 1 0 false) (SpecFloat.binary_normalize (pr i) (em i) 1 0 false)) /\
  fval (SFadd (pr i) (em i) (SpecFloat.binary_normalize (pr i) (em i) 1 0 false) (SpecFloat.binary_normalize (pr i) (em i) 1 0 false)) = 2).
Proof.
  exists 4. split; [lra|]. intros i (_ & Hpe & HU). destruct (one_ok _ _ Hpe) as [F1 E1].
  destruct (fadd_ok (pr i) (em i) ltac:(pq) ltac:(pq) _ _ F1 F1) as [F E].
  { rewrite E1. replace (1 + 1) with 2 by ring. rewrite Rabs_right by lra. pose proof (fmax_inv_u _ _ _ Hpe HU). lra. }
  split; [exact F|]. rewrite E, E1. replace (1 + 1) with 2 by ring. apply round_generic; [apply valid_rnd_N|].
  apply (int_format (pr i) (em i) ltac:(pq) ltac:(pq) 2). cbn [Z.abs]. change 2%Z with (2 ^ 1)%Z at 1. apply Z.pow_le_mono_r; lia.
Qed.
Lemma vapp_half c f : vapp c f -> vapp (fun i => c i / 2) (fun i => SFdiv (pr i) (em i) (f i)
  (SFadd (pr i) (em i) (SpecFloat.binary_normalize (pr i) (em i) 1 0 false) (SpecFloat.binary_normalize (pr i) (em i) 1 0 false))).
Proof.
  intros (K & HK & H). destruct ev_two as [L [HL G]]. apply (vapp_op _ _ (fun i => fval (f i) / 2) (K + L)); [lra|]. intros i Hi.
  destruct (H i (fmt_mono I pr em V _ K i Hi ltac:(lra))) as [F1 [E1 B1]]. destruct (G i (fmt_mono I pr em V _ L i Hi ltac:(lra))) as [F2 E2].
  destruct Hi as (_ & Hpe & _). destruct (u_half (pr i) ltac:(lia)) as [U0 _]. split; [|split].
  - replace (fval (f i) / 2 - c i / 2) with ((fval (f i) - c i) * / 2) by field. rewrite Rabs_mult, (Rabs_right (/ 2)) by lra. assert (0 <= L * uround (pr i)) by nra. pose proof (Rabs_pos (fval (f i) - c i)). lra.
  - unfold Rdiv. rewrite Rabs_mult, (Rabs_right (/ 2)) by lra. pose proof (Rabs_pos (c i)). lra.
  - intros M. rewrite <- E2. apply fdiv_ok; try assumption; try pq; rewrite E2; [lra|exact M].
Qed.
Lemma vapp_abs c f : vapp c f -> vapp (fun i => Rabs (c i)) (fun i => SFabs (f i)).
Proof.
  intros (K & HK & H). exists K. split; [exact HK|]. intros i Hi. destruct (H i Hi) as [[F1 F2] [E B]].
  assert (A : finite (pr i) (em i) (SFabs (f i)) /\ fval (SFabs (f i)) = Rabs (fval (f i))).
  { pose proof Hi as (_ & Hpe & _). destruct (f i) as [s|s| |s m e]; try destruct F2; cbn [SFabs fval]; [rewrite Rabs_R0; split; [split; [reflexivity|exact Logic.I]|reflexivity]|].
    split; [split; [exact F1|exact Logic.I]|]. destruct s; cbn [fval]; unfold Rdiv; rewrite ?Rabs_mult, ?(Rabs_right (powerRZ 2 e)); try (apply Rle_ge; left; apply powerRZ_lt; lra); rewrite <- ?Ropp_Ropp_IZR, <- ?abs_IZR; try reflexivity. }
  destruct A as [A1 A2]. rewrite A2. split; [exact A1|]. split; [|rewrite Rabs_Rabsolu; exact B]. eapply Rle_trans; [apply Rabs_triang_inv2|exact E].
Qed.
Lemma vapp_sqrt c f d : 0 < d -> ev (fun i => d <= c i) -> vapp c f -> vapp (fun i => sqrt (c i)) (fun i => SFsqrt (pr i) (em i) (f i)).
Proof.
  intros Hd [L [HL G]] (K & HK & H). assert (S0 : 0 < sqrt d) by (apply sqrt_lt_R0; exact Hd).
  assert (J0 : 0 <= K / sqrt d) by (apply Rmult_le_pos; [lra|left; apply Rinv_0_lt_compat; exact S0]).
  assert (J1 : 0 <= 2 * K / d) by (apply Rmult_le_pos; [lra|left; apply Rinv_0_lt_compat; exact Hd]).
  apply (vapp_op _ _ (fun i => sqrt (fval (f i))) (K + L + K / sqrt d + 2 * K / d + 1)); [lra|]. intros i Hi.
  destruct (H i (fmt_mono I pr em V _ K i Hi ltac:(lra))) as [F1 [E1 B1]]. pose proof (G i (fmt_mono I pr em V _ L i Hi ltac:(lra))) as D.
  destruct (fmt_mono I pr em V _ (2 * K / d) i Hi ltac:(lra)) as (_ & Hpe & HU). destruct (u_half (pr i) ltac:(lia)) as [U0 _].
  assert (Q : K * uround (pr i) <= d / 2).
  { apply (Rmult_le_reg_r (2 / d)); [apply Rdiv_lt_0_compat; lra|]. replace (d / 2 * (2 / d)) with 1 by (field; lra). replace (K * uround (pr i) * (2 / d)) with (2 * K / d * uround (pr i)) by (field; lra). exact HU. }
  set (v := fval (f i)) in *. apply Raux.Rabs_le_inv in E1. assert (V0 : 0 < v) by lra. split; [|split].
  - assert (sqrt d <= sqrt (c i)) by (apply sqrt_le_1_alt; exact D).
    assert (Rabs (sqrt v - sqrt (c i)) <= K / sqrt d * uround (pr i)).
    { apply (Rmult_le_reg_r (sqrt d)); [exact S0|]. replace (K / sqrt d * uround (pr i) * sqrt d) with (K * uround (pr i)) by (field; lra).
      apply Rle_trans with (Rabs (v - c i)); [|apply Rabs_le; exact E1]. replace (v - c i) with ((sqrt v - sqrt (c i)) * (sqrt v + sqrt (c i))).
      - rewrite Rabs_mult. apply Rmult_le_compat_l; [apply Rabs_pos|]. pose proof (sqrt_pos v). rewrite (Rabs_right (sqrt v + sqrt (c i))) by lra. lra.
      - pose proof (sqrt_sqrt v ltac:(lra)). pose proof (sqrt_sqrt (c i) ltac:(lra)). nra. }
    assert (0 <= K * uround (pr i)) by nra. assert (0 <= L * uround (pr i)) by nra. assert (0 <= 2 * K / d * uround (pr i)) by nra. rewrite !Rmult_plus_distr_r. lra.
  - rewrite Rabs_right by (apply Rle_ge, sqrt_pos). assert (sqrt (c i) <= 1 + c i).
    { pose proof (sqrt_sqrt (c i) ltac:(lra)). pose proof (sqrt_pos (c i)). nra. }
    rewrite (Rabs_right (c i)) in B1 by lra. lra.
  - intros M. destruct (fsqrt_ok (pr i) (em i) ltac:(pq) ltac:(pq) (f i) F1 (Rlt_le _ _ V0)) as [F2 E2]. split; [exact F2|exact E2].
Qed.
(** An accurate function at the float itself, and a Lipschitz one near a moving target. *)
Lemma vapp_acc E (g : I -> spec_float -> spec_float) (h : I -> R -> R) (dom : R -> Prop) M x : 0 <= E ->
  ev (fun i => accurate (pr i) (em i) E (g i) (h i) dom /\ finite (pr i) (em i) (x i) /\ dom (fval (x i)) /\ Rabs (h i (fval (x i))) <= M) ->
  vapp (fun i => h i (fval (x i))) (fun i => g i (x i)).
Proof.
  intros HE [K [HK H]]. pose proof (Rabs_pos M) as M0. set (P := (1 + Rabs M) * (1 + E)). assert (PM : 1 + Rabs M <= P) by (unfold P; nra). exists (K + P). split; [lra|]. intros i Hi.
  destruct (H i (fmt_mono I pr em V _ K i Hi ltac:(lra))) as [A [F [D B]]].
  destruct (fmt_mono I pr em V _ (1 + Rabs M) i Hi ltac:(lra)) as (_ & Hpe & HU). destruct (u_half (pr i) ltac:(lia)) as [U0 _]. pose proof (fmax_inv_u _ _ _ Hpe HU) as MX.
  assert (B' : Rabs (h i (fval (x i))) <= Rabs M) by (eapply Rle_trans; [exact B|apply Rle_abs]).
  destruct (A (x i) F D ltac:(lra)) as [F2 E2]. split; [exact F2|]. split; [|lra].
  eapply Rle_trans; [exact E2|]. assert (E * uround (pr i) * (1 + Rabs (h i (fval (x i)))) <= E * uround (pr i) * (1 + Rabs M)) by (apply Rmult_le_compat_l; [nra|lra]). assert (0 <= K * uround (pr i)) by nra. assert (0 <= (1 + Rabs M) * uround (pr i)) by nra. rewrite Rmult_plus_distr_r. unfold P. lra.
Qed.
Lemma vapp_lip E (g : I -> spec_float -> spec_float) (h : R -> R) (dom : R -> Prop) M c x : 0 <= E -> 0 <= M ->
  ev (fun i => accurate (pr i) (em i) E (g i) h dom) -> (forall a b, Rabs (h a - h b) <= Rabs (a - b)) -> (forall a, Rabs (h a) <= M) ->
  ev (fun i => dom (fval (x i))) -> vapp c x -> vapp (fun i => h (c i)) (fun i => g i (x i)).
Proof.
  intros HE HM [K [HK A]] LP BD [L [HL D]] (J & HJ & H). set (P := (1 + M) * (1 + E)). assert (PM : 1 + M <= P) by (unfold P; nra). exists (K + L + J + P). split; [lra|]. intros i Hi.
  pose proof (A i (fmt_mono I pr em V _ K i Hi ltac:(lra))) as Ai. pose proof (D i (fmt_mono I pr em V _ L i Hi ltac:(lra))) as Di.
  destruct (H i (fmt_mono I pr em V _ J i Hi ltac:(lra))) as [F [E1 B]].
  destruct (fmt_mono I pr em V _ (1 + M) i Hi ltac:(lra)) as (_ & Hpe & HU). destruct (u_half (pr i) ltac:(lia)) as [U0 _]. pose proof (fmax_inv_u _ _ _ Hpe HU) as MX.
  pose proof (BD (fval (x i))) as B1. pose proof (BD (c i)) as B2. destruct (Ai (x i) F Di ltac:(lra)) as [F2 E2]. split; [exact F2|]. split; [|lra].
  replace (fval (g i (x i)) - h (c i)) with ((fval (g i (x i)) - h (fval (x i))) + (h (fval (x i)) - h (c i))) by ring. eapply Rle_trans; [apply Rabs_triang|].
  pose proof (LP (fval (x i)) (c i)) as E3.
  assert (E * uround (pr i) * (1 + Rabs (h (fval (x i)))) <= E * uround (pr i) * (1 + M)) by (apply Rmult_le_compat_l; [nra|lra]).
  assert (0 <= K * uround (pr i)) by nra. assert (0 <= L * uround (pr i)) by nra. assert (0 <= (1 + M) * uround (pr i)) by nra. replace ((K + L + J + P) * uround (pr i)) with (K * uround (pr i) + L * uround (pr i) + J * uround (pr i) + ((1 + M) * uround (pr i) + E * uround (pr i) * (1 + M))) by (unfold P; ring). lra.
Qed.
End Varying.

(** Statements that hold in every format fine enough, with a constant of their own. *)
Definition evk {I} (pr em : I -> Z) (V : I -> Prop) (P : R -> I -> Prop) : Prop := exists K, 1 <= K /\ forall i, fmt_ok I pr em V K i -> P K i.
Definition kmono {I} (pr : I -> Z) (P : R -> I -> Prop) : Prop := forall K K' i, 0 < uround (pr i) -> 1 <= K -> K <= K' -> P K i -> P K' i.
Lemma evk_split {I} pr em (V : I -> Prop) (b : I -> bool) (P : R -> I -> Prop) : kmono pr P ->
  evk pr em (fun i => V i /\ b i = true) P -> evk pr em (fun i => V i /\ b i = false) P -> evk pr em V P.
Proof.
  intros M [K [HK H]] [L [HL G]]. exists (K + L). split; [lra|]. intros i Hi.
  destruct (fmt_mono I pr em V _ K i Hi ltac:(lra)) as (Vi & Hpe & Q1). destruct (fmt_mono I pr em V _ L i Hi ltac:(lra)) as (_ & _ & Q2). destruct (u_half (pr i) ltac:(lia)) as [U0 _].
  destruct (b i) eqn:Eb.
  - apply (M K); [exact U0|lra|lra|]. apply H. repeat split; (assumption || lia).
  - apply (M L); [exact U0|lra|lra|]. apply G. repeat split; (assumption || lia).
Qed.
Lemma napp_shrink {I} pr em (V W : I -> Prop) c f : (forall i, W i -> V i) -> napp I pr em V c f -> napp I pr em W c f.
Proof. intros S [K [HK H]]. exists K. split; [exact HK|]. intros i (Wi & A & B). apply H. split; [apply S; exact Wi|]. split; assumption. Qed.
Lemma ev_shrink {I} pr em (V W : I -> Prop) P : (forall i, W i -> V i) -> ev I pr em V P -> ev I pr em W P.
Proof. intros S [K [HK H]]. exists K. split; [exact HK|]. intros i (Wi & A & B). apply H. split; [apply S; exact Wi|]. split; assumption. Qed.
Lemma ev_fin {I} pr em (V : I -> Prop) c f : napp I pr em V c f -> ev I pr em V (fun i => finite (pr i) (em i) (f i) /\ Rabs (fval (f i)) <= Rabs c + 1).
Proof.
  intros [K [HK H]]. exists K. split; [exact HK|]. intros i Hi. destruct (H i Hi) as [F E]. destruct Hi as (_ & _ & HU). split; [exact F|].
  replace (fval (f i)) with ((fval (f i) - c) + c) by ring. eapply Rle_trans; [apply Rabs_triang|]. lra.
Qed.
Lemma ev_away {I} pr em (V : I -> Prop) c f : c <> 0 -> napp I pr em V c f -> ev I pr em V (fun i => Rabs c / 2 <= Rabs (fval (f i))).
Proof.
  intros N [K [HK H]]. pose proof (Rabs_pos_lt c N) as C0. assert (J : 0 <= 2 * K / Rabs c) by (apply Rmult_le_pos; [lra|left; apply Rinv_0_lt_compat; exact C0]).
  exists (K + 2 * K / Rabs c). split; [lra|]. intros i Hi. destruct (H i (fmt_mono I pr em V _ K i Hi ltac:(lra))) as [F E].
  destruct (fmt_mono I pr em V _ (2 * K / Rabs c) i Hi ltac:(lra)) as (_ & _ & HU).
  assert (Q : K * uround (pr i) <= Rabs c / 2).
  { apply (Rmult_le_reg_r (2 / Rabs c)); [apply Rdiv_lt_0_compat; lra|]. replace (Rabs c / 2 * (2 / Rabs c)) with 1 by (field; lra). replace (K * uround (pr i) * (2 / Rabs c)) with (2 * K / Rabs c * uround (pr i)) by (field; lra). exact HU. }
  pose proof (Rabs_triang_inv c (fval (f i))) as T. rewrite <- Rabs_Ropp in E. replace (- (fval (f i) - c)) with (c - fval (f i)) in E by ring. lra.
Qed.

Lemma vapp_shrink {I} pr em (V W : I -> Prop) c f : (forall i, W i -> V i) -> vapp I pr em V c f -> vapp I pr em W c f.
Proof. intros S [K [HK H]]. exists K. split; [exact HK|]. intros i (Wi & A & B). apply H. split; [apply S; exact Wi|]. split; assumption. Qed.
Lemma PI_lt_4 : PI < 4.
Proof. pose proof (PI_ineq 1) as [_ Q]. unfold tg_alt, PI_tg in Q. cbn in Q. lra. Qed.

Section Root.
Variable I : Type.
Variables pr em : I -> Z.
Variable sz : I -> bool.
Variable E : R.
Hypothesis HE : 0 <= E.
Variable T : I -> Trans spec_float.
Notation NF i := (SFNum (pr i) (em i) (sz i)).
Ltac pq := unfold Prec_gt_0, Prec_lt_emax; lia.
Section One.
Variable V : I -> Prop.
Hypothesis HT : forall i, V i -> (1 < pr i < em i)%Z -> accurate_trans (pr i) (em i) E (T i).
Variables (c : C) (zf : I -> cplx spec_float).
Hypothesis Hc : c <> C0.
Hypothesis Nc : cnapp I pr em V c zf.
Let w (i : I) : cplx spec_float := @csqrt _ (NF i) (T i) (zf i).
Let x (i : I) : R := fval (cre (zf i)).
Let y (i : I) : R := fval (cim (zf i)).
Let r (i : I) : R := sqrt (x i * x i + y i * y i).
Definition is_root (K : R) (i : I) : Prop := cfinite (pr i) (em i) (w i) /\ exists s : C, (s * s = cval (zf i))%C /\ cwithin (K * uround (pr i)) (cval (w i)) s.

Lemma is_root_mono : kmono pr is_root.
Proof.
  intros K K' i U H1 H2 [F [s [S [W1 W2]]]]. split; [exact F|]. exists s. split; [exact S|].
  assert (K * uround (pr i) <= K' * uround (pr i)) by (apply Rmult_le_compat_r; lra). split; eapply Rle_trans; eassumption.
Qed.
Lemma ev_r : exists d M, 0 < d /\ ev I pr em V (fun i => finite (pr i) (em i) (cre (zf i)) /\ finite (pr i) (em i) (cim (zf i)) /\ d <= r i <= M).
Proof.
  destruct c as [a b] eqn:Ec. destruct Nc as [Na Nb]. cbn [fst snd] in Na, Nb.
  assert (UP : ev I pr em V (fun i => finite (pr i) (em i) (cre (zf i)) /\ finite (pr i) (em i) (cim (zf i)) /\ r i <= Rabs a + Rabs b + 2)).
  { eapply ev_impl; [|apply ev_and; [apply (ev_fin pr em V _ _ Na)|apply (ev_fin pr em V _ _ Nb)]]. cbn beta. intros i _ _ [[F1 B1] [F2 B2]]. split; [exact F1|]. split; [exact F2|].
    pose proof (cnorm_le_parts (x i, y i)) as Q. change (r i <= Rabs (x i) + Rabs (y i)) in Q. unfold x, y, cre, cim in *. lra. }
  assert (LE1 : forall i, Rabs (x i) <= r i).
  { intros i. unfold r. rewrite <- sqrt_Rsqr_abs. apply sqrt_le_1_alt. unfold Rsqr. nra. }
  assert (LE2 : forall i, Rabs (y i) <= r i).
  { intros i. unfold r. rewrite <- sqrt_Rsqr_abs. apply sqrt_le_1_alt. unfold Rsqr. nra. }
  destruct (Req_dec a 0) as [Za|Za].
  - assert (Zb : b <> 0) by (intros Zb; apply Hc; rewrite Za, Zb; reflexivity). exists (Rabs b / 2), (Rabs a + Rabs b + 2). split; [pose proof (Rabs_pos_lt b Zb); lra|].
    eapply ev_impl; [|apply ev_and; [exact UP|apply (ev_away pr em V _ _ Zb Nb)]]. cbn beta. intros i _ _ [[F1 [F2 B]] A]. specialize (LE2 i). unfold y, cim in LE2 |- *. split; [exact F1|]. split; [exact F2|]. lra.
  - exists (Rabs a / 2), (Rabs a + Rabs b + 2). split; [pose proof (Rabs_pos_lt a Za); lra|].
    eapply ev_impl; [|apply ev_and; [exact UP|apply (ev_away pr em V _ _ Za Na)]]. cbn beta. intros i _ _ [[F1 [F2 B]] A]. specialize (LE1 i). unfold x, cre in LE1 |- *. split; [exact F1|]. split; [exact F2|]. lra.
Qed.
(** From the two parts to the root. *)
Lemma finish (W : I -> Prop) c1 c2 f1 f2 : vapp I pr em W c1 f1 -> vapp I pr em W c2 f2 ->
  ev I pr em W (fun i => w i = (f1 i, f2 i) /\ ((c1 i, c2 i) * (c1 i, c2 i) = cval (zf i))%C) -> evk pr em W is_root.
Proof.
  intros [K1 [HK1 H1]] [K2 [HK2 H2]] [K3 [HK3 H3]]. exists (K1 + K2 + K3). split; [lra|]. intros i Hi.
  destruct (H1 i (fmt_mono I pr em W _ K1 i Hi ltac:(lra))) as [F1 [E1 _]]. destruct (H2 i (fmt_mono I pr em W _ K2 i Hi ltac:(lra))) as [F2 [E2 _]].
  destruct (H3 i (fmt_mono I pr em W _ K3 i Hi ltac:(lra))) as [Ew Es]. destruct Hi as (_ & Hpe & _). destruct (u_half (pr i) ltac:(lia)) as [U0 _].
  unfold is_root. rewrite Ew. split; [split; assumption|]. exists (c1 i, c2 i). split; [exact Es|].
  assert (0 <= K1 * uround (pr i)) by nra. assert (0 <= K2 * uround (pr i)) by nra. assert (0 <= K3 * uround (pr i)) by nra.
  split; cbn [fst snd cval cre cim]; rewrite !Rmult_plus_distr_r; lra.
Qed.
Let b0 (i : I) : bool := Reqb (y i) 0.
Let b1 (i : I) : bool := Reqb (x i) 0.
Let b2 (i : I) : bool := @tsignpos _ (T i) (cre (zf i)).
Let b3 (i : I) : bool := @tsignpos _ (T i) (cim (zf i)).
Lemma mul_parts a b u v : a * a - b * b = u -> a * b + b * a = v -> ((a, b) * (a, b) = (u, v))%C.
Proof. intros A B. apply C_ext; [exact A|exact B]. Qed.
Lemma eqb0 i f : (1 < pr i < em i)%Z -> finite (pr i) (em i) f -> @neqb _ (NF i) f (@nzero _ (NF i)) = Reqb (fval f) 0.
Proof. intros Hpe F. change (SFeqb f (S754_zero false) = Reqb (fval f) 0). rewrite (SFeqb_fval (pr i) (em i)); [reflexivity|exact Hpe|exact F|split; [reflexivity|exact Logic.I]]. Qed.
Lemma Nx : napp I pr em V (cre c) (fun i => cre (zf i)).
Proof. exact (proj1 Nc). Qed.
Lemma Ny : napp I pr em V (cim c) (fun i => cim (zf i)).
Proof. exact (proj2 Nc). Qed.

Lemma csqrt_root : evk pr em V is_root.
Proof.
  assert (MO : forall W : I -> Prop, (forall (b : I -> bool), evk pr em (fun i => W i /\ b i = true) is_root -> evk pr em (fun i => W i /\ b i = false) is_root -> evk pr em W is_root)).
  { intros W b. apply evk_split. exact is_root_mono. }
  destruct ev_r as [d [M [Hd ER]]].
  assert (XX : forall i, x i * x i + y i * y i = r i * r i) by (intros i; unfold r; symmetry; apply sqrt_sqrt; nra).
  apply (MO V b0).
  - apply (MO _ b2).
    + (* on the positive real axis *)
      set (W := fun i => (V i /\ b0 i = true) /\ b2 i = true). assert (S : forall i, W i -> V i) by (intros i [[A _] _]; exact A).
      apply (finish W (fun i => sqrt (x i)) (fun i => y i) (fun i => SFsqrt (pr i) (em i) (cre (zf i))) (fun i => cim (zf i))).
      * apply (vapp_sqrt I pr em W _ _ d Hd); [|apply (vapp_self I pr em W (cre c)); apply (napp_shrink pr em V W _ _ S); exact Nx].
        eapply ev_impl; [|apply (ev_shrink pr em V W _ S ER)]. cbn beta. intros i [[Vi B0] B2] Hpe [F1 [F2 [R1 R2]]].
        unfold b0 in B0. apply Reqb_true in B0. specialize (XX i). rewrite B0 in XX. assert (x i <> 0) by nra.
        unfold b2 in B2. rewrite (acc_sign _ _ _ _ (HT i Vi Hpe) _ F1 H) in B2. unfold Rleb in B2. destruct (Rle_dec 0 (fval (cre (zf i)))) as [P|P]; [|discriminate]. fold (x i) in P.
        assert (r i = x i) by (unfold r; rewrite B0, Rmult_0_l, Rplus_0_r; apply sqrt_square; exact P). lra.
      * apply (vapp_self I pr em W (cim c)). apply (napp_shrink pr em V W _ _ S). exact Ny.
      * eapply ev_impl; [|apply (ev_shrink pr em V W _ S ER)]. cbn beta. intros i [[Vi B0] B2] Hpe [F1 [F2 [R1 R2]]].
        unfold w, csqrt. rewrite (eqb0 i (cim (zf i)) Hpe F2). fold (y i). fold (b0 i). rewrite B0. fold (b2 i). rewrite B2. split; [reflexivity|].
        unfold b0 in B0. apply Reqb_true in B0. specialize (XX i). rewrite B0 in XX. assert (x i <> 0) by nra.
        unfold b2 in B2. rewrite (acc_sign _ _ _ _ (HT i Vi Hpe) _ F1 H) in B2. unfold Rleb in B2. destruct (Rle_dec 0 (fval (cre (zf i)))) as [P|P]; [|discriminate]. fold (x i) in P.
        unfold cval. fold (x i). fold (y i). rewrite B0. apply mul_parts; [rewrite sqrt_sqrt by exact P|]; ring.
    + (* on the negative real axis *)
      set (W := fun i => (V i /\ b0 i = true) /\ b2 i = false). assert (S : forall i, W i -> V i) by (intros i [[A _] _]; exact A).
      assert (NEG : forall i, W i -> (1 < pr i < em i)%Z -> finite (pr i) (em i) (cre (zf i)) -> d <= r i -> y i = 0 /\ d <= - x i).
      { intros i [[Vi B0] B2] Hpe F1 R1. unfold b0 in B0. apply Reqb_true in B0. split; [exact B0|]. specialize (XX i). rewrite B0 in XX. assert (x i <> 0) by nra.
        unfold b2 in B2. rewrite (acc_sign _ _ _ _ (HT i Vi Hpe) _ F1 H) in B2. unfold Rleb in B2. destruct (Rle_dec 0 (fval (cre (zf i)))) as [P|P]; [discriminate|]. fold (x i) in P.
        assert (r i = - x i) by (unfold r; rewrite B0, Rmult_0_l, Rplus_0_r; replace (x i * x i) with (- x i * - x i) by ring; apply sqrt_square; lra). lra. }
      assert (VS : vapp I pr em W (fun i => sqrt (- x i)) (fun i => SFsqrt (pr i) (em i) (SFopp (cre (zf i))))).
      { apply (vapp_sqrt I pr em W _ _ d Hd); [|apply (vapp_opp I pr em W x); apply (vapp_self I pr em W (cre c)); apply (napp_shrink pr em V W _ _ S); exact Nx].
        eapply ev_impl; [|apply (ev_shrink pr em V W _ S ER)]. cbn beta. intros i Wi Hpe [F1 [F2 [R1 R2]]]. apply NEG; assumption. }
      apply (MO W b3).
      * set (W' := fun i => W i /\ b3 i = true). assert (S' : forall i, W' i -> W i) by (intros i [A _]; exact A).
        apply (finish W' (fun _ => 0) (fun i => sqrt (- x i)) (fun _ => S754_zero false) (fun i => SFsqrt (pr i) (em i) (SFopp (cre (zf i))))).
        -- apply vapp_zero.
        -- exact (vapp_shrink pr em W W' _ _ S' VS).
        -- eapply ev_impl; [|apply (ev_shrink pr em V W' _ (fun i Hi => S i (S' i Hi)) ER)]. cbn beta. intros i [Wi B3] Hpe [F1 [F2 [R1 R2]]].
           destruct (NEG i Wi Hpe F1 R1) as [Y0 X0]. destruct Wi as [[Vi B0] B2].
           unfold w, csqrt. rewrite (eqb0 i (cim (zf i)) Hpe F2). fold (y i). fold (b0 i). rewrite B0. fold (b2 i). rewrite B2. fold (b3 i). rewrite B3. split; [reflexivity|].
           unfold cval. fold (x i). fold (y i). rewrite Y0. apply mul_parts; [rewrite sqrt_sqrt by lra|]; ring.
      * set (W' := fun i => W i /\ b3 i = false). assert (S' : forall i, W' i -> W i) by (intros i [A _]; exact A).
        apply (finish W' (fun _ => 0) (fun i => - sqrt (- x i)) (fun _ => S754_zero false) (fun i => SFopp (SFsqrt (pr i) (em i) (SFopp (cre (zf i)))))).
        -- apply vapp_zero.
        -- apply (vapp_opp I pr em W' (fun i => sqrt (- x i))). exact (vapp_shrink pr em W W' _ _ S' VS).
        -- eapply ev_impl; [|apply (ev_shrink pr em V W' _ (fun i Hi => S i (S' i Hi)) ER)]. cbn beta. intros i [Wi B3] Hpe [F1 [F2 [R1 R2]]].
           destruct (NEG i Wi Hpe F1 R1) as [Y0 X0]. destruct Wi as [[Vi B0] B2].
           unfold w, csqrt. rewrite (eqb0 i (cim (zf i)) Hpe F2). fold (y i). fold (b0 i). rewrite B0. fold (b2 i). rewrite B2. fold (b3 i). rewrite B3. split; [reflexivity|].
           unfold cval. fold (x i). fold (y i). rewrite Y0. apply mul_parts; [|ring]. pose proof (sqrt_sqrt (- x i) ltac:(lra)). lra.
  - apply (MO _ b1).
    + (* on the imaginary axis *)
      set (W := fun i => (V i /\ b0 i = false) /\ b1 i = true). assert (S : forall i, W i -> V i) by (intros i [[A _] _]; exact A).
      assert (VS : vapp I pr em W (fun i => sqrt (Rabs (y i) / 2)) (fun i => SFsqrt (pr i) (em i) (SFdiv (pr i) (em i) (SFabs (cim (zf i)))
         (SFadd (pr i) (em i) (SpecFloat.binary_normalize (pr i) (em i) 1 0 false) (SpecFloat.binary_normalize (pr i) (em i) 1 0 false))))).
      { apply (vapp_sqrt I pr em W _ _ (d / 2)); [lra| |apply (vapp_half I pr em W (fun i => Rabs (y i))); apply (vapp_abs I pr em W y); apply (vapp_self I pr em W (cim c)); apply (napp_shrink pr em V W _ _ S); exact Ny].
        eapply ev_impl; [|apply (ev_shrink pr em V W _ S ER)]. cbn beta. intros i [[Vi B0] B1] Hpe [F1 [F2 [R1 R2]]]. unfold b1 in B1. apply Reqb_true in B1.
        assert (r i = Rabs (y i)); [|lra]. unfold r. rewrite B1, Rmult_0_l, Rplus_0_l. apply sqrt_Rsqr_abs. }
      assert (SG : forall i, W i -> (1 < pr i < em i)%Z -> finite (pr i) (em i) (cim (zf i)) -> b3 i = Rleb 0 (y i)).
      { intros i [[Vi B0] B1] Hpe F2. unfold b0 in B0. apply Reqb_false in B0. exact (acc_sign _ _ _ _ (HT i Vi Hpe) _ F2 B0). }
      apply (MO W b3).
      * set (W' := fun i => W i /\ b3 i = true). assert (S' : forall i, W' i -> W i) by (intros i [A _]; exact A).
        eapply (finish W' (fun i => sqrt (Rabs (y i) / 2)) (fun i => sqrt (Rabs (y i) / 2))).
        -- exact (vapp_shrink pr em W W' _ _ S' VS).
        -- exact (vapp_shrink pr em W W' _ _ S' VS).
        -- eapply ev_impl; [|apply (ev_shrink pr em V W' _ (fun i Hi => S i (S' i Hi)) ER)]. cbn beta. intros i [Wi B3] Hpe [F1 [F2 [R1 R2]]].
           pose proof (SG i Wi Hpe F2) as G. rewrite B3 in G. unfold Rleb in G. destruct (Rle_dec 0 (y i)) as [P|P]; [|discriminate]. destruct Wi as [[Vi B0] B1].
           unfold w, csqrt. rewrite (eqb0 i (cim (zf i)) Hpe F2), (eqb0 i (cre (zf i)) Hpe F1). fold (y i). fold (b0 i). rewrite B0. fold (x i). fold (b1 i). rewrite B1. fold (b3 i). rewrite B3. split; [reflexivity|].
           unfold b1 in B1. apply Reqb_true in B1. unfold cval. fold (x i). fold (y i). rewrite B1. rewrite Rabs_right by lra. pose proof (sqrt_sqrt (y i / 2) ltac:(lra)). apply mul_parts; lra.
      * set (W' := fun i => W i /\ b3 i = false). assert (S' : forall i, W' i -> W i) by (intros i [A _]; exact A).
        eapply (finish W' (fun i => sqrt (Rabs (y i) / 2)) (fun i => - sqrt (Rabs (y i) / 2))).
        -- exact (vapp_shrink pr em W W' _ _ S' VS).
        -- apply (vapp_opp I pr em W' (fun i => sqrt (Rabs (y i) / 2))). exact (vapp_shrink pr em W W' _ _ S' VS).
        -- eapply ev_impl; [|apply (ev_shrink pr em V W' _ (fun i Hi => S i (S' i Hi)) ER)]. cbn beta. intros i [Wi B3] Hpe [F1 [F2 [R1 R2]]].
           pose proof (SG i Wi Hpe F2) as G. rewrite B3 in G. unfold Rleb in G. destruct (Rle_dec 0 (y i)) as [P|P]; [discriminate|]. destruct Wi as [[Vi B0] B1].
           unfold w, csqrt. rewrite (eqb0 i (cim (zf i)) Hpe F2), (eqb0 i (cre (zf i)) Hpe F1). fold (y i). fold (b0 i). rewrite B0. fold (x i). fold (b1 i). rewrite B1. fold (b3 i). rewrite B3. split; [reflexivity|].
           unfold b1 in B1. apply Reqb_true in B1. unfold cval. fold (x i). fold (y i). rewrite B1. rewrite Rabs_left by lra. pose proof (sqrt_sqrt (- y i / 2) ltac:(lra)). apply mul_parts; lra.
    + (* everywhere else *)
      set (W := fun i => (V i /\ b0 i = false) /\ b1 i = false). assert (S : forall i, W i -> V i) by (intros i [[A _] _]; exact A).
      pose proof (ev_shrink pr em V W _ S ER) as ERW. pose proof PI_RGT_0 as PI0. pose proof PI_4 as PI4.
      set (hy := fun i => @thypot _ (T i) (cre (zf i)) (cim (zf i))). set (an := fun i => @tatan2 _ (T i) (cim (zf i)) (cre (zf i))).
      assert (VH : vapp I pr em W r hy).
      { apply (vapp_acc I pr em W E (fun i => @thypot _ (T i) (cre (zf i))) (fun i v => sqrt (x i * x i + v * v)) anywhere M (fun i => cim (zf i)) HE).
        eapply ev_impl; [|exact ERW]. cbn beta. intros i Wi Hpe [F1 [F2 [R1 R2]]]. split; [apply (acc_hypot _ _ _ _ (HT i (S i Wi) Hpe)); exact F1|]. split; [exact F2|]. split; [exact Logic.I|].
        change (Rabs (r i) <= M). rewrite Rabs_right by lra. exact R2. }
      assert (VA : vapp I pr em W (fun i => Ratan2 (y i) (x i)) an).
      { apply (vapp_acc I pr em W E (fun i v => @tatan2 _ (T i) v (cre (zf i))) (fun i v => Ratan2 v (x i)) (fun v => v <> 0) PI (fun i => cim (zf i)) HE).
        eapply ev_impl; [|exact ERW]. cbn beta. intros i [[Vi B0] B1] Hpe [F1 [F2 [R1 R2]]]. unfold b0 in B0. unfold b1 in B1. apply Reqb_false in B0, B1.
        split; [apply (acc_atan2 _ _ _ _ (HT i Vi Hpe)); assumption|]. split; [exact F2|]. split; [exact B0|].
        destruct (atan2_polar (x i) (y i) (or_introl B1)) as [_ [_ [B _]]]. fold (y i). apply Rabs_le. lra. }
      pose proof (vapp_half I pr em W _ _ VA) as VT.
      pose proof (vapp_sqrt I pr em W r hy d Hd ltac:(eapply ev_impl; [|exact ERW]; cbn beta; intros i _ _ [_ [_ [R1 _]]]; exact R1) VH) as VR.
      set (th := fun i => SFdiv (pr i) (em i) (an i) (SFadd (pr i) (em i) (SpecFloat.binary_normalize (pr i) (em i) 1 0 false) (SpecFloat.binary_normalize (pr i) (em i) 1 0 false))) in VT.
      assert (DOM : ev I pr em W (fun i => Rabs (fval (th i)) <= 2)).
      { destruct VT as [K [HK H]]. destruct ERW as [L [HL G]]. set (e := 2 - PI / 2). assert (E0 : 0 < e) by (unfold e; pose proof PI_lt_4; lra).
        exists (K + L + K / e). assert (0 <= K / e) by (apply Rmult_le_pos; [lra|left; apply Rinv_0_lt_compat; exact E0]). split; [lra|]. intros i Hi.
        destruct (H i (fmt_mono I pr em W _ K i Hi ltac:(lra))) as [_ [B _]]. destruct (fmt_mono I pr em W _ (K / e) i Hi ltac:(lra)) as (Wi & _ & HU).
        assert (Q : K * uround (pr i) <= e) by (apply (Rmult_le_reg_r (/ e)); [apply Rinv_0_lt_compat; exact E0|]; rewrite Rinv_r by lra; replace (K * uround (pr i) * / e) with (K / e * uround (pr i)) by (unfold Rdiv; ring); exact HU).
        destruct Wi as [_ B1]. unfold b1 in B1. apply Reqb_false in B1. destruct (atan2_polar (x i) (y i) (or_introl B1)) as [_ [_ [BB _]]].
        apply Raux.Rabs_le_inv in B. apply Rabs_le. unfold e in Q. lra. }
      eapply (finish W (fun i => sqrt (r i) * cos (Ratan2 (y i) (x i) / 2)) (fun i => sqrt (r i) * sin (Ratan2 (y i) (x i) / 2)) (fun i => SFmul (pr i) (em i) (SFsqrt (pr i) (em i) (hy i)) (@tcos _ (T i) (th i))) (fun i => SFmul (pr i) (em i) (SFsqrt (pr i) (em i) (hy i)) (@tsin _ (T i) (th i)))).
      * apply (vapp_mul I pr em W _ (fun i => cos (Ratan2 (y i) (x i) / 2)) _ _ VR).
        apply (vapp_lip I pr em W E (fun i => @tcos _ (T i)) cos (fun v => Rabs v <= 2) 1 (fun i => Ratan2 (y i) (x i) / 2) th HE Rle_0_1); [|apply cos_lip| |exact DOM|exact VT].
        -- apply ev_all. intros i Wi Hpe. apply (acc_cos _ _ _ _ (HT i (S i Wi) Hpe)).
        -- intros a. apply Rabs_le, COS_bound.
      * apply (vapp_mul I pr em W _ (fun i => sin (Ratan2 (y i) (x i) / 2)) _ _ VR).
        apply (vapp_lip I pr em W E (fun i => @tsin _ (T i)) sin (fun v => Rabs v <= 2) 1 (fun i => Ratan2 (y i) (x i) / 2) th HE Rle_0_1); [|apply sin_lip| |exact DOM|exact VT].
        -- apply ev_all. intros i Wi Hpe. apply (acc_sin _ _ _ _ (HT i (S i Wi) Hpe)).
        -- intros a. apply Rabs_le, SIN_bound.
      * eapply ev_impl; [|exact ERW]. cbn beta. intros i [[Vi B0] B1] Hpe [F1 [F2 [R1 R2]]].
        unfold w, csqrt. rewrite (eqb0 i (cim (zf i)) Hpe F2), (eqb0 i (cre (zf i)) Hpe F1). fold (y i). fold (b0 i). rewrite B0. fold (x i). fold (b1 i). rewrite B1. split; [reflexivity|].
        unfold b1 in B1. apply Reqb_false in B1. destruct (atan2_polar (x i) (y i) (or_introl B1)) as [CX [SX _]]. fold (r i) in CX, SX. set (t := Ratan2 (y i) (x i)) in *.
        unfold cval. fold (x i). fold (y i). pose proof (sqrt_sqrt (r i) ltac:(lra)) as SR. rewrite <- CX, <- SX.
        replace (cos t) with (cos (2 * (t / 2))) by (f_equal; field). replace (sin t) with (sin (2 * (t / 2))) by (f_equal; field). rewrite cos_2a, sin_2a.
        apply mul_parts; [transitivity (sqrt (r i) * sqrt (r i) * (cos (t / 2) * cos (t / 2) - sin (t / 2) * sin (t / 2)))|transitivity (sqrt (r i) * sqrt (r i) * (2 * sin (t / 2) * cos (t / 2)))]; try ring; rewrite SR; reflexivity.
Qed.
End One.
End Root.
