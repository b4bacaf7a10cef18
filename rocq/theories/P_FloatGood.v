(** Floats that tend to a list closed under conjugation are told apart into reals and
    conjugate pairs as their limits are. *)
From Coq Require Import Reals ZArith SpecFloat List Lia Lra Bool Permutation Sorted.
From Flocq Require Import Core BinarySingleNaN.
From Verif Require Import Base Num Trans M_Complex M_Fourier M_Filter M_Design Cx S_Design S_Filter S_Float S_FloatFft S_FloatZpk S_FloatTrans S_FloatSos
  P_Poly P_Lp P_Proto P_Iir P_Zi P_Bessel P_Sqrt P_Float P_FloatStats P_FloatMed P_FloatI0 P_FloatZi P_FloatPoly T_FloatPoly P_FloatDesign P_FloatResponse P_FloatSqrt P_Sos P_FloatSym P_FloatMate P_SosGen P_FloatCplx.
Import ListNotations.
Local Open Scope R_scope.

Definition same_sign (a b : R) : Prop := (0 < a <-> 0 < b) /\ (a < 0 <-> b < 0).
Lemma same_sign_zero a b : same_sign a b -> (a = 0 <-> b = 0).
Proof. intros [H1 H2]. destruct (Rtotal_order a 0) as [Q|[Q|Q]], (Rtotal_order b 0) as [W|[W|W]]; try (split; intros; lra); exfalso; try (apply H1 in Q; lra); try (apply H2 in Q; lra); try (apply H1 in W; lra); try (apply H2 in W; lra). Qed.
Lemma root_part_bound (a b X Y : R) : a * a - b * b = X -> a * b + b * a = Y -> Rabs a <= Rabs X + Rabs Y + 1.
Proof.
  intros H1 H2. pose proof (Rabs_pos X) as PX. pose proof (Rabs_pos Y) as PY.
  assert (Q : a * a + b * b <= Rabs X + Rabs Y).
  { apply Rsqr_incr_0; [|nra|lra]. unfold Rsqr. assert (SX : Rabs X * Rabs X = X * X) by (rewrite <- Rabs_mult; apply Rabs_right; nra). assert (SY : Rabs Y * Rabs Y = Y * Y) by (rewrite <- Rabs_mult; apply Rabs_right; nra).
    replace ((a * a + b * b) * (a * a + b * b)) with (X * X + Y * Y) by (subst X Y; ring).
    assert (0 <= Rabs X * Rabs Y) by (apply Rmult_le_pos; assumption). lra. }
  assert (0 <= b * b) by nra. assert (A : Rabs a * Rabs a <= Rabs X + Rabs Y) by (rewrite <- Rabs_mult; rewrite Rabs_right; nra).
  pose proof (Rabs_pos a). destruct (Rle_dec (Rabs a) 1); [lra|]. nra.
Qed.

Section One.
Variables prec emax : Z.
Hypothesis Hpe : (1 < prec < emax)%Z.
Local Instance Hpc : Prec_gt_0 prec.
Proof. unfold Prec_gt_0. lia. Qed.
Local Instance Hec : Prec_lt_emax prec emax.
Proof. unfold Prec_lt_emax. lia. Qed.
Notation fin := (finite prec emax).
Notation rnd := (round radix2 (FLT_exp (SpecFloat.emin prec emax) prec) ZnearestE).
Lemma rnd_nn x : 0 <= x -> 0 <= rnd x.
Proof. intros H. apply round_ge_generic; [apply FLT_exp_valid; exact Hpc|apply valid_rnd_N|apply generic_format_0|exact H]. Qed.
Lemma fmul_nn x y : fin x -> fin y -> 0 <= fval x * fval y -> fin (SFmul prec emax x y) -> 0 <= fval (SFmul prec emax x y).
Proof. intros Fx Fy P F. destruct (fmul_char prec emax _ _ x y Fx Fy) as [_ B]. rewrite (B F). apply rnd_nn. exact P. Qed.
Lemma fadd_nn x y : fin x -> fin y -> 0 <= fval x + fval y -> fin (SFadd prec emax x y) -> 0 <= fval (SFadd prec emax x y).
Proof. intros Fx Fy P F. destruct (fadd_char prec emax _ _ x y Fx Fy) as [_ B]. rewrite (B F). apply rnd_nn. exact P. Qed.
Lemma fsub_nn x y : fin x -> fin y -> 0 <= fval x - fval y -> fin (SFsub prec emax x y) -> 0 <= fval (SFsub prec emax x y).
Proof. intros Fx Fy P F. destruct (fsub_char prec emax _ _ x y Fx Fy) as [_ B]. rewrite (B F). apply rnd_nn. exact P. Qed.
Lemma fsqrt_nn x : fin x -> 0 <= fval x -> 0 <= fval (SFsqrt prec emax x).
Proof. intros Fx P. destruct (fsqrt_ok prec emax _ _ x Fx P) as [_ ->]. apply rnd_nn. apply sqrt_pos. Qed.
Lemma machine_eps_ok : fin (machine_eps prec) /\ fval (machine_eps prec) = 2 * uround prec.
Proof.
  assert (HP : Zpos (Z.to_pos (2 ^ (prec - 1))) = (2 ^ (prec - 1))%Z) by (apply Z2Pos.id; apply Z.pow_pos_nonneg; lia).
  assert (V : fval (machine_eps prec) = 2 * uround prec).
  { cbn [fval machine_eps]. rewrite HP. unfold uround. change (2 ^ (prec - 1))%Z with (Zpower radix2 (prec - 1)). rewrite (IZR_Zpower radix2) by lia. rewrite bpow_powerRZ. change (IZR radix2) with 2. rewrite Rmult_1_l. rewrite <- powerRZ_add by lra. replace (prec - 1 + (2 - 2 * prec))%Z with (1 + - prec)%Z by lia. rewrite powerRZ_add by lra. rewrite powerRZ_1. reflexivity. }
  split; [|exact V]. split; [|exact Logic.I]. cbn [machine_eps valid_binary]. unfold bounded. apply andb_true_intro. split; [|apply Z.leb_le; lia].
  unfold canonical_mantissa, fexp, SpecFloat.emin. apply Zeq_is_eq_bool.
  assert (D : Zpos (digits2_pos (Z.to_pos (2 ^ (prec - 1)))) = prec).
  { rewrite Zpos_digits2_pos, HP. apply Zdigits_unique. rewrite Z.abs_eq by (apply Z.pow_nonneg; lia). change (Zpower radix2 (prec - 1)) with (2 ^ (prec - 1))%Z. change (Zpower radix2 prec) with (2 ^ prec)%Z. split; [lia|]. apply Z.pow_lt_mono_r; lia. }
  rewrite D. lia.
Qed.
End One.

Section Fam.
Variable I : Type.
Variables pr em : I -> Z.
Variable V : I -> Prop.
Variable sz : I -> bool.
Notation napp := (napp I pr em V).
Notation cnapp := (cnapp I pr em V).
Notation NF i := (SFNum (pr i) (em i) (sz i)).
Notation fmt_ok := (fmt_ok I pr em V).
Notation ev := (ev I pr em V).
Notation cm := (cm I pr em V).
Ltac pq := unfold Prec_gt_0, Prec_lt_emax; lia.
Definition bnd (f : I -> spec_float) : Prop := exists M, 0 <= M /\ ev (fun i => finite (pr i) (em i) (f i) /\ Rabs (fval (f i)) <= M).
Lemma napp_bnd c f : napp c f -> bnd f.
Proof. intros H. exists (Rabs c + 1). split; [pose proof (Rabs_pos c); lra|]. exact (ev_fin pr em V c f H). Qed.
Lemma napp0_mul t g : napp 0 t -> bnd g -> napp 0 (fun i => SFmul (pr i) (em i) (t i) (g i)).
Proof.
  intros [K [HK H]] [M [HM [L [HL G]]]]. assert (KM : 0 <= K * M) by (apply Rmult_le_pos; lra). apply (napp_op I pr em V 0 _ (fun i => fval (t i) * fval (g i)) (K + L + K * M)); [lra|]. intros i Hi.
  destruct (H i (fmt_mono I pr em V _ K i Hi ltac:(lra))) as [F1 E1]. destruct (G i (fmt_mono I pr em V _ L i Hi ltac:(lra))) as [F2 E2]. destruct Hi as (_ & Hpe & _). destruct (u_half (pr i) (proj1 Hpe)) as [U0 _].
  rewrite Rminus_0_r in *. split.
  - rewrite Rabs_mult. apply Rle_trans with (K * uround (pr i) * M); [apply Rmult_le_compat; try apply Rabs_pos; assumption|].
    replace (K * uround (pr i) * M) with (K * M * uround (pr i)) by ring. apply Rmult_le_compat_r; lra.
  - intros B. apply fmul_ok; assumption || pq.
Qed.
Lemma napp0_small g d : 0 < d -> napp 0 g -> ev (fun i => finite (pr i) (em i) (g i) /\ Rabs (fval (g i)) < d).
Proof.
  intros Hd [K [HK H]]. assert (0 < K / d) by (apply Rdiv_lt_0_compat; lra). exists (K + 2 * (K / d)). split; [lra|]. intros i Hi. destruct (H i (fmt_mono I pr em V _ K i Hi ltac:(lra))) as [F E]. split; [exact F|].
  destruct Hi as (_ & Hpe & HU). destruct (u_half (pr i) (proj1 Hpe)) as [U0 _]. rewrite Rminus_0_r in E. eapply Rle_lt_trans; [exact E|].
  assert (2 * (K / d) * uround (pr i) <= 1). { eapply Rle_trans; [|exact HU]. apply Rmult_le_compat_r; lra. }
  assert (K * uround (pr i) = d * (K / d * uround (pr i))) by (field; lra). nra.
Qed.
Lemma bnd_sqrt f : bnd f -> ev (fun i => 0 <= fval (f i)) -> bnd (fun i => SFsqrt (pr i) (em i) (f i)).
Proof.
  intros [M [HM H]] P. exists (2 * (M + 1) + 1). split; [lra|]. eapply ev_impl; [|exact (ev_and _ _ _ _ _ _ H P)]. cbn beta. intros i _ Hpe [[F B] P0].
  destruct (fsqrt_ok (pr i) (em i) ltac:(pq) ltac:(pq) (f i) F P0) as [F' E]. split; [exact F'|]. rewrite E.
  pose proof (rnd_err (pr i) (em i) ltac:(pq) (sqrt (fval (f i)))) as Q. match type of Q with Rabs (?w - _) <= _ => set (W := w) in * end.
  destruct (u_half (pr i) (proj1 Hpe)) as [U0 U1]. pose proof (tiny_le_u _ _ Hpe) as T. pose proof (sqrt_pos (fval (f i))) as S0. pose proof (sqrt_sqrt _ P0) as S1.
  rewrite (Rabs_right (fval (f i))) in B by lra. set (s := sqrt (fval (f i))) in *.
  assert (S2 : s <= M + 1) by (destruct (Rle_dec s 1); [lra|nra]). rewrite (Rabs_right s) in Q by lra.
  assert (uround (pr i) * s <= 1 * s) by (apply Rmult_le_compat_r; lra).
  replace W with ((W - s) + s) by ring. eapply Rle_trans; [apply Rabs_triang|]. rewrite (Rabs_right s) by lra. lra.
Qed.
Lemma ev_sign c f : c <> 0 -> napp c f -> ev (fun i => same_sign (fval (f i)) c).
Proof.
  intros N A. destruct (Rlt_dec c 0) as [L|L].
  - eapply ev_impl; [|exact (napp_lt I pr em V c 0 f _ L A (napp_zero I pr em V false))]. cbn beta. intros i _ _ (_ & _ & Q). cbn in Q. unfold same_sign. lra.
  - eapply ev_impl; [|exact (napp_lt I pr em V 0 c _ f ltac:(lra) (napp_zero I pr em V false) A)]. cbn beta. intros i _ _ (_ & _ & Q). cbn in Q. unfold same_sign. lra.
Qed.

Variable E : R.
Hypothesis HE : 0 <= E.
Variable T : I -> Trans spec_float.
Hypothesis HT : forall i, V i -> (1 < pr i < em i)%Z -> accurate_trans (pr i) (em i) E (T i).
Hypothesis HS : forall i, V i -> (1 < pr i < em i)%Z -> symmetric_trans (pr i) (em i) (T i).
Variable tol : I -> spec_float.
Hypothesis Ht : napp 0 tol.
Hypothesis Pt : ev (fun i => 0 <= fval (tol i)).

Lemma bnd_hypot f g : bnd f -> bnd g -> bnd (fun i => @thypot _ (T i) (f i) (g i)).
Proof.
  intros [M [HM H]] [N [HN G]].
  assert (Q : vapp I pr em V (fun i => sqrt (fval (f i) * fval (f i) + fval (g i) * fval (g i))) (fun i => @thypot _ (T i) (f i) (g i)) /\
     ev (fun i => Rabs (sqrt (fval (f i) * fval (f i) + fval (g i) * fval (g i))) <= M + N)).
  { assert (B : ev (fun i => Rabs (sqrt (fval (f i) * fval (f i) + fval (g i) * fval (g i))) <= M + N)).
    { eapply ev_impl; [|exact (ev_and _ _ _ _ _ _ H G)]. cbn beta. intros i _ _ [[_ B1] [_ B2]]. pose proof (Rabs_pos (fval (f i))) as P1. pose proof (Rabs_pos (fval (g i))) as P2.
      rewrite Rabs_right by (apply Rle_ge, sqrt_pos). rewrite <- (sqrt_square (M + N)) by lra. apply sqrt_le_1_alt.
      replace (fval (f i) * fval (f i)) with (Rabs (fval (f i)) * Rabs (fval (f i))) by (symmetry; apply (Rsqr_abs (fval (f i)))).
      replace (fval (g i) * fval (g i)) with (Rabs (fval (g i)) * Rabs (fval (g i))) by (symmetry; apply (Rsqr_abs (fval (g i)))). nra. }
    split; [|exact B].
    apply (vapp_acc I pr em V E (fun i => @thypot _ (T i) (f i)) (fun i v => sqrt (fval (f i) * fval (f i) + v * v)) anywhere (M + N) g HE).
    eapply ev_impl; [|exact (ev_and _ _ _ _ _ _ (ev_and _ _ _ _ _ _ H G) B)]. cbn beta. intros i Vi Hpe [[[F1 _] [F2 _]] B1].
    split; [apply (acc_hypot _ _ _ _ (HT i Vi Hpe)); exact F1|]. split; [exact F2|]. split; [exact Logic.I|exact B1]. }
  destruct Q as [[K [HK A]] [L [HL B]]]. exists (M + N + 1). split; [lra|]. exists (K + L). split; [lra|]. intros i Hi.
  destruct (A i (fmt_mono I pr em V _ K i Hi ltac:(lra))) as [F [D _]]. pose proof (B i (fmt_mono I pr em V _ L i Hi ltac:(lra))) as B1. split; [exact F|].
  destruct Hi as (_ & Hpe & HU). destruct (u_half (pr i) (proj1 Hpe)) as [U0 _].
  assert (K * uround (pr i) <= 1) by (eapply Rle_trans; [|exact HU]; apply Rmult_le_compat_r; lra).
  set (s := sqrt (fval (f i) * fval (f i) + fval (g i) * fval (g i))) in *.
  match type of D with Rabs (?w - _) <= _ => replace w with ((w - s) + s) by ring end. eapply Rle_trans; [apply Rabs_triang|]. lra.
Qed.
(** The parts of [good] that hold of any root. *)
Lemma ev_base c f : cnapp c f -> ev (fun i => cfinite (pr i) (em i) (f i) /\ finite (pr i) (em i) (SFadd (pr i) (em i) (cre (f i)) (cre (f i))) /\ finite (pr i) (em i) (SFadd (pr i) (em i) (cim (f i)) (cim (f i))) /\
  finite (pr i) (em i) (SFmul (pr i) (em i) (tol i) (@cnorm _ (T i) (f i))) /\ 0 <= fval (SFmul (pr i) (em i) (tol i) (@cnorm _ (T i) (f i)))).
Proof.
  intros Nf. destruct (Nf) as [Nr Ni]. pose proof (napp_add _ _ _ _ _ _ _ _ Nr Nr) as N1. pose proof (napp_add _ _ _ _ _ _ _ _ Ni Ni) as N2.
  pose proof (bnd_hypot _ _ (napp_bnd _ _ Nr) (napp_bnd _ _ Ni)) as B6. pose proof (napp0_mul _ _ Ht B6) as N7. destruct B6 as [M [_ B6]].
  eapply ev_impl; [|exact (ev_and _ _ _ _ _ _ (ev_and _ _ _ _ _ _ (ev_and _ _ _ _ _ _ (napp_ev _ _ _ _ _ _ Nr) (napp_ev _ _ _ _ _ _ Ni)) (ev_and _ _ _ _ _ _ (napp_ev _ _ _ _ _ _ N1) (napp_ev _ _ _ _ _ _ N2)))
     (ev_and _ _ _ _ _ _ (ev_and _ _ _ _ _ _ (napp_ev _ _ _ _ _ _ N7) (ev_and _ _ _ _ _ _ B6 Pt)) (napp_ev _ _ _ _ _ _ Ht)))].
  cbn beta. intros i Vi Hpe [[[F1 F2] [F3 F4]] [[F7 [[F6 _] P]] Ft]]. split; [split; assumption|]. split; [exact F3|]. split; [exact F4|]. split; [exact F7|].
  apply fmul_nn; try assumption. apply Rmult_le_pos; [exact P|]. apply (sym_length _ _ _ (HS i Vi Hpe)); assumption.
Qed.
Definition fgood (i : I) (z : cplx spec_float) : Prop := good (pr i) (em i) (sz i) (T i) (tol i) z.
Lemma good_nonreal c f : cim c <> 0 -> cnapp c f -> ev (fun i => fgood i (f i) /\ same_sign (fval (cim (f i))) (cim c)).
Proof.
  intros Nc Nf. destruct (Nf) as [Nr Ni]. pose proof (cnapp_mul I pr em V sz _ _ _ _ Nf Nf) as N2.
  assert (C2 : cmul c c <> C0).
  { intros Q. apply Nc. change (cim c) with (snd c) in *. destruct c as [a b]. cbn in *. injection Q as Q1 Q2. destruct (Rmult_integral a b) as [Z|Z]; [lra| |exact Z]. subst a. nra. }
  destruct (csqrt_root I pr em sz E HE T V HT _ _ C2 N2) as [K [HK HR]].
  assert (BW : bnd (fun i => cre (@csqrt _ (NF i) (T i) (@cmul _ (NF i) (f i) (f i))))).
  { destruct N2 as [N2r N2i]. exists ((Rabs (fst (cmul c c)) + 1) + (Rabs (snd (cmul c c)) + 1) + 1 + 1). pose proof (Rabs_pos (fst (cmul c c))). pose proof (Rabs_pos (snd (cmul c c))). split; [lra|].
    assert (ER : ev (is_root I pr em sz T (fun i => @cmul _ (NF i) (f i) (f i)) K)) by (exists K; split; [exact HK|exact HR]).
    assert (EU : ev (fun i => K * uround (pr i) <= 1)) by (exists K; split; [exact HK|intros i Hi; apply Hi]).
    eapply ev_impl; [|exact (ev_and _ _ _ _ _ _ (ev_and _ _ _ _ _ _ ER EU) (ev_and _ _ _ _ _ _ (ev_fin pr em V _ _ N2r) (ev_fin pr em V _ _ N2i)))].
    cbn beta. intros i _ Hpe [[[[F1 _] [s [Es [W _]]]] U] [[_ B1] [_ B2]]]. split; [exact F1|].
    assert (X1 : fst s * fst s - snd s * snd s = fval (fst (@cmul _ (NF i) (f i) (f i)))) by exact (f_equal fst Es).
    assert (X2 : fst s * snd s + snd s * fst s = fval (snd (@cmul _ (NF i) (f i) (f i)))) by exact (f_equal snd Es).
    pose proof (root_part_bound _ _ _ _ X1 X2) as B. unfold cval in W. cbn [fst] in W.
    match type of W with Rabs (?w - _) <= _ => set (v := w) in * end. change (Rabs v <= Rabs (fst (cmul c c)) + 1 + (Rabs (snd (cmul c c)) + 1) + 1 + 1).
    replace v with ((v - fst s) + fst s) by ring. eapply Rle_trans; [apply Rabs_triang|]. lra. }
  pose proof (napp0_mul _ _ Ht BW) as N3. assert (Hd : 0 < Rabs (cim c) / 2) by (pose proof (Rabs_pos_lt _ Nc); lra).
  eapply ev_impl; [|exact (ev_and _ _ _ _ _ _ (ev_and _ _ _ _ _ _ (ev_base c f Nf) (napp0_small _ _ Hd N3)) (ev_and _ _ _ _ _ _ (ev_away pr em V _ _ Nc Ni) (ev_sign _ _ Nc Ni)))].
  cbn beta. intros i _ Hpe [[[F1 [F2 [F3 [F4 F5]]]] [F6 S]] [A Sg]]. split; [|exact Sg]. split; [exact F1|]. split; [|exact (conj F2 (conj F3 (conj F4 F5)))].
  rewrite gisr_val by (exact Hpe || exact F1). destruct F1 as [F1 F1']. unfold near_real. cbn [nabs nleb nmul SFNum]. destruct (fabs_val (pr i) (em i) _ F1') as [G1 G2]. rewrite (le_val (pr i) (em i)) by assumption. rewrite G2.
  transitivity false.
  - unfold Rleb. destruct (Rle_dec _ _) as [Q|Q]; [|reflexivity]. exfalso. apply Rabs_def2 in S. destruct S as [S _]. unfold cim in *. cbn beta in A. lra.
  - symmetry. apply isr_false. change (fval (cim (f i)) <> 0). intros Z. unfold cim in *. rewrite Z, Rabs_R0 in A. lra.
Qed.
Lemma good_real c f : cim c = 0 -> cm c f f -> ev (fun i => fgood i (f i) /\ same_sign (fval (cim (f i))) (cim c)).
Proof.
  intros Zc Mf. pose proof (cm_cnapp _ _ _ _ _ _ _ Mf) as Nf. destruct (Nf) as [Nr Ni]. pose proof (cm_mul I pr em V sz _ _ _ _ _ _ Mf Mf) as M2. pose proof (cm_cnapp _ _ _ _ _ _ _ M2) as [N2r N2i].
  pose proof (napp_mul _ _ _ _ _ _ _ _ Nr Nr) as N3. pose proof (napp_mul _ _ _ _ _ _ _ _ Ni Ni) as N4.
  assert (P2 : ev (fun i => 0 <= fval (fst (@cmul _ (NF i) (f i) (f i))))).
  { eapply ev_impl; [|exact (ev_and _ _ _ _ _ _ (ev_and _ _ _ _ _ _ (cm_value _ _ _ _ _ _ _ Mf) (napp_ev _ _ _ _ _ _ N2r)) (ev_and _ _ _ _ _ _ (napp_ev _ _ _ _ _ _ N3) (napp_ev _ _ _ _ _ _ N4)))].
    cbn beta. intros i _ Hpe [[[[F1 F2] [_ Q]] F5] [F3 F4]]. assert (Q2 : fval (snd (f i)) = - fval (snd (f i))) by exact (f_equal snd Q). assert (Z : fval (snd (f i)) = 0) by lra.
    apply (fsub_nn (pr i) (em i) Hpe (SFmul (pr i) (em i) (fst (f i)) (fst (f i))) (SFmul (pr i) (em i) (snd (f i)) (snd (f i)))); try assumption.
    destruct (fmul_zero (pr i) (em i) Hpe (snd (f i)) F2 Z) as [_ ->]. rewrite Rminus_0_r. apply (fmul_nn (pr i) (em i) Hpe); try assumption. apply Rle_0_sqr. }
  pose proof (bnd_sqrt _ (napp_bnd _ _ N2r) P2) as [M [HM B]].
  assert (BW : bnd (fun i => cre (@csqrt _ (NF i) (T i) (@cmul _ (NF i) (f i) (f i)))) /\ ev (fun i => 0 <= fval (cre (@csqrt _ (NF i) (T i) (@cmul _ (NF i) (f i) (f i)))))).
  { assert (Q : ev (fun i => (finite (pr i) (em i) (cre (@csqrt _ (NF i) (T i) (@cmul _ (NF i) (f i) (f i)))) /\ Rabs (fval (cre (@csqrt _ (NF i) (T i) (@cmul _ (NF i) (f i) (f i))))) <= M) /\
        0 <= fval (cre (@csqrt _ (NF i) (T i) (@cmul _ (NF i) (f i) (f i)))))).
    2:{ split; [exists M; split; [exact HM|]|]; (eapply ev_impl; [|exact Q]); cbn beta; tauto. }
    eapply ev_impl; [|exact (ev_and _ _ _ _ _ _ (ev_and _ _ _ _ _ _ (cm_value _ _ _ _ _ _ _ M2) P2) B)]. cbn beta. intros i _ Hpe [[[[F1 F2] [_ Q]] P] [F3 B3]].
    set (w := @cmul _ (NF i) (f i) (f i)) in *. assert (Q2 : fval (snd w) = - fval (snd w)) by exact (f_equal snd Q). assert (Z : fval (snd w) = 0) by lra.
    unfold csqrt. rewrite (eqb0 I pr em sz i (cim w) Hpe F2). replace (Reqb (fval (cim w)) 0) with true by (symmetry; apply Reqb_true; exact Z).
    destruct (@tsignpos _ (T i) (cre w)); cbn [cre fst].
    - split; [split; [exact F3|exact B3]|]. apply (fsqrt_nn (pr i) (em i) Hpe); assumption.
    - cbn. rewrite Rabs_R0. split; [split; [exact (zero_fin (pr i) (em i))|exact HM]|lra]. }
  destruct BW as [BW PW]. pose proof (napp0_mul _ _ Ht BW) as N5. destruct BW as [M' [_ BW]].
  eapply ev_impl; [|exact (ev_and _ _ _ _ _ _ (ev_and _ _ _ _ _ _ (ev_base c f Nf) (cm_value _ _ _ _ _ _ _ Mf)) (ev_and _ _ _ _ _ _ (ev_and _ _ _ _ _ _ PW (napp_ev _ _ _ _ _ _ N5)) (ev_and _ _ _ _ _ _ BW (ev_and _ _ _ _ _ _ Pt (napp_ev _ _ _ _ _ _ Ht)))))].
  cbn beta. intros i _ Hpe [[[F1 [F2 [F3 [F4 F5]]]] [_ [_ Q]]] [[P F6] [[F7 _] [P0 Ft]]]].
  assert (Q2 : fval (snd (f i)) = - fval (snd (f i))) by exact (f_equal snd Q). assert (Z : fval (cim (f i)) = 0) by (unfold cim; lra).
  split; [|rewrite Z, Zc; unfold same_sign; lra]. split; [exact F1|]. split; [|exact (conj F2 (conj F3 (conj F4 F5)))].
  rewrite gisr_val by (exact Hpe || exact F1). destruct F1 as [F1 F1']. unfold near_real. cbn [nabs nleb nmul SFNum]. destruct (fabs_val (pr i) (em i) _ F1') as [G1 G2]. rewrite (le_val (pr i) (em i)) by assumption. rewrite G2, Z, Rabs_R0.
  transitivity true.
  - unfold Rleb. destruct (Rle_dec _ _) as [W|W]; [reflexivity|]. exfalso. apply W. apply (fmul_nn (pr i) (em i) Hpe); try assumption. apply Rmult_le_pos; assumption.
  - symmetry. apply isr_true. exact Z.
Qed.
(** A whole list. *)
Lemma ev_list (P : nat -> I -> Prop) n : (forall k, (k < n)%nat -> ev (P k)) -> ev (fun i => forall k, (k < n)%nat -> P k i).
Proof.
  induction n as [|n IH]; intros H; [apply ev_all; intros; lia|]. assert (H1 : ev (P n)) by (apply H; lia). assert (H2 : forall k, (k < n)%nat -> ev (P k)) by (intros; apply H; lia).
  eapply ev_impl; [|exact (ev_and _ _ _ _ _ _ (IH H2) H1)]. cbn beta. intros i _ _ [A B] k Hk. destruct (Nat.eq_dec k n) as [->|N]; [exact B|]. apply A. lia.
Qed.
Lemma good_list l lf m : lmate I pr em V sz l lf m ->
  ev (fun i => length (lf i) = length l /\ Forall (fgood i) (lf i) /\ (forall k, (k < length l)%nat -> same_sign (fval (cim (nth k (lf i) (@czero _ (NF i))))) (cim (nth k l C0))) /\
     (forall k, (k < length l)%nat -> (m k < length l)%nat /\ m (m k) = k /\ cval (nth (m k) (lf i) (@czero _ (NF i))) = cconj (cval (nth k (lf i) (@czero _ (NF i)))))).
Proof.
  intros [L H].
  assert (Q : ev (fun i => forall k, (k < length l)%nat -> (fgood i (nth k (lf i) (@czero _ (NF i))) /\ same_sign (fval (cim (nth k (lf i) (@czero _ (NF i))))) (cim (nth k l C0))) /\
     cfinite (pr i) (em i) (nth k (lf i) (@czero _ (NF i))) /\ cfinite (pr i) (em i) (nth (m k) (lf i) (@czero _ (NF i))) /\ cval (nth (m k) (lf i) (@czero _ (NF i))) = cconj (cval (nth k (lf i) (@czero _ (NF i)))))).
  { apply ev_list. intros k Hk. destruct (H k Hk) as (A & B & D & Q). apply ev_and; [|exact (cm_value _ _ _ _ _ _ _ Q)].
    destruct (Req_EM_T (cim (nth k l C0)) 0) as [Z|Z].
    - destruct D as [D|D]; [|contradiction]. rewrite D in Q. apply (good_real (nth k l C0) (fun i => nth k (lf i) (@czero _ (NF i))) Z Q).
    - apply (good_nonreal (nth k l C0) (fun i => nth k (lf i) (@czero _ (NF i))) Z). exact (cm_cnapp _ _ _ _ _ _ _ Q). }
  eapply ev_impl; [|exact Q]. cbn beta. intros i Vi Hpe G. split; [apply L; exact Vi|]. split; [|split].
  - apply Forall_forall. intros x Hx. destruct (In_nth _ _ (@czero _ (NF i)) Hx) as [k [Hk <-]]. apply G. rewrite <- (L i Vi). exact Hk.
  - intros k Hk. apply G. exact Hk.
  - intros k Hk. destruct (H k Hk) as (A & B & _). split; [exact A|]. split; [exact B|]. apply G. exact Hk.
Qed.
End Fam.
