(** Rounding through a whole filter design: elementary functions, prototypes, frequency
    transforms and polynomial form as approximations that get better with the unit roundoff. *)
From Coq Require Import Reals Ratan ZArith SpecFloat List Lia Lra Bool.
From Flocq Require Import Core BinarySingleNaN.
From Verif Require Import Base Num Trans M_Complex M_Filter M_Design Cx S_Design S_Filter S_Float S_FloatFft S_FloatZpk S_FloatTrans
  P_Float P_FloatStats P_Poly P_Lp P_FloatI0 P_FloatZi P_FloatPoly T_FloatPoly.
Import ListNotations.
Local Open Scope R_scope.

Section Near.
Variable I : Type.
Variables pr em : I -> Z.
Variable V : I -> Prop.
Variable sz : I -> bool.
Notation napp := (napp I pr em V).
Notation NF i := (SFNum (pr i) (em i) (sz i)).
Notation cnapp := (cnapp I pr em V).
Notation lnapp := (lnapp I pr em V sz).
Notation fmt_ok := (fmt_ok I pr em V).
Ltac pq := unfold Prec_gt_0, Prec_lt_emax; lia.

(** Eventually, in every format fine enough. *)
Definition ev (P : I -> Prop) : Prop := exists K, 1 <= K /\ forall i, fmt_ok K i -> P i.
Lemma ev_and P Q : ev P -> ev Q -> ev (fun i => P i /\ Q i).
Proof.
  intros [K [HK H]] [L [HL G]]. exists (K + L). split; [lra|]. intros i Hi.
  split; [apply H; apply (fmt_mono I pr em V (K + L)); [exact Hi|lra]|apply G; apply (fmt_mono I pr em V (K + L)); [exact Hi|lra]].
Qed.
Lemma ev_impl (P Q : I -> Prop) : (forall i, V i -> (1 < pr i < em i)%Z -> P i -> Q i) -> ev P -> ev Q.
Proof. intros H [K [HK G]]. exists K. split; [exact HK|]. intros i Hi. apply H; [apply Hi|apply Hi|]. apply G. exact Hi. Qed.
Lemma ev_all (P : I -> Prop) : (forall i, V i -> (1 < pr i < em i)%Z -> P i) -> ev P.
Proof. intros H. exists 1. split; [lra|]. intros i Hi. apply H; apply Hi. Qed.

Lemma ev_intZ n : ev (fun i => finite (pr i) (em i) (@nofZ _ (NF i) n) /\ fval (@nofZ _ (NF i) n) = IZR n).
Proof.
  exists (1 + IZR (Z.abs n)). assert (0 <= IZR (Z.abs n)) by (apply IZR_le; lia). split; [lra|]. intros i (_ & Hpe & HU).
  destruct (u_half (pr i) ltac:(lia)) as [U0 U1].
  assert (E : uround (pr i) * powerRZ 2 (pr i) = 1).
  { unfold uround. rewrite <- !bpow_powerRZ, <- bpow_plus. replace (- pr i + pr i)%Z with 0%Z by ring. reflexivity. }
  apply (fofZ_ok (pr i) (em i) ltac:(pq) ltac:(pq) n).
  - apply le_IZR. change (2 ^ pr i)%Z with (radix2 ^ pr i)%Z. rewrite (IZR_Zpower radix2 (pr i)) by lia. rewrite bpow_powerRZ. cbn [radix_val radix2].
    apply (Rmult_le_reg_r (uround (pr i))); [lra|]. rewrite (Rmult_comm (powerRZ _ _)). change (IZR 2) with 2. rewrite E. lra.
  - apply fmax_inv_u; [exact Hpe|]. lra.
Qed.
Lemma napp_of_exact c f : ev (fun i => finite (pr i) (em i) (f i) /\ fval (f i) = c) -> napp c f.
Proof.
  intros [K [HK H]]. exists K. split; [exact HK|]. intros i Hi. destruct (H i Hi) as [F W]. split; [exact F|].
  destruct Hi as (_ & Hpe & _). destruct (u_half (pr i) ltac:(lia)). rewrite W, Rminus_diag_eq, Rabs_R0 by reflexivity. apply Rmult_le_pos; lra.
Qed.
Lemma napp_intZ n : napp (IZR n) (fun i => @nofZ _ (NF i) n).
Proof. apply napp_of_exact, ev_intZ. Qed.

Lemma napp_lt c d f g : c < d -> napp c f -> napp d g ->
  ev (fun i => finite (pr i) (em i) (f i) /\ finite (pr i) (em i) (g i) /\ fval (f i) < fval (g i)).
Proof.
  intros Hcd [K [HK H]] [L [HL G]]. set (J := K + L + 2 * (K + L) / (d - c)).
  assert (J0 : 0 <= 2 * (K + L) / (d - c)) by (apply Rmult_le_pos; [lra|left; apply Rinv_0_lt_compat; lra]).
  exists J. split; [unfold J; lra|]. intros i Hi.
  destruct (H i (fmt_mono I pr em V J K i Hi ltac:(unfold J; lra))) as [F1 E1]. destruct (G i (fmt_mono I pr em V J L i Hi ltac:(unfold J; lra))) as [F2 E2].
  split; [exact F1|]. split; [exact F2|].
  destruct (fmt_mono I pr em V J (2 * (K + L) / (d - c)) i Hi ltac:(unfold J; lra)) as (_ & Hpe & HU).
  assert (Q : (K + L) * uround (pr i) <= (d - c) / 2).
  { apply (Rmult_le_reg_r (2 / (d - c))); [apply Rmult_lt_0_compat; [lra|apply Rinv_0_lt_compat; lra]|].
    replace ((d - c) / 2 * (2 / (d - c))) with 1 by (field; lra).
    replace ((K + L) * uround (pr i) * (2 / (d - c))) with (2 * (K + L) / (d - c) * uround (pr i)) by (field; lra). exact HU. }
  apply Raux.Rabs_le_inv in E1. apply Raux.Rabs_le_inv in E2.
  destruct (Rle_lt_dec (fval (g i)) (fval (f i))) as [B|B]; [|exact B]. exfalso.
  assert (K * uround (pr i) = (d - c) - L * uround (pr i)) by lra.
  assert (L0 : fval (g i) - d = - (L * uround (pr i))) by lra. assert (fval (f i) = fval (g i)) by lra.
  clear - Hcd HK HL Q H0 L0 H1 E1 E2 HU Hpe Hi B. assert (G1 : (K + L) * uround (pr i) = d - c) by lra. lra.
Qed.

Lemma napp_fun E (g : I -> spec_float -> spec_float) (f : R -> R) (dom : R -> Prop) c x : 0 <= E ->
  ev (fun i => accurate (pr i) (em i) E (g i) f dom) ->
  (exists l, derivable_pt_lim f c l) -> (exists r, 0 < r /\ forall y, Rabs (y - c) < r -> dom y) ->
  napp c x -> napp (f c) (fun i => g i (x i)).
Proof.
  intros HE [KA [HKA A]] [l D] [r [Hr Hd]] [K [HK H]]. destruct (D 1 Rlt_0_1) as [del Hdel]. clear D.
  assert (D0 : 0 < del) by apply cond_pos. set (m := Rmin r del). assert (M0 : 0 < m) by (apply Rmin_glb_lt; assumption).
  pose proof (Rmin_l r del) as M1. pose proof (Rmin_r r del) as M2. fold m in M1, M2.
  pose proof (Rabs_pos l) as L0. pose proof (Rabs_pos (f c)) as F0.
  set (J := KA + K + 2 * K / m + (Rabs l + 1) * K + (Rabs (f c) + 2) * (1 + E)).
  assert (J1 : 0 <= 2 * K / m) by (apply Rmult_le_pos; [lra|left; apply Rinv_0_lt_compat; lra]).
  assert (J2 : 0 <= (Rabs l + 1) * K) by nra. assert (J3 : Rabs (f c) + 2 <= (Rabs (f c) + 2) * (1 + E)) by nra.
  exists J. split; [unfold J; lra|]. intros i Hi. destruct (H i (fmt_mono I pr em V J K i Hi ltac:(unfold J; lra))) as [F1 E1].
  pose proof Hi as (Vi & Hpe & _). destruct (u_half (pr i) ltac:(lia)) as [U0 U1].
  destruct (fmt_mono I pr em V J (2 * K / m) i Hi ltac:(unfold J; lra)) as (_ & _ & Q1).
  destruct (fmt_mono I pr em V J ((Rabs l + 1) * K) i Hi ltac:(unfold J; lra)) as (_ & _ & Q2).
  destruct (fmt_mono I pr em V J (Rabs (f c) + 2) i Hi ltac:(unfold J; lra)) as (_ & _ & Q3).
  set (u := uround (pr i)) in *. set (v := fval (x i)) in *.
  assert (B1 : K * u <= m / 2).
  { apply (Rmult_le_reg_r (2 / m)); [apply Rmult_lt_0_compat; [lra|apply Rinv_0_lt_compat; lra]|].
    replace (m / 2 * (2 / m)) with 1 by (field; lra). replace (K * u * (2 / m)) with (2 * K / m * u) by (field; lra). exact Q1. }
  assert (B2 : Rabs (f v - f c) <= (Rabs l + 1) * (K * u)).
  { destruct (Req_dec (v - c) 0) as [Z|NZ].
    - replace v with c by lra. rewrite Rminus_diag_eq, Rabs_R0 by reflexivity. nra.
    - specialize (Hdel (v - c) NZ ltac:(lra)). replace (c + (v - c)) with v in Hdel by ring.
      replace (f v - f c) with ((f v - f c) / (v - c) * (v - c)) by (field; exact NZ). rewrite Rabs_mult.
      apply Rmult_le_compat; [apply Rabs_pos|apply Rabs_pos| |exact E1].
      replace ((f v - f c) / (v - c)) with (((f v - f c) / (v - c) - l) + l) by ring. eapply Rle_trans; [apply Rabs_triang|]. lra. }
  assert (B3 : Rabs (f v) <= Rabs (f c) + 1).
  { replace (f v) with ((f v - f c) + f c) by ring. eapply Rle_trans; [apply Rabs_triang|]. lra. }
  destruct (A i (fmt_mono I pr em V J KA i Hi ltac:(unfold J; lra)) (x i) F1) as [F2 E2].
  { apply Hd. fold v. lra. }
  { fold v. pose proof (fmax_inv_u (pr i) (em i) (Rabs (f c) + 2) Hpe Q3). lra. }
  split; [exact F2|]. fold u v in E2.
  replace (fval (g i (x i)) - f c) with ((fval (g i (x i)) - f v) + (f v - f c)) by ring. eapply Rle_trans; [apply Rabs_triang|].
  assert (E * u * (1 + Rabs (f v)) <= E * u * (Rabs (f c) + 2)) by (apply Rmult_le_compat_l; [nra|lra]).
  assert (0 <= K * u) by nra. assert (0 <= KA * u) by nra. assert (0 <= 2 * K / m * u) by nra. assert (0 <= (Rabs (f c) + 2) * u) by nra.
  unfold J. rewrite !Rmult_plus_distr_r. lra.
Qed.

Lemma napp_sqrt c f : 0 < c -> napp c f -> napp (sqrt c) (fun i => @nsqrt _ (NF i) (f i)).
Proof.
  intros Hc Nf. pose proof Nf as [K [HK H]]. destruct (napp_lt 0 c _ f Hc (napp_zero I pr em V false) Nf) as [L [HL G]].
  assert (S0 : 0 < sqrt c) by (apply sqrt_lt_R0; exact Hc).
  assert (T0 : 0 <= K / sqrt c) by (apply Rmult_le_pos; [lra|left; apply Rinv_0_lt_compat; lra]).
  apply (napp_op I pr em V _ _ (fun i => sqrt (fval (f i))) (K + L + K / sqrt c)); [lra|]. intros i Hi.
  destruct (H i (fmt_mono I pr em V _ K i Hi ltac:(lra))) as [F1 E1]. destruct (G i (fmt_mono I pr em V _ L i Hi ltac:(lra))) as [_ [_ P]]. cbn [fval] in P.
  pose proof Hi as (_ & Hpe & _). destruct (u_half (pr i) ltac:(lia)) as [U0 U1]. split.
  - set (v := fval (f i)) in *. assert (W0 : 0 <= sqrt v) by apply sqrt_pos.
    assert (Rabs (sqrt v - sqrt c) <= K / sqrt c * uround (pr i)).
    { apply (Rmult_le_reg_r (sqrt c)); [exact S0|]. replace (K / sqrt c * uround (pr i) * sqrt c) with (K * uround (pr i)) by (field; lra).
      eapply Rle_trans; [|exact E1]. replace (v - c) with ((sqrt v - sqrt c) * (sqrt v + sqrt c)).
      - rewrite Rabs_mult. apply Rmult_le_compat_l; [apply Rabs_pos|]. rewrite (Rabs_right (sqrt v + sqrt c)) by lra. lra.
      - pose proof (sqrt_sqrt v ltac:(lra)). pose proof (sqrt_sqrt c ltac:(lra)). nra. }
    assert (0 <= K * uround (pr i)) by nra. assert (0 <= L * uround (pr i)) by nra. rewrite !Rmult_plus_distr_r. lra.
  - intros M. destruct (fsqrt_ok (pr i) (em i) ltac:(pq) ltac:(pq) (f i) F1 ltac:(lra)) as [F2 E2]. split; [exact F2|exact E2].
Qed.

(** Lists indexed by integers. *)
Lemma lnapp_of {A} (l : list A) (h : A -> C) (hf : I -> A -> cplx spec_float) :
  (forall a, In a l -> cnapp (h a) (fun i => hf i a)) -> lnapp (map h l) (fun i => map (hf i) l).
Proof.
  intros H. split; [intros; rewrite !map_length; reflexivity|]. intros k Hk. rewrite map_length in Hk.
  destruct l as [|a0 l0] eqn:El; [cbn in Hk; lia|]. rewrite <- El in *.
  eapply cnapp_ext; [| |apply (H (nth k l a0)), nth_In, Hk].
  - rewrite (nth_indep (map h l) C0 (h a0)) by (rewrite map_length; exact Hk). symmetry. apply map_nth.
  - cbn beta. intros i _ _. rewrite (nth_indep (map (hf i) l) _ (hf i a0)) by (rewrite map_length; exact Hk). symmetry. apply map_nth.
Qed.
Lemma lnapp_nil : lnapp [] (fun _ => []).
Proof. split; [reflexivity|]. intros k Hk. cbn in Hk. lia. Qed.
Lemma lnapp_polyL z : forall zf a f, (0 < length a)%nat -> lnapp z zf -> lnapp a f ->
  lnapp (fold_left pstep z a) (fun i => fold_left (@gpstep _ (NF i)) (zf i) (f i)).
Proof.
  induction z as [|r z IH]; intros zf a f Ha [LZ NZ] N.
  - destruct N as [L N]. split.
    + intros i Vi. specialize (LZ i Vi). destruct (zf i); [|discriminate LZ]. cbn [fold_left]. apply L. exact Vi.
    + cbn [fold_left]. intros k Hk. eapply cnapp_ext; [reflexivity| |apply (N k Hk)]. cbn beta.
      intros i Vi _. specialize (LZ i Vi). destruct (zf i); [reflexivity|discriminate LZ].
  - assert (E : forall i, V i -> zf i = nth 0 (zf i) (@czero _ (NF i)) :: tl (zf i)).
    { intros i Vi. specialize (LZ i Vi). destruct (zf i); [discriminate LZ|reflexivity]. }
    assert (R' : lnapp z (fun i => tl (zf i))).
    { split.
      - intros i Vi. specialize (LZ i Vi). destruct (zf i); [discriminate LZ|]. cbn in *. lia.
      - intros k Hk. eapply cnapp_ext; [reflexivity| |apply (NZ (S k)); cbn; lia]. cbn beta. intros i Vi _. rewrite (E i Vi) at 1. reflexivity. }
    pose proof (NZ 0%nat ltac:(cbn; lia)) as Z. cbn [nth] in Z.
    pose proof (lnapp_pstep I pr em V sz a r f _ Ha N Z) as N'.
    destruct (IH (fun i => tl (zf i)) _ _ ltac:(rewrite pstep_length; lia) R' N') as [L1 N1]. cbn [fold_left]. split.
    + intros i Vi. rewrite <- (L1 i Vi). rewrite (E i Vi) at 1. reflexivity.
    + intros k Hk. eapply cnapp_ext; [reflexivity| |apply (N1 k Hk)]. cbn beta.
      intros i Vi _. rewrite (E i Vi) at 3. reflexivity.
Qed.

(** Zeros, poles and gain. *)
Definition znapp (g : @ZpkFormatFilter R) (gf : I -> @ZpkFormatFilter spec_float) : Prop :=
  lnapp (zk_z g) (fun i => zk_z (gf i)) /\ lnapp (zk_p g) (fun i => zk_p (gf i)) /\ napp (zk_k g) (fun i => zk_k (gf i)).

Section Stages.
Variables (g : @ZpkFormatFilter R) (gf : I -> @ZpkFormatFilter spec_float).
Hypothesis Hg : znapp g gf.
Hypothesis Hd : (length (zk_z g) <= length (zk_p g))%nat.
Lemma degs i : V i -> length (zk_z (gf i)) = length (zk_z g) /\ length (zk_p (gf i)) = length (zk_p g).
Proof. intros Vi. destruct Hg as [[L1 _] [[L2 _] _]]. split; [apply L1|apply L2]; exact Vi. Qed.
Let deg := (length (zk_p g) - length (zk_z g))%nat.

Lemma stage_lp2lp wo wf : napp wo wf -> exists h hf, znapp h hf /\ lp2lp_zpk_dyn g (Some wo) = Ok h /\
  (forall i, V i -> @lp2lp_zpk_dyn _ (NF i) (gf i) (Some (wf i)) = Ok (hf i)).
Proof.
  intros NW. pose proof Hg as [NZ [NP NK]].
  assert (N0 : napp 0 (fun i => @nzero _ (NF i))) by apply napp_zero.
  assert (M : forall l lf, lnapp l lf -> lnapp (map (fun zi => cmul zi (wo, 0)) l) (fun i => map (fun zi => @cmul _ (NF i) zi (wf i, @nzero _ (NF i))) (lf i))).
  { intros l lf Nl. apply (lnapp_map I pr em V sz l lf (fun zi => cmul zi (wo, 0)) (fun i zi => @cmul _ (NF i) zi (wf i, @nzero _ (NF i)))); [|exact Nl].
    intros k Hk Nk. apply cnapp_mul; [exact Nk|split; assumption]. }
  exists (mkZpk (map (fun zi => cmul zi (wo, 0)) (zk_z g)) (map (fun zi => cmul zi (wo, 0)) (zk_p g)) (zk_k g * npow wo deg)).
  exists (fun i => mkZpk (map (fun zi => @cmul _ (NF i) zi (wf i, @nzero _ (NF i))) (zk_z (gf i))) (map (fun zi => @cmul _ (NF i) zi (wf i, @nzero _ (NF i))) (zk_p (gf i))) (@nmul _ (NF i) (zk_k (gf i)) (@npow _ (NF i) (wf i) deg))).
  split; [|split].
  - split; [apply (M _ _ NZ)|]. split; [apply (M _ _ NP)|]. apply napp_mul; [exact NK|]. apply (napp_npow I pr em V sz). exact NW.
  - unfold lp2lp_zpk_dyn, relative_degree_dyn. destruct (Nat.ltb_spec (length (zk_p g)) (length (zk_z g))); [lia|]. reflexivity.
  - intros i Vi. destruct (degs i Vi) as [D1 D2]. unfold lp2lp_zpk_dyn, relative_degree_dyn. rewrite D1, D2.
    destruct (Nat.ltb_spec (length (zk_p g)) (length (zk_z g))); [lia|]. reflexivity.
Qed.

Lemma stage_lp2hp wo wf : Forall (fun c => c <> C0) (zk_z g ++ zk_p g) -> napp wo wf -> exists h hf, znapp h hf /\ lp2hp_zpk_dyn g (Some wo) = Ok h /\
  (forall i, V i -> @lp2hp_zpk_dyn _ (NF i) (gf i) (Some (wf i)) = Ok (hf i)).
Proof.
  intros Hn NW. pose proof Hg as [NZ [NP NK]]. apply Forall_app in Hn. destruct Hn as [HZ HP]. rewrite Forall_forall in HZ, HP.
  assert (N1 : napp (-1) (fun i => @nofZ _ (NF i) (-1))) by apply napp_intZ.
  assert (N2 : napp (-2) (fun i => @nofZ _ (NF i) (-2))) by apply napp_intZ.
  assert (N0 : napp 0 (fun i => @nzero _ (NF i))) by apply napp_zero.
  assert (MZ : lnapp (map (fun c => cmul (cdiv (wo * -2, 0) c) (0, -1)) (zk_z g))
    (fun i => map (fun c => @cmul _ (NF i) (@cdiv _ (NF i) (@nmul _ (NF i) (wf i) (@nofZ _ (NF i) (-2)), @nzero _ (NF i)) c) (@nzero _ (NF i), @nofZ _ (NF i) (-1))) (zk_z (gf i)))).
  { apply lnapp_map with (h := fun c => cmul (cdiv (wo * -2, 0) c) (0, -1)) (hf := fun i c => @cmul _ (NF i) (@cdiv _ (NF i) (@nmul _ (NF i) (wf i) (@nofZ _ (NF i) (-2)), @nzero _ (NF i)) c) (@nzero _ (NF i), @nofZ _ (NF i) (-1))); [|exact NZ].
    intros j Hj Nj. apply cnapp_mul; [apply cnapp_div; [apply HZ, nth_In, Hj| |exact Nj]|]; split; cbn [fst snd]; try assumption. apply napp_mul; assumption. }
  assert (MP : lnapp (map (fun c => cdiv (wo, 0) c) (zk_p g)) (fun i => map (fun c => @cdiv _ (NF i) (wf i, @nzero _ (NF i)) c) (zk_p (gf i)))).
  { apply lnapp_map with (h := fun c => cdiv (wo, 0) c) (hf := fun i c => @cdiv _ (NF i) (wf i, @nzero _ (NF i)) c); [|exact NP].
    intros j Hj Nj. apply cnapp_div; [apply HP, nth_In, Hj| |exact Nj]. split; assumption. }
  assert (PZ : cnapp (cprod (map (cadd (-1, 0)) (zk_z g))) (fun i => @cprod _ (NF i) (map (fun c => @cadd _ (NF i) (@nofZ _ (NF i) (-1), @nzero _ (NF i)) c) (zk_z (gf i))))).
  { apply (cnapp_prod I pr em V sz); [|apply cnapp_one].
    apply lnapp_map with (h := cadd (-1, 0)) (hf := fun i c => @cadd _ (NF i) (@nofZ _ (NF i) (-1), @nzero _ (NF i)) c); [|exact NZ]. intros j Hj Nj. apply cnapp_add; [split; assumption|exact Nj]. }
  assert (PP : cnapp (cprod (map (cmul (-1, 0)) (zk_p g))) (fun i => @cprod _ (NF i) (map (fun c => @cmul _ (NF i) (@nofZ _ (NF i) (-1), @nzero _ (NF i)) c) (zk_p (gf i))))).
  { apply (cnapp_prod I pr em V sz); [|apply cnapp_one].
    apply lnapp_map with (h := cmul (-1, 0)) (hf := fun i c => @cmul _ (NF i) (@nofZ _ (NF i) (-1), @nzero _ (NF i)) c); [|exact NP]. intros j Hj Nj. apply cnapp_mul; [split; assumption|exact Nj]. }
  assert (OK : napp (zk_k g * cre (cdiv (cprod (map (cadd (-1, 0)) (zk_z g))) (cprod (map (cmul (-1, 0)) (zk_p g)))))
     (fun i => @nmul _ (NF i) (zk_k (gf i)) (cre (@cdiv _ (NF i) (@cprod _ (NF i) (map (fun c => @cadd _ (NF i) (@nofZ _ (NF i) (-1), @nzero _ (NF i)) c) (zk_z (gf i)))) (@cprod _ (NF i) (map (fun c => @cmul _ (NF i) (@nofZ _ (NF i) (-1), @nzero _ (NF i)) c) (zk_p (gf i)))))))).
  { apply napp_mul; [exact NK|]. refine (proj1 (cnapp_div I pr em V sz _ _ _ _ _ PZ PP)).
    apply nz_all. intros [x y] Hc E. apply (HP _ Hc). assert (E1 : -1 * x - 0 * y = 0) by exact (f_equal fst E). assert (E2 : -1 * y + 0 * x = 0) by exact (f_equal snd E). change ((x, y) = (0, 0)). f_equal; lra. }
  pose proof (lnapp_app _ _ _ _ _ _ _ _ _ MZ (lnapp_repeat I pr em V sz _ _ deg (cnapp_zero I pr em V sz))) as OZ.
  eexists (mkZpk _ _ _). eexists (fun i => mkZpk _ _ _). split; [split; [exact OZ|]; split; [exact MP|exact OK]|]. split.
  - unfold lp2hp_zpk_dyn, relative_degree_dyn. destruct (Nat.ltb_spec (length (zk_p g)) (length (zk_z g))); [lia|]. reflexivity.
  - intros i Vi. destruct (degs i Vi) as [D1 D2]. unfold lp2hp_zpk_dyn, relative_degree_dyn. rewrite D1, D2.
    destruct (Nat.ltb_spec (length (zk_p g)) (length (zk_z g))); [lia|]. reflexivity.
Qed.

Lemma stage_bilinear fs ff : Forall (fun c => c <> (2 * fs, 0)) (zk_p g) -> Forall (fun c => c <> (2 * fs, 0)) (zk_z g) ->
  napp fs ff -> exists h hf, znapp h hf /\ bilinear_zpk_dyn g fs = Ok h /\
  (forall i, V i -> @bilinear_zpk_dyn _ (NF i) (gf i) (ff i) = Ok (hf i)).
Proof.
  intros HP HZ NF0. pose proof Hg as [NZ [NP NK]]. rewrite Forall_forall in HZ, HP.
  assert (N0 : napp 0 (fun i => @nzero _ (NF i))) by apply napp_zero.
  assert (N1 : napp 1 (fun i => @none _ (NF i))) by apply napp_one.
  assert (N2 : napp (2 * fs) (fun i => @nmul _ (NF i) (@two _ (NF i)) (ff i))).
  { apply napp_mul; [|exact NF0]. exact (napp_intZ 2). }
  assert (CF : cnapp (2 * fs, 0) (fun i => (@nmul _ (NF i) (@two _ (NF i)) (ff i), @nzero _ (NF i)))) by (split; assumption).
  assert (SUB : forall a, a <> (2 * fs, 0) -> csub (2 * fs, 0) a <> C0).
  { intros [x y] Hc E. apply Hc. assert (E1 : 2 * fs - x = 0) by exact (f_equal fst E). assert (E2 : 0 - y = 0) by exact (f_equal snd E). f_equal; lra. }
  assert (M : forall l lf, (forall c, In c l -> c <> (2 * fs, 0)) -> lnapp l lf -> lnapp (map (fun zi => cdiv (cadd (2 * fs, 0) zi) (csub (2 * fs, 0) zi)) l)
     (fun i => map (fun zi => @cdiv _ (NF i) (@cadd _ (NF i) (@nmul _ (NF i) (@two _ (NF i)) (ff i), @nzero _ (NF i)) zi) (@csub _ (NF i) (@nmul _ (NF i) (@two _ (NF i)) (ff i), @nzero _ (NF i)) zi)) (lf i))).
  { intros l lf Hl Nl. apply (lnapp_map I pr em V sz l lf (fun zi => cdiv (cadd (2 * fs, 0) zi) (csub (2 * fs, 0) zi)) (fun i zi => @cdiv _ (NF i) (@cadd _ (NF i) (@nmul _ (NF i) (@two _ (NF i)) (ff i), @nzero _ (NF i)) zi) (@csub _ (NF i) (@nmul _ (NF i) (@two _ (NF i)) (ff i), @nzero _ (NF i)) zi))); [|exact Nl].
    intros k Hk Nk. apply cnapp_div; [apply SUB, Hl, nth_In, Hk|apply cnapp_add; assumption|apply cnapp_sub; assumption]. }
  assert (P : forall l lf, lnapp l lf -> cnapp (cprod (map (fun zi => csub (2 * fs, 0) zi) l)) (fun i => @cprod _ (NF i) (map (fun zi => @csub _ (NF i) (@nmul _ (NF i) (@two _ (NF i)) (ff i), @nzero _ (NF i)) zi) (lf i)))).
  { intros l lf Nl. apply (cnapp_prod I pr em V sz); [|apply cnapp_one].
    apply (lnapp_map I pr em V sz l lf (fun zi => csub (2 * fs, 0) zi) (fun i zi => @csub _ (NF i) (@nmul _ (NF i) (@two _ (NF i)) (ff i), @nzero _ (NF i)) zi)); [|exact Nl].
    intros k Hk Nk. apply cnapp_sub; assumption. }
  assert (NM : cnapp (- (1), 0) (fun i => (@nneg _ (NF i) (@none _ (NF i)), @nzero _ (NF i)))) by (split; [apply napp_opp; exact N1|exact N0]).
  pose proof (lnapp_app _ _ _ _ _ _ _ _ _ (M _ _ HZ NZ) (lnapp_repeat I pr em V sz _ _ deg NM)) as OZ.
  assert (OK : napp (zk_k g * cre (cdiv (cprod (map (fun zi => csub (2 * fs, 0) zi) (zk_z g))) (cprod (map (fun zi => csub (2 * fs, 0) zi) (zk_p g)))))
    (fun i => @nmul _ (NF i) (zk_k (gf i)) (cre (@cdiv _ (NF i) (@cprod _ (NF i) (map (fun zi => @csub _ (NF i) (@nmul _ (NF i) (@two _ (NF i)) (ff i), @nzero _ (NF i)) zi) (zk_z (gf i)))) (@cprod _ (NF i) (map (fun zi => @csub _ (NF i) (@nmul _ (NF i) (@two _ (NF i)) (ff i), @nzero _ (NF i)) zi) (zk_p (gf i)))))))).
  { apply napp_mul; [exact NK|]. refine (proj1 (cnapp_div I pr em V sz _ _ _ _ _ (P _ _ NZ) (P _ _ NP))).
    apply (nz_all _ (fun zi => csub (2 * fs, 0) zi)). intros c Hc. apply SUB, HP, Hc. }
  eexists (mkZpk _ _ _). eexists (fun i => mkZpk _ _ _). split; [split; [exact OZ|]; split; [exact (M _ _ HP NP)|exact OK]|]. split.
  - unfold bilinear_zpk_dyn, relative_degree_dyn. destruct (Nat.ltb_spec (length (zk_p g)) (length (zk_z g))); [lia|]. reflexivity.
  - intros i Vi. destruct (degs i Vi) as [D1 D2]. unfold bilinear_zpk_dyn, relative_degree_dyn. rewrite D1, D2.
    destruct (Nat.ltb_spec (length (zk_p g)) (length (zk_z g))); [lia|]. reflexivity.
Qed.

(** The polynomial form; the two branches of poly_dyn have the same real parts. *)
Lemma stage_tf order : exists K, 1 <= K /\ forall i, fmt_ok K i -> forall sort, is_sort sort ->
  exists bf af b a,
    @zpk2tf_dyn _ (NF i) sort order (zk_z (gf i)) (zk_p (gf i)) (zk_k (gf i)) = Ok (mkBa bf af) /\
    zpk2tf_dyn sort order (zk_z g) (zk_p g) (zk_k g) = Ok (mkBa b a) /\
    Forall (finite (pr i) (em i)) bf /\ Forall (finite (pr i) (em i)) af /\
    Forall2 (fun x y => Rabs (fval x - y) <= K * uround (pr i)) bf b /\ Forall2 (fun x y => Rabs (fval x - y) <= K * uround (pr i)) af a.
Proof.
  clear Hd deg. pose proof Hg as [NZ0 [NP0 NK]]. set (z := zk_z g) in *. set (p := zk_p g) in *. set (k := zk_k g) in *.
  set (zff := fun i => zk_z (gf i)) in *. set (pff := fun i => zk_p (gf i)) in *. set (kff := fun i => zk_k (gf i)) in *.
  assert (ONE : lnapp [C1] (fun i => [@cone _ (NF i)])).
  { split; [reflexivity|]. intros j Hj. destruct j; [apply cnapp_one|cbn in Hj; lia]. }
  pose proof (lnapp_polyL z zff [C1] _ ltac:(cbn; lia) NZ0 ONE) as [LZ NZ].
  pose proof (lnapp_polyL p pff [C1] _ ltac:(cbn; lia) NP0 ONE) as [LP NP].
  fold (pcoef z) in LZ, NZ. fold (pcoef p) in LP, NP.
  set (AZ := fun i => fold_left (@gpstep _ (NF i)) (zff i) [@cone _ (NF i)]) in *.
  set (AP := fun i => fold_left (@gpstep _ (NF i)) (pff i) [@cone _ (NF i)]) in *.
  set (cz := @czero _ (SFNum 24 128 true)).
  set (B1 := fun j i => SFsub (pr i) (em i) (SFmul (pr i) (em i) (kff i) (fst (nth j (AZ i) cz))) (SFmul (pr i) (em i) (S754_zero false) (snd (nth j (AZ i) cz)))).
  set (B2 := fun j i => SFsub (pr i) (em i) (SFmul (pr i) (em i) (kff i) (fst (nth j (AZ i) cz))) (SFmul (pr i) (em i) (S754_zero false) (S754_zero false))).
  destruct (napp_uniform I pr em V (length (pcoef z)) (fun j => k * fst (nth j (pcoef z) C0)) B1) as [K1 [HK1 Q1]].
  { intros j Hj. destruct (NZ j Hj) as [R1 R2].
    apply (napp_ext I pr em V (k * fst (nth j (pcoef z) C0) - 0 * snd (nth j (pcoef z) C0)) _ (B1 j)); [ring|reflexivity|].
    apply napp_sub; apply napp_mul; try assumption. apply napp_zero. }
  destruct (napp_uniform I pr em V (length (pcoef z)) (fun j => k * fst (nth j (pcoef z) C0)) B2) as [K2 [HK2 Q2]].
  { intros j Hj. destruct (NZ j Hj) as [R1 R2].
    apply (napp_ext I pr em V (k * fst (nth j (pcoef z) C0) - 0 * 0) _ (B2 j)); [ring|reflexivity|].
    apply napp_sub; apply napp_mul; try assumption; apply napp_zero. }
  destruct (napp_uniform I pr em V (length (pcoef p)) (fun j => fst (nth j (pcoef p) C0)) (fun j i => fst (nth j (AP i) cz)) (fun j Hj => proj1 (NP j Hj))) as [K3 [HK3 Q3]].
  exists (K1 + K2 + K3). split; [lra|]. intros i OK sort Hs. pose proof OK as (Vi & Hpe & _).
  specialize (Q1 i (fmt_mono I pr em V _ K1 i OK ltac:(lra))). specialize (Q2 i (fmt_mono I pr em V _ K2 i OK ltac:(lra))). specialize (Q3 i (fmt_mono I pr em V _ K3 i OK ltac:(lra))).
  cbv beta in Q1, Q2, Q3. specialize (LZ i Vi). specialize (LP i Vi). change (@length (cplx spec_float) (AZ i) = length (pcoef z)) in LZ. change (@length (cplx spec_float) (AP i) = length (pcoef p)) in LP.
  destruct (u_half (pr i) ltac:(lia)) as [U0 _]. set (u := uround (pr i)) in *.
  assert (P1 : 0 <= K1 * u) by (apply Rmult_le_pos; lra). assert (P2 : 0 <= K2 * u) by (apply Rmult_le_pos; lra). assert (P3 : 0 <= K3 * u) by (apply Rmult_le_pos; lra).
  destruct (@poly_dyn_float _ (NF i) sort (zff i)) as [az [Eaz Haz]].
  destruct (@poly_dyn_float _ (NF i) sort (pff i)) as [ap [Eap Hap]].
  change (fold_left (@gpstep _ (NF i)) (zff i) [@cone _ (NF i)]) with (AZ i) in Haz.
  change (fold_left (@gpstep _ (NF i)) (pff i) [@cone _ (NF i)]) with (AP i) in Hap.
  set (bf := @copy_re _ (repeat (@nzero _ (NF i)) (order + 1)) (@poly2ba _ (NF i) sort (map (fun bi => @cmul _ (NF i) (@cofre _ (NF i) (kff i)) bi) az) (zff i))).
  set (af := @copy_re _ (repeat (@nzero _ (NF i)) (order + 1)) (@poly2ba _ (NF i) sort ap (pff i))).
  assert (EF : @zpk2tf_dyn _ (NF i) sort order (zff i) (pff i) (kff i) = Ok (mkBa bf af)).
  { unfold zpk2tf_dyn. rewrite Eaz. cbn [bind]. rewrite Eap. reflexivity. }
  assert (Lbf : length bf = (order + 1)%nat) by apply (@gcopy_re_length _ (NF i)).
  assert (Laf : length af = (order + 1)%nat) by apply (@gcopy_re_length _ (NF i)).
  assert (NB : forall j, (j <= order)%nat -> finite (pr i) (em i) (nth j bf (S754_zero false)) /\
     Rabs (fval (nth j bf (S754_zero false)) - k * fst (nth j (pcoef z) C0)) <= (K1 + K2) * u).
  { intros j Hj. unfold bf. pose proof (@gcopy_re_nth _ (NF i) (order + 1) (@poly2ba _ (NF i) sort (map (fun bi => @cmul _ (NF i) (@cofre _ (NF i) (kff i)) bi) az) (zff i)) j) as G.
    change (@nzero _ (NF i)) with (S754_zero false) in G. change (@nzero _ (NF i)) with (S754_zero false). rewrite G.
    destruct (Nat.ltb_spec j (order + 1)); [|lia]. rewrite gpoly2ba_re.
    destruct (Nat.lt_ge_cases j (length (pcoef z))) as [Lt|Ge].
    - assert (Laz : length az = length (pcoef z)) by (destruct Haz as [-> | ->]; rewrite ?map_length; exact LZ).
      rewrite (nth_indep _ _ (@cmul _ (NF i) (@cofre _ (NF i) (kff i)) cz)) by (rewrite map_length; lia).
      rewrite (map_nth (fun bi => @cmul _ (NF i) (@cofre _ (NF i) (kff i)) bi)).
      destruct Haz as [-> | ->].
      + destruct (Q1 j Lt) as [F E]. split; [exact F|]. rewrite Rmult_plus_distr_r.
        change (cre (@cmul _ (NF i) (@cofre _ (NF i) (kff i)) (nth j (AZ i) cz))) with (B1 j i). lra.
      + destruct (Q2 j Lt) as [F E].
        rewrite (nth_indep _ cz (@cofre _ (NF i) (cre cz))) by (rewrite map_length; rewrite LZ; exact Lt).
        rewrite (map_nth (fun ai => @cofre _ (NF i) (cre ai))).
        change (cre (@cmul _ (NF i) (@cofre _ (NF i) (kff i)) (@cofre _ (NF i) (cre (nth j (AZ i) cz))))) with (B2 j i).
        split; [exact F|]. rewrite Rmult_plus_distr_r. lra.
    - rewrite (nth_overflow (map _ az)) by (rewrite map_length; destruct Haz as [-> | ->]; rewrite ?map_length, LZ; exact Ge).
      rewrite (nth_overflow (pcoef z)) by exact Ge. cbn [czero cre fst nzero SFNum C0 fval].
      split; [split; [reflexivity|exact Logic.I]|]. rewrite Rmult_0_r, Rminus_0_r, Rabs_R0. lra. }
  assert (NA : forall j, (j <= order)%nat -> finite (pr i) (em i) (nth j af (S754_zero false)) /\
     Rabs (fval (nth j af (S754_zero false)) - fst (nth j (pcoef p) C0)) <= K3 * u).
  { intros j Hj. unfold af. pose proof (@gcopy_re_nth _ (NF i) (order + 1) (@poly2ba _ (NF i) sort ap (pff i)) j) as G.
    change (@nzero _ (NF i)) with (S754_zero false) in G. change (@nzero _ (NF i)) with (S754_zero false). rewrite G.
    destruct (Nat.ltb_spec j (order + 1)); [|lia]. rewrite gpoly2ba_re.
    assert (RE : (j < length (pcoef p))%nat -> cre (nth j ap (@czero _ (NF i))) = fst (nth j (AP i) cz)).
    { intros Lt. destruct Hap as [-> | ->]; [reflexivity|].
      rewrite (nth_indep _ _ (@cofre _ (NF i) (cre cz))) by (rewrite map_length; rewrite LP; exact Lt).
      rewrite (map_nth (fun ai => @cofre _ (NF i) (cre ai))). reflexivity. }
    destruct (Nat.lt_ge_cases j (length (pcoef p))) as [Lt|Ge].
    - rewrite RE by exact Lt. exact (Q3 j Lt).
    - rewrite (nth_overflow ap) by (destruct Hap as [-> | ->]; rewrite ?map_length, LP; exact Ge).
      rewrite (nth_overflow (pcoef p)) by exact Ge. cbn [czero cre fst nzero SFNum C0 fval].
      split; [split; [reflexivity|exact Logic.I]|]. rewrite Rminus_0_r, Rabs_R0; lra. }
  exists bf, af, (padded_coef order k z), (padded_coef order 1 p).
  assert (LC : forall c l, length (padded_coef order c l) = (order + 1)%nat) by (intros; unfold padded_coef; rewrite map_length, seq_length; reflexivity).
  assert (F2 : forall (xf : list spec_float) (x : list R) e, length xf = length x -> (forall j, (j < length x)%nat -> Rabs (fval (nth j xf (S754_zero false)) - nth j x 0) <= e) ->
     Forall2 (fun x y => Rabs (fval x - y) <= e) xf x).
  { clear. induction xf as [|a xf IH]; intros [|b x] e L H; try discriminate L; constructor; [apply (H 0%nat); cbn; lia|]. apply IH; [cbn in L; lia|]. intros j Hj. apply (H (S j)). cbn. lia. }
  split; [exact EF|]. split; [apply zpk2tf_ok; exact Hs|].
  split; [apply Forall_forall; intros v Hv; destruct (In_nth _ _ (S754_zero false) Hv) as [j [Hj <-]]; apply NB; lia|].
  split; [apply Forall_forall; intros v Hv; destruct (In_nth _ _ (S754_zero false) Hv) as [j [Hj <-]]; apply NA; lia|].
  split; (apply F2; [rewrite LC; assumption|]); rewrite LC; intros j Hj; unfold padded_coef; rewrite P_Savgol.nth_map_seq' by lia; cbn [Nat.add].
  - destruct (NB j ltac:(lia)) as [_ E1]. change (cre (nth j (pcoef z) C0)) with (fst (nth j (pcoef z) C0)).
    rewrite Rmult_plus_distr_r in E1. rewrite !Rmult_plus_distr_r. lra.
  - destruct (NA j ltac:(lia)) as [_ E1]. change (cre (nth j (pcoef p) C0)) with (fst (nth j (pcoef p) C0)).
    rewrite Rmult_1_l. rewrite !Rmult_plus_distr_r. lra.
Qed.
End Stages.

(** ** Prototypes *)
Lemma lnapp_ext l l' f f' : l = l' -> (forall i, V i -> f i = f' i) -> lnapp l f -> lnapp l' f'.
Proof.
  intros <- E [L N]. split; [intros i Vi; rewrite <- E by exact Vi; apply L; exact Vi|]. intros k Hk.
  eapply cnapp_ext; [reflexivity| |apply (N k Hk)]. cbn beta. intros i Vi _. rewrite E by exact Vi. reflexivity.
Qed.
Lemma step2_range n m : In m (step2 (- n + 1) n) -> (Z.abs m < n)%Z.
Proof.
  unfold step2. intros H. apply in_map_iff in H. destruct H as [j [<- Hj]]. apply in_seq in Hj.
  assert (Hj2 : (Z.of_nat j < (n - (- n + 1) + 1) / 2)%Z) by lia.
  replace (n - (- n + 1) + 1)%Z with (n * 2)%Z in Hj2 by ring. rewrite Z.div_mul in Hj2 by lia. lia.
Qed.

Variable E : R.
Hypothesis HE : 0 <= E.
Variable T : I -> Trans spec_float.
Hypothesis HT : forall i, V i -> (1 < pr i < em i)%Z -> accurate_trans (pr i) (em i) E (T i).

Lemma napp_pi : napp PI (fun i => @tpi _ (T i)).
Proof.
  exists (1 + E). split; [lra|]. intros i (Vi & Hpe & _). destruct (HT i Vi Hpe) as [[F B] _ _ _ _ _ _ _ _ _ _ _]. split; [exact F|].
  destruct (u_half (pr i) ltac:(lia)). rewrite Rmult_plus_distr_r. lra.
Qed.
Lemma napp_exp c x : napp c x -> napp (exp c) (fun i => @texp _ (T i) (x i)).
Proof.
  apply (napp_fun E (fun i => @texp _ (T i)) exp anywhere); [exact HE| | |exists 1; split; [lra|intros; exact Logic.I]].
  - apply ev_all. intros i Vi Hpe. apply (HT i Vi Hpe).
  - eexists. apply derivable_pt_lim_exp.
Qed.
Lemma napp_sinh c x : napp c x -> napp (sinh c) (fun i => @tsinh _ (T i) (x i)).
Proof.
  apply (napp_fun E (fun i => @tsinh _ (T i)) sinh anywhere); [exact HE| | |exists 1; split; [lra|intros; exact Logic.I]].
  - apply ev_all. intros i Vi Hpe. apply (HT i Vi Hpe).
  - eexists. apply derivable_pt_lim_sinh.
Qed.
Lemma napp_cosh c x : napp c x -> napp (cosh c) (fun i => @tcosh _ (T i) (x i)).
Proof.
  apply (napp_fun E (fun i => @tcosh _ (T i)) cosh anywhere); [exact HE| | |exists 1; split; [lra|intros; exact Logic.I]].
  - apply ev_all. intros i Vi Hpe. apply (HT i Vi Hpe).
  - eexists. apply derivable_pt_lim_cosh.
Qed.
Lemma napp_asinh c x : napp c x -> napp (arcsinh c) (fun i => @tasinh _ (T i) (x i)).
Proof.
  apply (napp_fun E (fun i => @tasinh _ (T i)) arcsinh anywhere); [exact HE| | |exists 1; split; [lra|intros; exact Logic.I]].
  - apply ev_all. intros i Vi Hpe. apply (HT i Vi Hpe).
  - eexists. apply derivable_pt_lim_arcsinh.
Qed.
Lemma near_dom c : Rabs c < 2 -> exists r, 0 < r /\ forall y, Rabs (y - c) < r -> Rabs y <= 2.
Proof.
  intros Hc. exists (2 - Rabs c). split; [lra|]. intros y Hy. replace y with ((y - c) + c) by ring. eapply Rle_trans; [apply Rabs_triang|]. lra.
Qed.
Lemma napp_sin c x : Rabs c < 2 -> napp c x -> napp (sin c) (fun i => @tsin _ (T i) (x i)).
Proof.
  intros Hc. apply (napp_fun E (fun i => @tsin _ (T i)) sin (fun x => Rabs x <= 2)); [exact HE| | |apply near_dom; exact Hc].
  - apply ev_all. intros i Vi Hpe. apply (HT i Vi Hpe).
  - eexists. apply derivable_pt_lim_sin.
Qed.
Lemma napp_cos c x : Rabs c < 2 -> napp c x -> napp (cos c) (fun i => @tcos _ (T i) (x i)).
Proof.
  intros Hc. apply (napp_fun E (fun i => @tcos _ (T i)) cos (fun x => Rabs x <= 2)); [exact HE| | |apply near_dom; exact Hc].
  - apply ev_all. intros i Vi Hpe. apply (HT i Vi Hpe).
  - eexists. apply derivable_pt_lim_cos.
Qed.
Lemma napp_tan c x : 0 < c < PI / 2 -> napp c x -> napp (tan c) (fun i => @ttan _ (T i) (x i)).
Proof.
  intros Hc. apply (napp_fun E (fun i => @ttan _ (T i)) tan (fun x => 0 < x < PI / 2)); [exact HE| | |].
  - apply ev_all. intros i Vi Hpe. apply (HT i Vi Hpe).
  - destruct (derivable_pt_tan c ltac:(lra)) as [l Hl]. exists l. exact Hl.
  - exists (Rmin c (PI / 2 - c)). split; [apply Rmin_glb_lt; lra|]. intros y Hy. pose proof (Rmin_l c (PI / 2 - c)). pose proof (Rmin_r c (PI / 2 - c)).
    apply Rabs_def2 in Hy. lra.
Qed.
Lemma napp_powf c x : napp c x -> napp (Rpower 10 c) (fun i => @tpowf _ (T i) (@nofZ _ (NF i) 10) (x i)).
Proof.
  apply (napp_fun E (fun i => @tpowf _ (T i) (@nofZ _ (NF i) 10)) (Rpower 10) anywhere); [exact HE| | |exists 1; split; [lra|intros; exact Logic.I]].
  - eapply ev_impl; [|apply (ev_intZ 10)]. cbn beta. intros i Vi Hpe [F W]. rewrite <- W.
    apply (acc_powf _ _ _ _ (HT i Vi Hpe)); [exact F|]. rewrite W. lra.
  - exists (exp (c * ln 10) * (1 * ln 10 + c * 0)). unfold Rpower.
    apply (derivable_pt_lim_comp (fun x => x * ln 10) exp); [|apply derivable_pt_lim_exp].
    apply (derivable_pt_lim_mult (fun x => x) (fun _ => ln 10)); [apply derivable_pt_lim_id|apply derivable_pt_lim_const].
Qed.

Lemma angle_small n m : (Z.abs m < n)%Z -> Rabs (PI * IZR m / IZR (2 * n)) < 2.
Proof.
  intros H. assert (N : 0 < IZR n) by (apply IZR_lt; lia). assert (M : Rabs (IZR m) < IZR n) by (rewrite <- abs_IZR; apply IZR_lt; lia).
  rewrite mult_IZR. unfold Rdiv. rewrite !Rabs_mult, Rabs_inv, (Rabs_right PI) by (pose proof PI_RGT_0; lra).
  rewrite (Rabs_right (2 * IZR n)) by lra. pose proof PI_4. pose proof PI_RGT_0. pose proof (Rabs_pos (IZR m)).
  apply (Rmult_lt_reg_r (2 * IZR n)); [lra|]. rewrite Rmult_assoc, Rinv_l, Rmult_1_r by lra. nra.
Qed.

Lemma stage_buttap order : znapp (@buttap_dyn R RNum RTrans order) (fun i => @buttap_dyn _ (NF i) (T i) order).
Proof.
  unfold buttap_dyn. split; [apply lnapp_nil|]. split; [|apply napp_one]. cbn [zk_p].
  apply (lnapp_of (step2 (- Z.of_nat order + 1) (Z.of_nat order))
    (fun m => cneg (cexp (0, PI * IZR m / IZR (2 * Z.of_nat order))))
    (fun i m => @cneg _ (NF i) (@cexp _ (NF i) (T i) (@nzero _ (NF i), @ndiv _ (NF i) (@nmul _ (NF i) (@tpi _ (T i)) (@nofZ _ (NF i) m)) (@nofZ _ (NF i) (2 * Z.of_nat order)))))).
  intros m Hm. apply step2_range in Hm. apply cnapp_neg. pose proof (angle_small _ _ Hm) as Ha.
  assert (NA : napp (PI * IZR m / IZR (2 * Z.of_nat order)) (fun i => @ndiv _ (NF i) (@nmul _ (NF i) (@tpi _ (T i)) (@nofZ _ (NF i) m)) (@nofZ _ (NF i) (2 * Z.of_nat order)))).
  { apply napp_div; [apply IZR_neq; lia|apply napp_mul; [apply napp_pi|apply napp_intZ]|apply napp_intZ]. }
  split; (apply napp_mul; [apply napp_exp, napp_zero|]); [apply napp_cos|apply napp_sin]; assumption.
Qed.

Lemma stage_cheb1ap n rp rf : 0 < rp -> napp rp rf -> znapp (@cheb1ap_dyn R RNum RTrans n rp) (fun i => @cheb1ap_dyn _ (NF i) (T i) n (rf i)).
Proof.
  intros Hr NR. pose proof (napp_intZ 10) as N10. destruct n as [|n'].
  { unfold cheb1ap_dyn. split; [apply lnapp_nil|]. split; [apply lnapp_nil|]. cbn [zk_k].
    apply napp_powf. apply napp_div; [apply IZR_neq; lia|apply napp_opp; exact NR|apply napp_intZ]. }
  set (n := S n'). unfold cheb1ap_dyn. fold n. cbv zeta. change (match n with 0%nat => ?a | S _ => ?b end) with b.
  set (nz := Z.of_nat n). assert (Hnz : (0 < nz)%Z) by (unfold nz, n; lia).
  set (eps := sqrt (Rpower 10 (rp / 10) - 1)). set (ef := fun i => @nsqrt _ (NF i) (@nsub _ (NF i) (@tpowf _ (T i) (@nofZ _ (NF i) 10) (@ndiv _ (NF i) (rf i) (@nofZ _ (NF i) 10))) (@none _ (NF i)))).
  assert (P1 : 0 < Rpower 10 (rp / 10) - 1).
  { assert (1 < Rpower 10 (rp / 10)); [|lra]. rewrite <- (Rpower_O 10) by lra. apply Rpower_lt; lra. }
  assert (E0 : 0 < eps) by (apply sqrt_lt_R0; exact P1).
  assert (NE : napp eps ef).
  { apply napp_sqrt; [exact P1|]. apply napp_sub; [|apply napp_one]. apply napp_powf. apply napp_div; [lra|exact NR|exact N10]. }
  set (mu := arcsinh (1 / eps) / IZR nz). set (muf := fun i => @ndiv _ (NF i) (@tasinh _ (T i) (@ndiv _ (NF i) (@none _ (NF i)) (ef i))) (@nofZ _ (NF i) nz)).
  assert (NM : napp mu muf).
  { apply napp_div; [apply IZR_neq; lia| |apply napp_intZ]. apply napp_asinh. apply napp_div; [lra|apply napp_one|exact NE]. }
  set (th := fun m => PI * (IZR m / IZR (2 * nz))). set (thf := fun i m => @nmul _ (NF i) (@tpi _ (T i)) (@ndiv _ (NF i) (@nofZ _ (NF i) m) (@nofZ _ (NF i) (2 * nz)))).
  assert (NP : lnapp (map (fun theta => cneg (csinh (mu, theta))) (map th (step2 (- nz + 1) nz)))
     (fun i => map (fun theta => @cneg _ (NF i) (@csinh _ (NF i) (T i) (muf i, theta))) (map (thf i) (step2 (- nz + 1) nz)))).
  { apply (lnapp_ext (map (fun m => cneg (csinh (mu, th m))) (step2 (- nz + 1) nz)) _ (fun i => map (fun m => @cneg _ (NF i) (@csinh _ (NF i) (T i) (muf i, thf i m))) (step2 (- nz + 1) nz))).
    { rewrite map_map. reflexivity. }
    { intros i _. rewrite map_map. reflexivity. }
    apply (lnapp_of _ (fun m => cneg (csinh (mu, th m))) (fun i m => @cneg _ (NF i) (@csinh _ (NF i) (T i) (muf i, thf i m)))).
    intros m Hm. apply step2_range in Hm. pose proof (angle_small _ _ Hm) as Ha.
    assert (NA : napp (th m) (fun i => thf i m)).
    { apply napp_mul; [apply napp_pi|]. apply napp_div; [apply IZR_neq; lia|apply napp_intZ|apply napp_intZ]. }
    assert (Ha' : Rabs (th m) < 2) by (unfold th; replace (PI * (IZR m / IZR (2 * nz))) with (PI * IZR m / IZR (2 * nz)) by (unfold Rdiv; ring); exact Ha).
    apply cnapp_neg. split; (apply napp_mul; [first [apply napp_sinh|apply napp_cosh]; exact NM|first [apply napp_cos|apply napp_sin]; assumption]). }
  set (P := map (fun theta => cneg (csinh (mu, theta))) (map th (step2 (- nz + 1) nz))) in *.
  set (Pf := fun i => map (fun theta => @cneg _ (NF i) (@csinh _ (NF i) (T i) (muf i, theta))) (map (thf i) (step2 (- nz + 1) nz))) in *.
  assert (NK : napp (cre (cprod (map cneg P))) (fun i => cre (@cprod _ (NF i) (map (@cneg _ (NF i)) (Pf i))))).
  { refine (proj1 (cnapp_prod I pr em V sz _ _ _ _ _ (cnapp_one I pr em V sz))).
    apply (lnapp_map I pr em V sz P Pf cneg (fun i => @cneg _ (NF i))); [|exact NP]. intros k Hk Nk. apply cnapp_neg. exact Nk. }
  split; [apply lnapp_nil|]. split; [exact NP|]. cbn [zk_k]. destruct (Nat.even n); [|exact NK].
  apply napp_div; [|exact NK|].
  - apply Rgt_not_eq, sqrt_lt_R0. cbn. nra.
  - apply napp_sqrt; [cbn; nra|]. apply napp_add; [apply napp_one|apply napp_mul; exact NE].
Qed.
End Near.
