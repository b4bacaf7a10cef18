(** The Chebyshev prototypes: transfer functions. *)
From Coq Require Import List Arith ZArith Reals Permutation Lra Lia.
From Verif Require Import Base Num Trans M_Complex M_Design RSum Cx S_Design S_Bessel P_Bessel P_Savgol P_Poly P_Lp P_CPoly P_Proto.
Import ListNotations.
Local Open Scope R_scope.

Lemma chebT_0 n : chebT n 0 * chebT n 0 = if Nat.even n then 1 else 0.
Proof.
  enough (Q : forall m, (chebT (2 * m) 0 * chebT (2 * m) 0 = 1) /\ chebT (2 * m + 1) 0 = 0).
  { destruct (Nat.even n) eqn:Ev.
    - apply Nat.even_spec in Ev. destruct Ev as [m ->]. apply Q.
    - assert (Od : Nat.odd n = true) by (unfold Nat.odd; rewrite Ev; reflexivity). apply Nat.odd_spec in Od.
      destruct Od as [m ->]. rewrite (proj2 (Q m)). ring. }
  induction m as [|m [IH1 IH2]]; [cbn; split; ring|].
  replace (2 * S m)%nat with (S (S (2 * m))) by lia. replace (S (S (2 * m)) + 1)%nat with (S (S (2 * m + 1))) by lia.
  rewrite !chebT_SS. replace (S (2 * m + 1)) with (S (S (2 * m))) by lia. rewrite IH2.
  replace (S (2 * m)) with (2 * m + 1)%nat by lia. rewrite IH2. split; [|ring].
  transitivity (chebT (2 * m) 0 * chebT (2 * m) 0); [ring|exact IH1].
Qed.
Lemma Rpower_10_gt x : 0 < x -> 1 < Rpower 10 x.
Proof. intros Hx. rewrite <- (Rpower_O 10) by lra. apply Rpower_lt; lra. Qed.

(** ** Chebyshev I *)
Section Cheb1.
Variables (n : nat) (rp : R).
Hypothesis Hn : (0 < n)%nat.
Hypothesis Hrp : 0 < rp.
Definition eps1 : R := sqrt (Rpower 10 (rp / 10) - 1).
Lemma eps1_sq : eps1 * eps1 = Rpower 10 (rp / 10) - 1.
Proof. unfold eps1. pose proof (Rpower_10_gt (rp / 10) ltac:(lra)). apply sqrt_sqrt. lra. Qed.
Lemma eps1_pos : 0 < eps1.
Proof. unfold eps1. pose proof (Rpower_10_gt (rp / 10) ltac:(lra)). apply sqrt_lt_R0. lra. Qed.
Notation P1 := (map (cp n eps1) (seq 0 n)).
Definition k1 : R := let k := cre (hom P1 C0 C1) in if Nat.even n then k / sqrt (1 + eps1 * eps1) else k.
Lemma cheb1ap_eq : @cheb1ap_dyn R RNum RTrans n rp = mkZpk [] P1 k1.
Proof.
  unfold cheb1ap_dyn. destruct n as [|m] eqn:En; [lia|]. rewrite <- En in *. cbv zeta. rewrite step2_seq.
  change (tpowf (nofZ 10) (ndiv rp (nofZ 10))) with (Rpower 10 (rp / 10)).
  change (nsqrt (nsub (Rpower 10 (rp / 10)) none)) with eps1.
  assert (EP : map (fun theta => cneg (csinh (ndiv (tasinh (ndiv none eps1)) (nofZ (Z.of_nat n)), theta)))
      (map (fun m0 => nmul tpi (ndiv (nofZ m0) (nofZ (2 * Z.of_nat n)))) (map (fun k => (1 - Z.of_nat n + 2 * Z.of_nat k)%Z) (seq 0 n))) = P1).
  { rewrite !map_map. apply map_ext_in. intros k Hk. apply in_seq in Hk.
    change (cneg (csinh (arcsinh (1 / eps1) / IZR (Z.of_nat n), PI * (IZR (1 - Z.of_nat n + 2 * Z.of_nat k) / IZR (2 * Z.of_nat n)))) = cp n eps1 k).
    rewrite IZR_m, mult_IZR, <- !INR_IZR_INZ. pose proof (INRn n Hn).
    replace (PI * ((1 - INR n + 2 * INR k) / (2 * INR n))) with (phi n k) by (unfold phi; field; lra).
    apply C_ext; reflexivity. }
  rewrite EP. rewrite cprod_cpl, cpl_map_neg. reflexivity.
Qed.
Lemma hom_cp_neq0 eps w : 0 < eps -> hom (map (cp n eps) (seq 0 n)) (0, w) C1 <> C0.
Proof.
  intros He. rewrite hom_1. apply root_product_neq0. intros Hin. apply in_map_iff in Hin. destruct Hin as [k [Q Hk]]. apply in_seq in Hk.
  pose proof (cp_stable n eps Hn He k ltac:(lia)) as S. rewrite Q in S. cbn in S. lra.
Qed.
Lemma re_sq l : conj_closed l -> cre (hom l C0 C1) * cre (hom l C0 C1) = cnorm_sqr (hom l C0 C1).
Proof.
  intros Hc. pose proof (hom_real l 0 1 Hc) as I. change (RtoC 0) with C0 in I. change (RtoC 1) with C1 in I.
  unfold cnorm_sqr. rewrite I. cbn. ring.
Qed.
Lemma k1_sq : k1 * k1 * (eps1 * eps1 * (2 ^ (n - 1) * 2 ^ (n - 1))) = 1.
Proof.
  pose proof eps1_pos as He. pose proof (cheb_norm n eps1 Hn He 0) as Q. rewrite chebT_0 in Q.
  change ((0, 0) : C) with C0 in Q. rewrite <- (re_sq _ (cp_closed n eps1)) in Q.
  unfold k1. set (r := cre (hom P1 C0 C1)) in *. destruct (Nat.even n).
  - assert (S : sqrt (1 + eps1 * eps1) * sqrt (1 + eps1 * eps1) = 1 + eps1 * eps1) by (apply sqrt_sqrt; nra).
    assert (S0 : 0 < sqrt (1 + eps1 * eps1)) by (apply sqrt_lt_R0; nra).
    transitivity (r * r * (eps1 * eps1 * (2 ^ (n - 1) * 2 ^ (n - 1))) / (sqrt (1 + eps1 * eps1) * sqrt (1 + eps1 * eps1))); [field; lra|].
    rewrite S, Q. field. nra.
  - rewrite Q. ring.
Qed.
Lemma cheb1_mag w : cnorm_sqr (H (mkZpk [] P1 k1) (0, w)) = 1 / (1 + (Rpower 10 (rp / 10) - 1) * (chebT n w * chebT n w)).
Proof.
  pose proof eps1_pos as He. rewrite <- eps1_sq, <- (cheb_norm n eps1 Hn He w). rewrite H_hom. cbn [zk_z zk_p zk_k].
  pose proof (hom_cp_neq0 eps1 w He) as Nz. rewrite cnorm_sqr_div by exact Nz. rewrite cnorm_sqr_mul, cnorm_sqr_RtoC.
  pose proof k1_sq as K. apply cnorm_sqr_neq0 in Nz. set (N := cnorm_sqr (hom P1 (0, w) C1)) in *.
  change (cnorm_sqr (hom [] (0, w) C1)) with (1 * 1 + 0 * 0).
  set (A := eps1 * eps1 * (2 ^ (n - 1) * 2 ^ (n - 1))) in *.
  assert (A <> 0) by (intros Q; rewrite Q in K; lra).
  transitivity (k1 * k1 / N); [f_equal; ring|]. apply (Rmult_eq_reg_r (N * A)); [|apply Rmult_integral_contrapositive; split; assumption].
  transitivity (k1 * k1 * A); [field; assumption|]. rewrite K. field. split; assumption.
Qed.
End Cheb1.
Lemma cheb1_order0 rp w : cnorm_sqr (H (@cheb1ap_dyn R RNum RTrans 0 rp) (0, w)) = 1 / (1 + (Rpower 10 (rp / 10) - 1) * (1 * 1)).
Proof.
  rewrite H_hom. change (@cheb1ap_dyn R RNum RTrans 0 rp) with (@mkZpk R [] [] (Rpower 10 (- rp / 20))). cbn [zk_z zk_p zk_k].
  change (hom [] (0, w) C1) with C1. replace (RtoC (Rpower 10 (- rp / 20)) * C1 / C1)%C with (RtoC (Rpower 10 (- rp / 20))) by (field; exact C10).
  rewrite cnorm_sqr_RtoC, <- Rpower_plus. replace (1 + (Rpower 10 (rp / 10) - 1) * (1 * 1)) with (Rpower 10 (rp / 10)) by ring.
  replace (- rp / 20 + - rp / 20) with (- (rp / 10)) by field. rewrite Rpower_Ropp. field.
  unfold Rpower. pose proof (exp_pos (rp / 10 * ln 10)). lra.
Qed.

(** ** Chebyshev II *)
Definition rprod (xs : list R) (v : R) : R := fold_right (fun x acc => (v - x) * acc) 1 xs.
Lemma root_product_real xs v : root_product (map RtoC xs) (RtoC v) = RtoC (rprod xs v).
Proof.
  induction xs as [|x xs IH]; [reflexivity|].
  change ((RtoC v - RtoC x) * root_product (map RtoC xs) (RtoC v) = RtoC ((v - x) * rprod xs v)%R)%C. rewrite IH. cx.
Qed.
Definition sp (n k : nat) : R := sin (phi n k).
Lemma chebT_roots n k : (k < n)%nat -> chebT n (sp n k) = 0.
Proof.
  intros Hk. unfold sp. rewrite <- cos_shift, chebT_cos. assert (Hp : 0 < INR n) by (apply lt_0_INR; lia).
  replace (INR n * (PI / 2 - phi n k)) with (PI * IZR (Z.of_nat n - 1 - Z.of_nat k) + PI / 2).
  - rewrite cos_plus, cos_PI2, sin_PI2, Rmult_0_r, Rmult_1_r. replace (sin (PI * IZR (Z.of_nat n - 1 - Z.of_nat k))) with 0; [ring|].
    symmetry. apply sin_eq_0_1. exists (Z.of_nat n - 1 - Z.of_nat k)%Z. ring.
  - rewrite !minus_IZR, <- !INR_IZR_INZ. unfold phi. field. lra.
Qed.
Lemma chebT_prod n v : (0 < n)%nat -> chebT n v = 2 ^ (n - 1) * rprod (map (sp n) (seq 0 n)) v.
Proof.
  intros Hn. apply RtoC_inj. rewrite RtoC_mul, <- root_product_real, <- cT_real.
  apply (roots_product n).
  - pose proof (cT_lead (n - 1)) as L. replace (S (n - 1)) with n in L by lia. exact L.
  - rewrite map_map. apply NoDup_map_on; [apply seq_NoDup|]. intros i j Hi Hj Q. apply in_seq in Hi, Hj.
    apply RtoC_inj in Q. apply (sin_phi_inj n); lia || exact Q.
  - rewrite !map_length, seq_length. reflexivity.
  - intros r Hr. rewrite map_map in Hr. apply in_map_iff in Hr. destruct Hr as [k [<- Hk]]. apply in_seq in Hk.
    rewrite cT_real, chebT_roots by lia. reflexivity.
Qed.
Lemma rprod_app a b v : rprod (a ++ b) v = rprod a v * rprod b v.
Proof. induction a as [|x a IH]; cbn [app rprod fold_right]; [unfold rprod; ring|]. fold (rprod (a ++ b) v) (rprod a v). rewrite IH. ring. Qed.
Lemma sp_sym n : Permutation (map Ropp (map (sp n) (seq 0 n))) (map (sp n) (seq 0 n)).
Proof.
  rewrite map_map. replace (map (fun k => - sp n k) (seq 0 n)) with (rev (map (sp n) (seq 0 n))); [symmetry; apply Permutation_rev|].
  apply (nth_ext _ _ 0 0); [rewrite rev_length, !map_length; reflexivity|]. rewrite rev_length, map_length, seq_length. intros k Hk.
  rewrite rev_nth by (rewrite map_length, seq_length; exact Hk). rewrite map_length, seq_length.
  rewrite !nth_map_seq' by lia. unfold sp. replace (n - S k)%nat with (n - 1 - k)%nat by lia.
  rewrite phi_rev by exact Hk. apply sin_neg.
Qed.
Definition zm (n : nat) : list Z :=
  let nz := Z.of_nat n in if Nat.odd n then step2 (- nz + 1) 0 ++ step2 2 nz else step2 (- nz + 1) nz.
Definition sm (n : nat) (m : Z) : R := sin (IZR m * (PI / (2 * INR n))).
Lemma sm_sp n k : (0 < n)%nat -> sm n (1 - Z.of_nat n + 2 * Z.of_nat k) = sp n k.
Proof. intros Hn. unfold sm, sp, phi. rewrite IZR_m. f_equal. assert (0 < INR n) by (apply lt_0_INR; lia). field. lra. Qed.
Lemma zm_spec n : (0 < n)%nat -> exists A B,
  map (sm n) (zm n) = A ++ B /\ map (sp n) (seq 0 n) = A ++ (if Nat.odd n then [0] else []) ++ B /\ Forall (fun x => x <> 0) (A ++ B).
Proof.
  intros Hn. assert (Hp : 0 < INR n) by (apply lt_0_INR; lia). pose proof PI_RGT_0 as Pi0.
  assert (Z0 : forall m, (- Z.of_nat n < m < Z.of_nat n)%Z -> m <> 0%Z -> sm n m <> 0).
  { intros m Hm Nm Q. unfold sm in Q.
    assert (R1 : IZR m < INR n) by (rewrite INR_IZR_INZ; apply IZR_lt; lia).
    assert (R2 : - INR n < IZR m) by (rewrite INR_IZR_INZ, <- opp_IZR; apply IZR_lt; lia).
    assert (N : IZR m * (PI / (2 * INR n)) < PI / 2).
    { apply (Rmult_lt_reg_r (2 * INR n)); [lra|]. replace (IZR m * (PI / (2 * INR n)) * (2 * INR n)) with (IZR m * PI) by (field; lra). nra. }
    assert (N2 : - (PI / 2) < IZR m * (PI / (2 * INR n))).
    { apply (Rmult_lt_reg_r (2 * INR n)); [lra|]. replace (IZR m * (PI / (2 * INR n)) * (2 * INR n)) with (IZR m * PI) by (field; lra). nra. }
    destruct (Ztrichotomy m 0) as [L|[L|L]]; [|lia|].
    - assert (X : IZR m <= -1) by (apply (IZR_le m (-1)); lia).
      assert (IZR m * (PI / (2 * INR n)) < 0) by (pose proof (Rdiv_lt_0_compat PI (2 * INR n) Pi0 ltac:(lra)); nra).
      assert (sin (IZR m * (PI / (2 * INR n))) < 0) by (apply sin_lt_0_var; lra). lra.
    - assert (X : 1 <= IZR m) by (apply (IZR_le 1 m); lia).
      assert (0 < IZR m * (PI / (2 * INR n))) by (pose proof (Rdiv_lt_0_compat PI (2 * INR n) Pi0 ltac:(lra)); nra).
      assert (0 < sin (IZR m * (PI / (2 * INR n)))) by (apply sin_gt_0; lra). lra. }
  unfold zm. cbv zeta. destruct (Nat.odd n) eqn:Od.
  - apply Nat.odd_spec in Od. destruct Od as [j Ej].
    exists (map (sm n) (step2 (- Z.of_nat n + 1) 0)), (map (sm n) (step2 2 (Z.of_nat n))).
    split; [apply map_app|].
    assert (L1 : step2 (- Z.of_nat n + 1) 0 = map (fun k => (1 - Z.of_nat n + 2 * Z.of_nat k)%Z) (seq 0 j)).
    { unfold step2. replace (Z.to_nat _) with j; [apply map_ext; intros; lia|].
      replace (0 - (- Z.of_nat n + 1) + 1)%Z with (Z.of_nat j * 2 + 1)%Z by lia.
      rewrite Z.div_add_l by lia. change (1 / 2)%Z with 0%Z. lia. }
    assert (L2 : step2 2 (Z.of_nat n) = map (fun k => (1 - Z.of_nat n + 2 * Z.of_nat k)%Z) (seq (S j) j)).
    { unfold step2. replace (Z.to_nat _) with j.
      - apply (nth_ext _ _ 0%Z 0%Z); [rewrite !map_length, !seq_length; reflexivity|]. rewrite map_length, seq_length. intros k Hk.
        rewrite nth_map_seq' by exact Hk. rewrite (nth_indep _ 0%Z (1 - Z.of_nat n + 2 * Z.of_nat 0)%Z) by (rewrite map_length, seq_length; exact Hk).
        rewrite (map_nth (fun k => (1 - Z.of_nat n + 2 * Z.of_nat k)%Z)), seq_nth by exact Hk. lia.
      - replace (Z.of_nat n - 2 + 1)%Z with (Z.of_nat j * 2)%Z by lia. rewrite Z.div_mul by lia. lia. }
    split.
    + assert (MS : forall l, map (sm n) (map (fun k => (1 - Z.of_nat n + 2 * Z.of_nat k)%Z) l) = map (sp n) l).
      { intros l. rewrite map_map. apply map_ext. intros. apply sm_sp, Hn. }
      rewrite L1, L2, !MS.
      assert (S0 : sp n j = 0).
      { unfold sp, phi. rewrite Ej, plus_INR, mult_INR. change (INR 2) with 2. change (INR 1) with 1.
        replace (PI * (1 - (2 * INR j + 1) + 2 * INR j) / (2 * (2 * INR j + 1))) with 0; [apply sin_0|].
        replace (1 - (2 * INR j + 1) + 2 * INR j) with 0 by ring. unfold Rdiv. ring. }
      replace (seq 0 n) with (seq 0 (j + (1 + j))) by (f_equal; lia). rewrite !seq_app, !map_app. cbn [Nat.add seq map]. rewrite S0.
      replace (j + 1)%nat with (S j) by lia. reflexivity.
    + rewrite <- map_app, L1, L2. apply Forall_forall. intros x Hx. apply in_map_iff in Hx. destruct Hx as [m [<- Hm]].
      apply in_app_iff in Hm. destruct Hm as [Hm|Hm]; apply in_map_iff in Hm; destruct Hm as [k [<- Hk]]; apply in_seq in Hk; apply Z0; lia.
  - exists (map (sm n) (step2 (- Z.of_nat n + 1) (Z.of_nat n))), []. rewrite !app_nil_r. split; [reflexivity|].
    rewrite step2_seq. split.
    + rewrite map_map. apply map_ext. intros k. symmetry. apply sm_sp, Hn.
    + apply Forall_forall. intros x Hx. apply in_map_iff in Hx. destruct Hx as [m [<- Hm]].
      apply in_map_iff in Hm; destruct Hm as [k [<- Hk]]; apply in_seq in Hk.
      assert (Ev : Nat.even n = true) by (rewrite <- Nat.negb_odd, Od; reflexivity). apply Nat.even_spec in Ev. destruct Ev as [j Ej].
      apply Z0; lia.
Qed.

Section Cheb2.
Variables (n : nat) (rs : R).
Hypothesis Hn : (0 < n)%nat.
Hypothesis Hrs : 0 < rs.
Definition eps2 : R := 1 / sqrt (Rpower 10 (1 / 10 * rs) - 1).
Lemma gt2 : 0 < Rpower 10 (rs / 10) - 1.
Proof. pose proof (Rpower_10_gt (rs / 10) ltac:(lra)). lra. Qed.
Lemma eps2_pos : 0 < eps2.
Proof.
  unfold eps2. replace (1 / 10 * rs) with (rs / 10) by field. pose proof gt2.
  apply Rdiv_lt_0_compat; [lra|]. apply sqrt_lt_R0. assumption.
Qed.
Lemma eps2_sq : eps2 * eps2 = 1 / (Rpower 10 (rs / 10) - 1).
Proof.
  unfold eps2. replace (1 / 10 * rs) with (rs / 10) by field. pose proof gt2 as G.
  pose proof (sqrt_sqrt _ (Rlt_le _ _ G)) as S. pose proof (sqrt_lt_R0 _ G).
  transitivity (1 / (sqrt (Rpower 10 (rs / 10) - 1) * sqrt (Rpower 10 (rs / 10) - 1))); [field; lra|]. rewrite S. reflexivity.
Qed.
Notation Q2 := (map (cp n eps2) (seq 0 n)).
Notation P2 := (map (fun r => C1 / r)%C Q2).
Definition xs : list R := map (sm n) (zm n).
Notation Z2 := (map (fun x => ((0, 1 / x) : C)) xs).
Definition k2 : R := cre (hom P2 C0 C1 / hom Z2 C0 C1)%C.
Lemma cheb2ap_eq : @cheb2ap_dyn R RNum RTrans n rs = mkZpk Z2 P2 k2.
Proof.
  unfold cheb2ap_dyn. destruct n as [|m] eqn:En; [lia|]. rewrite <- En in *. cbv zeta. fold (zm n).
  pose proof (INRn n Hn) as Hp.
  assert (EZ : map (fun m0 => cneg (cconj (cdiv (nzero, none) (tsin (nmul (nofZ m0) (ndiv tpi (nmul two (nofZ (Z.of_nat n))))), nzero)))) (zm n) = Z2).
  { unfold xs. rewrite map_map. apply map_ext_in. intros m0 Hm.
    change (cneg (cconj (cdiv (0, 1) (RtoC (sin (IZR m0 * (PI / (2 * IZR (Z.of_nat n)))))))) = ((0, 1 / sm n m0) : C)).
    rewrite <- INR_IZR_INZ. fold (sm n m0).
    assert (Nz : sm n m0 <> 0).
    { destruct (zm_spec n Hn) as [A [B [E1 [_ F]]]]. rewrite <- E1 in F. rewrite Forall_forall in F. apply F, in_map, Hm. }
    apply C_ext; cbn; field; exact Nz. }
  assert (EPl : map (fun x => cdiv cone
      (nmul (tsinh (ndiv (tasinh (ndiv none (ndiv none (nsqrt (nsub (tpowf (nofZ 10) (nmul (ndiv none (nofZ 10)) rs)) none))))) (nofZ (Z.of_nat n))))
         (cre (cneg (cexp (nzero, ndiv (nmul tpi (nofZ x)) (nmul two (nofZ (Z.of_nat n))))))),
       nmul (tcosh (ndiv (tasinh (ndiv none (ndiv none (nsqrt (nsub (tpowf (nofZ 10) (nmul (ndiv none (nofZ 10)) rs)) none))))) (nofZ (Z.of_nat n))))
         (cim (cneg (cexp (nzero, ndiv (nmul tpi (nofZ x)) (nmul two (nofZ (Z.of_nat n)))))))))
      (step2 (- Z.of_nat n + 1) (Z.of_nat n)) = P2).
  { rewrite step2_seq, !map_map. apply map_ext_in. intros k Hk. f_equal.
    change (((sinh (arcsinh (1 / eps2) / IZR (Z.of_nat n)) * cre (cneg (cexp (0, PI * IZR (1 - Z.of_nat n + 2 * Z.of_nat k) / (2 * IZR (Z.of_nat n)))))),
      (cosh (arcsinh (1 / eps2) / IZR (Z.of_nat n)) * cim (cneg (cexp (0, PI * IZR (1 - Z.of_nat n + 2 * Z.of_nat k) / (2 * IZR (Z.of_nat n))))))) = cp n eps2 k).
    rewrite IZR_m, <- INR_IZR_INZ. fold (phi n k). fold (s0 eps2). fold (mu n eps2).
    unfold cp. apply C_ext; cbn; rewrite exp_0; ring. }
  rewrite EZ, EPl, !cprod_cpl, !cpl_map_neg. reflexivity.
Qed.
Lemma Q2_no0 : ~ In C0 Q2.
Proof.
  intros Hin. apply in_map_iff in Hin. destruct Hin as [k [Q Hk]]. apply in_seq in Hk.
  pose proof (cp_stable n eps2 Hn eps2_pos k ltac:(lia)) as S. rewrite Q in S. cbn in S. lra.
Qed.
Lemma P2_stable : Forall (fun p => cre p < 0) P2.
Proof.
  apply (Forall_map_in _ (fun p => cre p < 0)).
  - intros r Hr. apply (inv_stable 1); lra.
  - apply Forall_forall. intros r Hr. apply in_map_iff in Hr. destruct Hr as [k [<- Hk]]. apply in_seq in Hk.
    apply (cp_stable n eps2 Hn eps2_pos). lia.
Qed.
Lemma P2_closed : conj_closed P2.
Proof. apply conj_closed_map; [intros r; apply (inv_conj 1)|apply cp_closed]. Qed.
Lemma xs_nz : Forall (fun x => x <> 0) xs.
Proof. destruct (zm_spec n Hn) as [A [B [E1 [_ F]]]]. unfold xs. rewrite E1. exact F. Qed.
Lemma xs_sym : Permutation (map Ropp xs) xs.
Proof.
  destruct (zm_spec n Hn) as [A [B [E1 [E2 _]]]]. unfold xs. rewrite E1. pose proof (sp_sym n) as Q. rewrite E2 in Q.
  destruct (Nat.odd n); cbn [app] in Q.
  - rewrite map_app in *. cbn [map] in Q. rewrite Ropp_0 in Q. apply Permutation_app_inv in Q. exact Q.
  - exact Q.
Qed.
Lemma Z2_closed : conj_closed Z2.
Proof.
  unfold conj_closed. rewrite map_map.
  rewrite (map_ext _ (fun x => ((0, 1 / - x) : C))).
  - rewrite <- (map_map Ropp (fun x => ((0, 1 / x) : C))). apply Permutation_map, xs_sym.
  - intros x. apply C_ext; cbn; [reflexivity|]. unfold Rdiv. rewrite Rinv_opp. ring.
Qed.
Lemma xs_cheb v : chebT n v = 2 ^ (n - 1) * rprod xs v * v ^ (n - length xs) /\ (length xs <= n)%nat.
Proof.
  rewrite chebT_prod by exact Hn. destruct (zm_spec n Hn) as [A [B [E1 [E2 _]]]]. unfold xs. rewrite E1.
  assert (L : length (map (sp n) (seq 0 n)) = n) by (rewrite map_length, seq_length; reflexivity).
  rewrite E2 in *. rewrite app_length. rewrite !app_length in L. destruct (Nat.odd n); cbn [length] in L; (split; [|lia]).
  - replace (n - (length A + length B))%nat with 1%nat by lia. rewrite !rprod_app. cbn [rprod fold_right pow]. ring.
  - replace (n - (length A + length B))%nat with 0%nat by lia. rewrite !rprod_app. cbn [rprod fold_right pow]. ring.
Qed.
(** the zeros as a product *)
Fixpoint lprod (l : list R) : R := match l with [] => 1 | x :: m => x * lprod m end.
Lemma Z2_norm l w : w <> 0 -> Forall (fun x => x <> 0) l ->
  cnorm_sqr (hom (map (fun x => ((0, 1 / x) : C)) l) (0, w) C1) * (lprod l * lprod l) = (w * w) ^ length l * (rprod l (1 / w) * rprod l (1 / w)).
Proof.
  intros Hw. induction 1 as [|x l Hx Hl IH]; [cbn; ring|]. cbn [map]. rewrite hom_cons, cnorm_sqr_mul.
  cbn [lprod length pow]. change (rprod (x :: l) (1 / w)) with ((1 / w - x) * rprod l (1 / w)).
  assert (Q : cnorm_sqr ((0, w) - C1 * (0, 1 / x)%R)%C = (w * w) * ((1 / w - x) * (1 / w - x)) / (x * x)) by (cbn; field; split; assumption).
  rewrite Q. transitivity ((w * w) * ((1 / w - x) * (1 / w - x)) * (cnorm_sqr (hom (map (fun x => ((0, 1 / x) : C)) l) (0, w) C1) * (lprod l * lprod l))).
  - field. split; assumption.
  - rewrite IH. ring.
Qed.
Lemma Z2_norm0 l : Forall (fun x => x <> 0) l ->
  cnorm_sqr (hom (map (fun x => ((0, 1 / x) : C)) l) C0 C1) * (lprod l * lprod l) = 1.
Proof.
  induction 1 as [|x l Hx Hl IH]; [cbn; ring|]. cbn [map]. rewrite hom_cons, cnorm_sqr_mul. cbn [lprod].
  assert (Q : cnorm_sqr (C0 - C1 * (0, 1 / x)%R)%C = 1 / (x * x)) by (cbn; field; assumption). rewrite Q.
  transitivity (cnorm_sqr (hom (map (fun x => ((0, 1 / x) : C)) l) C0 C1) * (lprod l * lprod l)); [field; assumption|exact IH].
Qed.
Lemma lprod_nz l : Forall (fun x => x <> 0) l -> lprod l <> 0.
Proof. induction 1; cbn [lprod]; [lra|]. apply Rmult_integral_contrapositive. split; assumption. Qed.
Lemma P2_hom a b : hom P2 a b = (hom Q2 b a / hom Q2 C0 C1)%C.
Proof. rewrite inv_hom by exact Q2_no0. f_equal. f_equal. ring. Qed.
Lemma Q2_hom0 : hom Q2 C0 C1 <> C0.
Proof. rewrite hom_1. apply root_product_neq0, Q2_no0. Qed.
Lemma hom_1_0 l : hom l C1 C0 = C1.
Proof. induction l as [|r l IH]; [reflexivity|]. rewrite hom_cons, IH. ring. Qed.
Lemma Z2_0 : hom Z2 C0 C1 <> C0.
Proof. intros Q. pose proof (Z2_norm0 xs xs_nz) as N. rewrite Q in N. cbn in N. lra. Qed.
Lemma k2_RtoC : RtoC k2 = (hom P2 C0 C1 / hom Z2 C0 C1)%C.
Proof. apply real_div; [apply Z2_0|apply (hom_real _ 0 1), P2_closed|apply (hom_real _ 0 1), Z2_closed]. Qed.
Lemma cheb2_dc : H (mkZpk Z2 P2 k2) C0 = C1.
Proof.
  rewrite H_hom. cbn [zk_z zk_p zk_k]. rewrite k2_RtoC. field. split; [apply Z2_0|].
  rewrite P2_hom, hom_1_0. intros Q. pose proof Q2_hom0 as N. apply C10.
  transitivity (C1 / hom Q2 C0 C1 * hom Q2 C0 C1)%C; [field; exact N|]. rewrite Q. ring.
Qed.
Lemma cheb2_mag w : w <> 0 -> cnorm_sqr (H (mkZpk Z2 P2 k2) (0, w)) =
  (chebT n (1 / w) * chebT n (1 / w)) / ((Rpower 10 (rs / 10) - 1) + chebT n (1 / w) * chebT n (1 / w)).
Proof.
  intros Hw. rewrite H_hom. cbn [zk_z zk_p zk_k]. rewrite k2_RtoC, !P2_hom, hom_1_0.
  set (v := 1 / w). assert (Hv : v <> 0) by (unfold v, Rdiv; rewrite Rmult_1_l; apply Rinv_neq_0_compat, Hw).
  (* hom Q2 1 (iw) = (iw)^n hom Q2 (-iv) 1 *)
  assert (HQ : hom Q2 C1 (0, w) = (cpow (0, w) n * hom Q2 (0, (- v)%R) C1)%C).
  { transitivity (hom Q2 ((0, w) * (0, (- v)%R))%C ((0, w) * C1)%C).
    - f_equal; [|cx]. unfold v. apply C_ext; cbn; field; exact Hw.
    - rewrite hom_scale, map_length, seq_length. reflexivity. }
  rewrite HQ. pose proof Q2_hom0 as N0. pose proof Z2_0 as NZ.
  pose proof (hom_cp_neq0 n Hn eps2 (- v) eps2_pos) as Nv.
  assert (Nw : ((0, w) : C) <> C0) by (intros Q; injection Q; intros; contradiction).
  transitivity (cnorm_sqr (hom Z2 (0, w) C1 / (hom Z2 C0 C1 * (cpow (0, w) n * hom Q2 (0, (- v)%R) C1)))%C).
  { f_equal. field. repeat split; try assumption. apply cpow_neq0, Nw. }
  rewrite cnorm_sqr_div by (apply Cmul_neq0; [exact NZ|apply Cmul_neq0; [apply cpow_neq0, Nw|exact Nv]]).
  rewrite !cnorm_sqr_mul, cnorm_sqr_pow. replace (cnorm_sqr ((0, w) : C)) with (w * w) by (cbn; ring).
  (* |hom Q2 (-iv)|^2 = |hom Q2 (iv)|^2 *)
  assert (HN : cnorm_sqr (hom Q2 (0, (- v)%R) C1) = cnorm_sqr (hom Q2 (0, v) C1)).
  { transitivity (cnorm_sqr (cconj (hom Q2 (0, v) C1))).
    - rewrite cconj_hom, cconj_1. rewrite (hom_perm _ Q2 _ _ (cp_closed n eps2)). reflexivity.
    - destruct (hom Q2 (0, v) C1). cbn. ring. }
  apply cnorm_sqr_neq0 in Nv. rewrite HN in *. pose proof (cheb_norm n eps2 Hn eps2_pos v) as CN.
  pose proof (Z2_norm xs w Hw xs_nz) as Z1. pose proof (Z2_norm0 xs xs_nz) as Z0. fold v in Z1.
  destruct (xs_cheb v) as [XC XL].
  apply cnorm_sqr_neq0 in NZ.
  set (a := cnorm_sqr (hom Z2 (0, w) C1)) in *. set (b := cnorm_sqr (hom Z2 C0 C1)) in *. set (d := cnorm_sqr (hom Q2 (0, v) C1)) in *.
  pose proof (lprod_nz xs xs_nz) as Lx. set (e := lprod xs) in *. rewrite eps2_sq in CN. pose proof gt2 as G. set (g := Rpower 10 (rs / 10) - 1) in *.
  set (T := chebT n v) in *. set (r := rprod xs v) in *. set (t := 2 ^ (n - 1)) in *.
  assert (Ht : t <> 0) by (apply pow_nonzero; lra).
  assert (W1 : (w * w) ^ n <> 0) by (apply pow_nonzero; nra).
  (* a / b = w^{2 len} r^2 *)
  assert (Eab : a / b = (w * w) ^ length xs * (r * r)).
  { rewrite <- Z1. apply (Rmult_eq_reg_r b); [|exact NZ]. transitivity (a * (b * (e * e))); [rewrite Z0; field; exact NZ|ring]. }
  assert (EW : (w * w) ^ length xs * (v ^ (n - length xs) * v ^ (n - length xs)) * (w * w) ^ (n - length xs) = (w * w) ^ length xs).
  { rewrite Rmult_assoc, <- !Rpow_mult_distr. replace (v * v * (w * w)) with 1 by (unfold v; field; exact Hw). rewrite pow1. ring. }
  assert (ET : (w * w) ^ length xs * (r * r) * (t * t) = (w * w) ^ n * (T * T)).
  { assert (SP : (w * w) ^ n = (w * w) ^ length xs * (w * w) ^ (n - length xs)) by (rewrite <- pow_add; f_equal; lia).
    rewrite SP, XC. rewrite <- EW at 1. ring. }
  assert (Dt : d * (t * t) = g + T * T).
  { apply (Rmult_eq_reg_r (1 / g)); [|unfold Rdiv; rewrite Rmult_1_l; apply Rinv_neq_0_compat; lra].
    transitivity (1 + 1 / g * (T * T)); [rewrite <- CN; ring|field; lra]. }
  assert (0 < g + T * T) by nra.
  transitivity ((a / b) / ((w * w) ^ n * d)); [field; repeat split; assumption|]. rewrite Eab.
  transitivity ((w * w) ^ length xs * (r * r) * (t * t) / ((w * w) ^ n * (d * (t * t)))); [field; repeat split; assumption|].
  rewrite ET, Dt. field. split; [lra|exact W1].
Qed.
End Cheb2.
