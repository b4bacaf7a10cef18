(** Proofs about the Butterworth and Chebyshev prototypes. *)
From Coq Require Import List Arith ZArith Reals Permutation Lra Lia.
From Verif Require Import Base Num Trans M_Complex M_Design RSum Cx S_Design S_Bessel P_Bessel P_Savgol P_Poly P_Lp P_CPoly.
Import ListNotations.
Local Open Scope R_scope.

Lemma step2_seq n : step2 (- Z.of_nat n + 1) (Z.of_nat n) = map (fun k => (1 - Z.of_nat n + 2 * Z.of_nat k)%Z) (seq 0 n).
Proof.
  unfold step2. replace (Z.to_nat _) with n.
  - apply map_ext. intros k. lia.
  - replace (Z.of_nat n - (- Z.of_nat n + 1) + 1)%Z with (Z.of_nat n * 2)%Z by lia. rewrite Z.div_mul by lia. lia.
Qed.

Definition phi (n k : nat) : R := PI * (1 - INR n + 2 * INR k) / (2 * INR n).
Lemma IZR_m n k : IZR (1 - Z.of_nat n + 2 * Z.of_nat k) = 1 - INR n + 2 * INR k.
Proof. rewrite plus_IZR, minus_IZR, mult_IZR, <- !INR_IZR_INZ. reflexivity. Qed.
Lemma phi_range n k : (k < n)%nat -> - (PI / 2) < phi n k < PI / 2.
Proof.
  intros Hk. assert (Hn : 0 < INR n) by (apply lt_0_INR; lia). pose proof PI_RGT_0.
  assert (K1 : 0 <= INR k) by apply pos_INR. assert (K2 : INR k <= INR n - 1).
  { replace (INR n - 1) with (INR (n - 1)) by (rewrite minus_INR by lia; reflexivity). apply le_INR. lia. }
  unfold phi. split.
  - apply (Rmult_lt_reg_r (2 * INR n)); [lra|]. unfold Rdiv. rewrite Rmult_assoc, Rinv_l by lra. nra.
  - apply (Rmult_lt_reg_r (2 * INR n)); [lra|]. unfold Rdiv. rewrite Rmult_assoc, Rinv_l by lra. nra.
Qed.
Lemma phi_rev n k : (k < n)%nat -> phi n (n - 1 - k) = - phi n k.
Proof.
  intros Hk. assert (Hn : 0 < INR n) by (apply lt_0_INR; lia). unfold phi. rewrite !minus_INR by lia. change (INR 1) with 1. field. lra.
Qed.
Lemma cos_phi n k : (k < n)%nat -> 0 < cos (phi n k).
Proof. intros Hk. destruct (phi_range n k Hk). apply cos_gt_0; lra. Qed.
Lemma phi_inj n i j : (i < n)%nat -> phi n i = phi n j -> i = j.
Proof.
  intros Hi Q. assert (Hn : 0 < INR n) by (apply lt_0_INR; lia). pose proof PI_RGT_0.
  unfold phi in Q. apply INR_eq. apply (f_equal (fun x => x * (2 * INR n) / PI)) in Q.
  replace (PI * (1 - INR n + 2 * INR i) / (2 * INR n) * (2 * INR n) / PI) with (1 - INR n + 2 * INR i) in Q by (field; lra).
  replace (PI * (1 - INR n + 2 * INR j) / (2 * INR n) * (2 * INR n) / PI) with (1 - INR n + 2 * INR j) in Q by (field; lra). lra.
Qed.
Lemma sin_phi_inj n i j : (i < n)%nat -> (j < n)%nat -> sin (phi n i) = sin (phi n j) -> i = j.
Proof.
  intros Hi Hj Q. apply (phi_inj n); [exact Hi|]. destruct (phi_range n i Hi), (phi_range n j Hj).
  destruct (Rtotal_order (phi n i) (phi n j)) as [L|[L|L]]; [|exact L|].
  - exfalso. assert (sin (phi n i) < sin (phi n j)) by (apply sin_increasing_1; lra). lra.
  - exfalso. assert (sin (phi n j) < sin (phi n i)) by (apply sin_increasing_1; lra). lra.
Qed.

(** lists with conj (g k) = g (n-1-k) *)
Lemma conj_closed_sym (g : nat -> C) n : (forall k, (k < n)%nat -> cconj (g k) = g (n - 1 - k)%nat) -> conj_closed (map g (seq 0 n)).
Proof.
  intros Hg. unfold conj_closed. rewrite map_map.
  replace (map (fun k => cconj (g k)) (seq 0 n)) with (rev (map g (seq 0 n))); [symmetry; apply Permutation_rev|].
  apply (nth_ext _ _ C0 C0); [rewrite rev_length, !map_length; reflexivity|]. rewrite rev_length, map_length, seq_length. intros k Hk.
  rewrite rev_nth by (rewrite map_length, seq_length; exact Hk). rewrite map_length, seq_length.
  rewrite !nth_map_seq' by lia. rewrite Hg by exact Hk. f_equal. lia.
Qed.

(** |prod (i a - b p)|^2 = prod (a^2 + b^2 p^2) for conjugate-closed p *)
Lemma cnorm_sqr_conj z : RtoC (cnorm_sqr z) = (z * cconj z)%C.
Proof. destruct z. cx. Qed.
Lemma cnorm_sqr_mul z w : cnorm_sqr (z * w)%C = cnorm_sqr z * cnorm_sqr w.
Proof. destruct z, w. cbn. ring. Qed.
Lemma cnorm_sqr_div z w : w <> C0 -> cnorm_sqr (z / w)%C = cnorm_sqr z / cnorm_sqr w.
Proof. intros Hw. apply cnorm_sqr_pos in Hw. destruct z, w. cbn in *. field. lra. Qed.
Lemma cnorm_sqr_RtoC x : cnorm_sqr (RtoC x) = x * x.
Proof. cbn. ring. Qed.
Lemma cnorm_sqr_pow z n : cnorm_sqr (cpow z n) = cnorm_sqr z ^ n.
Proof. induction n as [|n IH]; [cbn; ring|]. cbn [cpow pow]. rewrite cnorm_sqr_mul, IH. reflexivity. Qed.
Lemma cnorm_sqr_neq0 z : z <> C0 -> cnorm_sqr z <> 0.
Proof. intros Hz. apply cnorm_sqr_pos in Hz. lra. Qed.
Lemma hom_norm l a b : conj_closed l ->
  RtoC (cnorm_sqr (hom l (0, a) (RtoC b))) = hom (map (fun p => p * p)%C l) (RtoC (a * a)) (RtoC (- (b * b))).
Proof.
  intros Hc. rewrite cnorm_sqr_conj, cconj_hom, cconj_RtoC, (hom_perm _ l _ _ Hc). clear Hc.
  induction l as [|p l IH]; [cbn; apply C_ext; cbn; ring|]. cbn [map]. rewrite !hom_cons, <- IH.
  assert (Q : ((0, a) - RtoC b * p)%C = ((0, a) - RtoC b * p)%C /\ ((((0, a) - RtoC b * p) * (cconj (0, a) - RtoC b * p))%C = (RtoC (a * a)%R - RtoC (- (b * b))%R * (p * p))%C)).
  { split; [reflexivity|]. destruct p. cx. }
  rewrite <- (proj2 Q). ring.
Qed.

(** ** Butterworth *)
Definition bp (n k : nat) : C := (- E (phi n k))%C.
Lemma buttap_eq n : @buttap_dyn R RNum RTrans n = mkZpk [] (map (bp n) (seq 0 n)) 1.
Proof.
  unfold buttap_dyn. cbv zeta. rewrite step2_seq, map_map. f_equal. apply map_ext_in. intros k Hk. apply in_seq in Hk.
  unfold bp. f_equal. assert (Hn : 0 < INR n) by (apply lt_0_INR; lia).
  change (cexp (0, PI * IZR (1 - Z.of_nat n + 2 * Z.of_nat k) / IZR (2 * Z.of_nat n)) = E (phi n k)).
  rewrite IZR_m, mult_IZR, <- INR_IZR_INZ. change (PI * (1 - INR n + 2 * INR k) / (2 * INR n)) with (phi n k).
  apply C_ext; cbn; rewrite exp_0; ring.
Qed.
Lemma buttap_closed n : conj_closed (map (bp n) (seq 0 n)).
Proof. apply conj_closed_sym. intros k Hk. unfold bp. rewrite phi_rev by exact Hk. rewrite E_opp, cconj_neg. reflexivity. Qed.
Lemma E_norm a : cnorm_sqr (E a) = 1.
Proof. cbn. pose proof (sin2_cos2 a) as Q. unfold Rsqr in Q. lra. Qed.
Lemma E_pow a n : cpow (E a) n = E (INR n * a).
Proof.
  induction n as [|n IH]; [cbn [cpow INR]; rewrite Rmult_0_l, E_0; reflexivity|].
  cbn [cpow]. rewrite IH, <- E_add. f_equal. rewrite S_INR. ring.
Qed.
Lemma E_PI_Z (k : Z) : Z.Odd k -> E (PI * IZR k) = (- C1)%C.
Proof.
  intros [j ->]. rewrite plus_IZR, mult_IZR. replace (PI * (2 * IZR j + 1)) with (2 * PI * IZR j + PI) by ring.
  rewrite E_add, E_2PI_Z. apply C_ext; cbn; rewrite cos_PI, sin_PI; ring.
Qed.
Lemma bp_sq n k : (k < n)%nat -> (bp n k * bp n k = E (PI * (1 - INR n) / INR n) * W n (Z.of_nat k))%C.
Proof.
  intros Hk. assert (Hn : 0 < INR n) by (apply lt_0_INR; lia). unfold bp, W. transitivity (E (phi n k) * E (phi n k))%C; [ring|].
  rewrite <- !E_add. f_equal. unfold phi. rewrite <- INR_IZR_INZ. field. lra.
Qed.
Lemma butter_hom n a b : cnorm_sqr (hom (map (bp n) (seq 0 n)) (0, a) (RtoC b)) = if (n =? 0)%nat then 1 else (a * a) ^ n + (b * b) ^ n.
Proof.
  destruct (Nat.eqb_spec n 0) as [->|Hn]; [cbn; ring|].
  apply RtoC_inj. rewrite hom_norm by apply buttap_closed. rewrite map_map.
  rewrite (map_ext_in _ (fun k => E (PI * (1 - INR n) / INR n) * W n (Z.of_nat k))%C) by (intros k Hk; apply in_seq in Hk; apply bp_sq; lia).
  rewrite unity_hom by lia. rewrite cpow_mul, E_pow.
  assert (Hp : 0 < INR n) by (apply lt_0_INR; lia).
  replace (INR n * (PI * (1 - INR n) / INR n)) with (PI * IZR (1 - Z.of_nat n)).
  2:{ rewrite minus_IZR, <- INR_IZR_INZ. field. lra. }
  rewrite <- !RtoC_pow, RtoC_add.
  assert (Q : (RtoC ((- (b * b)) ^ n) * E (PI * IZR (1 - Z.of_nat n)) = - RtoC ((b * b) ^ n))%C).
  { destruct (Nat.Even_or_Odd n) as [[m Em]|[m Em]].
    - rewrite E_PI_Z by (exists (- Z.of_nat m)%Z; lia). replace ((- (b * b)) ^ n) with ((b * b) ^ n).
      + ring.
      + rewrite Em, !pow_mult. f_equal. ring.
    - replace (E (PI * IZR (1 - Z.of_nat n))) with C1.
      + replace ((- (b * b)) ^ n) with (- (b * b) ^ n).
        * rewrite RtoC_opp. ring.
        * rewrite Em, !pow_add, !pow_mult. replace ((- (b * b)) ^ 2) with ((b * b) ^ 2) by ring. ring.
      + symmetry. rewrite Em. replace (IZR (1 - Z.of_nat (2 * m + 1))) with (2 * IZR (- Z.of_nat m)).
        * rewrite <- (E_2PI_Z (- Z.of_nat m)). f_equal. ring.
        * rewrite <- mult_IZR. f_equal. lia. }
  rewrite Q. ring.
Qed.
Lemma bp_stable n k : (k < n)%nat -> cre (bp n k) < 0.
Proof. intros Hk. cbn. pose proof (cos_phi n k Hk). lra. Qed.

(** ** Chebyshev I: poles -sinh(mu + i phi_k) *)
Section Cheb.
Variables (n : nat) (eps : R).
Hypothesis Hn : (0 < n)%nat.
Hypothesis He : 0 < eps.
Definition s0 : R := arcsinh (1 / eps).
Definition mu : R := s0 / INR n.
Definition cp (k : nat) : C := (- (sinh mu * cos (phi n k)), - (cosh mu * sin (phi n k))).
Lemma INRn : 0 < INR n.
Proof. apply lt_0_INR. exact Hn. Qed.
Lemma sinh_s0 : sinh s0 = 1 / eps.
Proof. apply sinh_arcsinh. Qed.
Lemma s0_pos : 0 < s0.
Proof.
  unfold s0. rewrite <- arcsinh_0. apply arcsinh_lt. apply Rdiv_lt_0_compat; lra.
Qed.
Lemma mu_pos : 0 < mu.
Proof. apply Rdiv_lt_0_compat; [apply s0_pos|apply INRn]. Qed.
Lemma sinh_mu : 0 < sinh mu.
Proof. rewrite <- sinh_0. apply sinh_lt, mu_pos. Qed.
Lemma cosh_mu : 0 < cosh mu.
Proof. unfold cosh. pose proof (exp_pos mu). pose proof (exp_pos (- mu)). lra. Qed.
Lemma cp_stable k : (k < n)%nat -> cre (cp k) < 0.
Proof. intros Hk. cbn. pose proof (cos_phi n k Hk). pose proof sinh_mu. nra. Qed.
Lemma cp_closed : conj_closed (map cp (seq 0 n)).
Proof. apply conj_closed_sym. intros k Hk. unfold cp. rewrite phi_rev by exact Hk. rewrite cos_neg, sin_neg. apply C_ext; cbn; ring. Qed.
Lemma cp_inj i j : (i < n)%nat -> (j < n)%nat -> cp i = cp j -> i = j.
Proof.
  intros Hi Hj Q. apply (f_equal snd) in Q. cbn in Q. apply (sin_phi_inj n); try assumption. pose proof cosh_mu.
  apply (Rmult_eq_reg_l (cosh mu)); lra.
Qed.
(** i cp_k = (q + 1/q)/2 *)
Definition q (k : nat) : C := (RtoC (exp (- mu)) * E (PI / 2 - phi n k))%C.
Lemma q_neq0 k : q k <> C0.
Proof.
  apply Cmul_neq0; [apply RtoC_neq0; pose proof (exp_pos (- mu)); lra|].
  intros Q. pose proof (E_norm (PI / 2 - phi n k)) as Q1. rewrite Q in Q1. cbn in Q1. lra.
Qed.
Lemma cp_q k : (Ci * cp k = (q k + C1 / q k) / (C1 + C1))%C.
Proof.
  assert (I : (C1 / q k = RtoC (exp mu) * E (- (PI / 2 - phi n k)))%C).
  { apply (Cmul_cancel (q k)); [apply q_neq0|]. transitivity (C1 * C1)%C; [field; apply q_neq0|]. unfold q.
    transitivity ((RtoC (exp (- mu)) * RtoC (exp mu)) * (E (PI / 2 - phi n k) * E (- (PI / 2 - phi n k))))%C; [|ring].
    rewrite <- RtoC_mul, <- E_add, <- exp_plus, Rplus_opp_r. replace (- mu + mu) with 0 by ring. rewrite exp_0, E_0. change (RtoC 1) with C1. ring. }
  rewrite I. unfold q. rewrite E_opp. unfold E. rewrite cos_shift, sin_shift.
  replace (C1 + C1)%C with (RtoC 2) by cx. unfold cp, sinh, cosh, Ci.
  apply C_ext; cbn; field.
Qed.
Lemma q_pow k : (k < n)%nat -> cpow (q k) (2 * n) = (- RtoC (exp (- (2 * s0))))%C.
Proof.
  intros Hk. unfold q. rewrite cpow_mul, E_pow, <- RtoC_pow.
  replace (exp (- mu) ^ (2 * n)) with (exp (- (2 * s0))).
  - replace (INR (2 * n) * (PI / 2 - phi n k)) with (PI * IZR (2 * Z.of_nat n - 1 - 2 * Z.of_nat k)).
    + rewrite E_PI_Z; [ring|]. exists (Z.of_nat n - 1 - Z.of_nat k)%Z. lia.
    + rewrite !minus_IZR, !mult_IZR, <- !INR_IZR_INZ, mult_INR. change (INR 2) with 2. unfold phi. pose proof INRn. field. lra.
  - pose proof INRn. transitivity (exp (INR (2 * n) * - mu)).
    + f_equal. rewrite mult_INR. change (INR 2) with 2. unfold mu. field. lra.
    + generalize (2 * n)%nat as m. induction m as [|m IH]; [cbn [pow INR]; rewrite Rmult_0_l; apply exp_0|].
      cbn [pow]. rewrite <- IH, <- exp_plus. f_equal. rewrite S_INR. ring.
Qed.
Lemma cT_sq_root r Q : Q <> C0 -> r = ((Q + C1 / Q) / (C1 + C1))%C -> cpow Q (2 * n) = (- RtoC (exp (- (2 * s0))))%C ->
  (cT n r * cT n r = - RtoC (1 / (eps * eps))%R)%C.
Proof.
  intros HQ -> P. rewrite cT_joukowski by exact HQ. pose proof (cpow_neq0 Q n HQ) as HQn. pose proof Ctwo_neq0 as H2.
  set (A := cpow Q n) in *. assert (P2 : (A * A = - RtoC (exp (- (2 * s0))))%C).
  { rewrite <- P. unfold A. rewrite <- cpow_add. f_equal. lia. }
  assert (P3 : (C1 / (A * A) = - RtoC (exp (2 * s0)))%C).
  { apply (Cmul_cancel (A * A)%C); [apply Cmul_neq0; assumption|]. transitivity (C1 * C1)%C; [field; exact HQn|]. rewrite P2.
    transitivity (RtoC (exp (- (2 * s0))) * RtoC (exp (2 * s0)))%C; [|ring]. rewrite <- RtoC_mul, <- exp_plus.
    replace (- (2 * s0) + 2 * s0) with 0 by ring. rewrite exp_0. cx. }
  transitivity ((A * A + (C1 + C1) + C1 / (A * A)) / ((C1 + C1) * (C1 + C1)))%C; [clear - HQn H2; clearbody A; field; repeat split; first [assumption|intros Z; apply (f_equal fst) in Z; cbn in Z; lra]|].
  rewrite P3, P2. pose proof sinh_s0 as Sh. unfold sinh in Sh.
  replace (C1 + C1)%C with (RtoC 2) by cx.
  rewrite <- !RtoC_opp, <- !RtoC_add, <- RtoC_mul, <- RtoC_div by lra. f_equal.
  replace (exp (2 * s0)) with (exp s0 * exp s0) by (rewrite <- exp_plus; f_equal; ring).
  replace (exp (- (2 * s0))) with (exp (- s0) * exp (- s0)) by (rewrite <- exp_plus; f_equal; ring).
  assert (X : exp s0 * exp (- s0) = 1) by (rewrite <- exp_plus, Rplus_opp_r; apply exp_0).
  replace (1 / (eps * eps)) with ((1 / eps) * (1 / eps)) by (field; lra). rewrite <- Sh. lra.
Qed.

(** 1 + eps^2 T_n(x)^2 as a product over the poles *)
Definition croots : list C := map (fun k => Ci * cp k)%C (seq 0 n) ++ map (fun k => - (Ci * cp k))%C (seq 0 n).

Lemma NoDup_app2 {A} (l m : list A) : NoDup l -> NoDup m -> (forall x, In x l -> ~ In x m) -> NoDup (l ++ m).
Proof.
  induction 1 as [|a l Ha Hl IH]; intros Hm Hd; [exact Hm|]. cbn [app]. constructor.
  - intros Hin. apply in_app_iff in Hin. destruct Hin as [Hin|Hin]; [contradiction|]. apply (Hd a); [left; reflexivity|exact Hin].
  - apply IH; [exact Hm|]. intros x Hx. apply Hd. right. exact Hx.
Qed.
Lemma cp_NoDup : NoDup (map cp (seq 0 n)).
Proof. apply NoDup_map_on; [apply seq_NoDup|]. intros i j Hi Hj. apply in_seq in Hi, Hj. apply cp_inj; lia. Qed.
Lemma croots_NoDup : NoDup croots.
Proof.
  unfold croots. rewrite <- (map_map cp (cmul Ci)), <- (map_map cp (fun z => - (Ci * z))%C).
  assert (Hi : Ci <> C0) by (intros Q1; apply (f_equal snd) in Q1; cbn in Q1; lra).
  apply NoDup_app2.
  - apply NoDup_map_on; [apply cp_NoDup|]. intros a b _ _ Q. apply (Cmul_cancel Ci); assumption.
  - apply NoDup_map_on; [apply cp_NoDup|]. intros a b _ _ Q. apply (Cmul_cancel Ci); [assumption|].
    transitivity (- - (Ci * a))%C; [ring|]. rewrite Q. ring.
  - intros x Hx Hy. apply in_map_iff in Hx, Hy. destruct Hx as [a [<- Ha]], Hy as [b [Eb Hb]].
    apply in_map_iff in Ha, Hb. destruct Ha as [i [<- Hi']], Hb as [j [<- Hj']]. apply in_seq in Hi', Hj'.
    pose proof (cp_stable i ltac:(lia)) as S1. pose proof (cp_stable j ltac:(lia)) as S2.
    apply (f_equal snd) in Eb. destruct (cp i), (cp j). cbn in *. lra.
Qed.
Lemma ripple_poly x : (C1 + RtoC (eps * eps)%R * (cT n x * cT n x) =
  RtoC (eps * eps * (2 ^ (n - 1) * 2 ^ (n - 1)))%R * root_product croots x)%C.
Proof.
  refine (roots_product (2 * n) _ (fun x => C1 + RtoC (eps * eps)%R * (cT n x * cT n x))%C croots _ croots_NoDup _ _ x).
  - apply (lead_ext _ _ _ (fun x => RtoC (eps * eps)%R * (cT n x * cT n x) + C1)%C); [intros; ring|].
    apply lead_add; [|apply deglt_const; lia]. rewrite !RtoC_mul. rewrite <- RtoC_mul. apply lead_scale.
    replace (2 * n)%nat with (n + n)%nat by lia.
    assert (L : lead n (RtoC (2 ^ (n - 1))) (cT n)).
    { pose proof (cT_lead (n - 1)) as L. replace (S (n - 1)) with n in L by lia. exact L. }
    apply lead_mul; exact L.
  - unfold croots. rewrite app_length, !map_length, seq_length. lia.
  - intros r Hr. assert (Q : (cT n r * cT n r = - RtoC (1 / (eps * eps))%R)%C).
    { apply in_app_iff in Hr. destruct Hr as [Hr|Hr]; apply in_map_iff in Hr; destruct Hr as [k [<- Hk]]; apply in_seq in Hk.
      - apply (cT_sq_root _ (q k)); [apply q_neq0|apply cp_q|apply q_pow; lia].
      - apply (cT_sq_root _ (- q k)%C).
        + intros Q. apply (q_neq0 k). transitivity (- - q k)%C; [ring|]. rewrite Q. ring.
        + rewrite cp_q. pose proof (q_neq0 k). pose proof Ctwo_neq0. field. repeat split; try assumption.
          intros Q. apply (q_neq0 k). transitivity (- - q k)%C; [ring|]. rewrite Q. ring.
        + rewrite <- (q_pow k) by lia. replace (- q k)%C with ((- C1) * q k)%C by ring. rewrite cpow_mul.
          replace (cpow (- C1)%C (2 * n)) with C1; [ring|]. symmetry. clear.
          replace (2 * n)%nat with (n + n)%nat by lia. rewrite cpow_add, <- cpow_mul.
          replace (- C1 * - C1)%C with C1 by ring. induction n as [|m IH]; cbn [cpow]; [reflexivity|]. rewrite IH. ring. }
    rewrite Q, <- RtoC_opp, <- RtoC_mul. change C1 with (RtoC 1). rewrite <- RtoC_add.
    replace (1 + eps * eps * - (1 / (eps * eps))) with 0 by (field; lra). reflexivity.
Qed.
Lemma croots_prod x : root_product croots x = hom (map (fun p => p * p)%C (map cp (seq 0 n))) (x * x)%C (- C1)%C.
Proof.
  unfold croots. rewrite <- hom_1, hom_app. generalize (seq 0 n). induction l as [|k l IH]; [cbn; apply C_ext; cbn; ring|].
  cbn [map]. rewrite !hom_cons, <- IH.
  assert (Q : ((x - C1 * (Ci * cp k)) * (x - C1 * - (Ci * cp k)) = x * x - - C1 * (cp k * cp k))%C) by (destruct (cp k), x; cx).
  rewrite <- Q. ring.
Qed.
(** |prod (i w - p_k)|^2 * eps^2 4^(n-1) = 1 + eps^2 T_n(w)^2 *)
Lemma cheb_norm w : cnorm_sqr (hom (map cp (seq 0 n)) (0, w) C1) * (eps * eps * (2 ^ (n - 1) * 2 ^ (n - 1)))
  = 1 + eps * eps * (chebT n w * chebT n w).
Proof.
  apply RtoC_inj. rewrite RtoC_mul. change C1 with (RtoC 1) at 1. rewrite hom_norm by apply cp_closed.
  rewrite Rmult_1_l. pose proof (ripple_poly (RtoC w)) as Q. rewrite croots_prod, cT_real in Q.
  rewrite (RtoC_opp 1), (RtoC_mul w w). change (RtoC 1) with C1.
  rewrite RtoC_add, (RtoC_mul (eps * eps) (chebT n w * chebT n w)), (RtoC_mul (chebT n w)). change (RtoC 1) with C1. rewrite Q. ring.
Qed.
End Cheb.
