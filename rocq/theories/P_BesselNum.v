(** Certified numerics for the Bessel tables: the integer polynomials behind the
    tables, the truncated power series of e^{-x} I0(x), and a reference polynomial
    for x > 8 (a certificate: nothing is assumed about it, its residual in the
    differential equation is computed). *)
From Coq Require Import List Arith ZArith QArith Qreals Reals Lra Lia.
From Coquelicot Require Import Coquelicot.
From Verif Require Import Base Num Trans M_Bessel S_Bessel P_Bessel P_ZPoly P_BesselI0.
Import ListNotations.
Local Open Scope R_scope.

(** ** Tail of the power series. *)
Lemma tail_bound (b : nat -> R) N B : ex_series b -> (0 < N)%nat ->
  (forall k, Rabs (b (N + k)%nat) <= B * (1 / 2) ^ k) ->
  Rabs (Series b - sum_f_R0 b (pred N)) <= 2 * B.
Proof.
  intros Ex HN Hb. rewrite (Series_incr_n b N HN Ex).
  replace (sum_f_R0 b (pred N) + Series (fun k => b (N + k)%nat) - sum_f_R0 b (pred N))
    with (Series (fun k => b (N + k)%nat)) by ring.
  assert (G : is_series (fun k => B * (1 / 2) ^ k) (2 * B)).
  { replace (2 * B) with (scal B (/ (1 - 1 / 2))) by (unfold scal; cbn; unfold mult; cbn; field).
    apply (is_series_scal_l B (fun k => (1 / 2) ^ k)). apply is_series_geom. rewrite Rabs_pos_eq; lra. }
  assert (A : ex_series (fun k => Rabs (b (N + k)%nat))).
  { apply (@ex_series_le R_AbsRing R_CompleteNormedModule _ (fun k => B * (1 / 2) ^ k)); [|exists (2 * B); exact G].
    intros k. unfold norm. cbn. unfold abs. cbn. rewrite Rabs_Rabsolu. apply Hb. }
  eapply Rle_trans; [apply Series_Rabs, A|]. rewrite <- (is_series_unique _ _ G).
  apply Series_le; [|exists (2 * B); exact G]. intros k. split; [apply Rabs_pos|apply Hb].
Qed.
Lemma PS_series a x : Rbar_lt (Rabs x) (CV_radius a) -> ex_series (fun k => a k * x ^ k).
Proof.
  intros Q. destruct (CV_radius_inside _ _ Q) as [l Hl]. exists l.
  apply (is_series_ext (fun k => scal (pow_n x k) (a k))); [|exact Hl].
  intros n. rewrite pow_n_pow. apply Rmult_comm.
Qed.
Lemma ratio_small n x : (31 <= n)%nat -> 0 <= x <= 8 -> Rabs (rr n) * x <= 1 / 2.
Proof.
  intros Hn Hx. pose proof (rr_abs n) as A. apply le_INR in Hn. change 31%nat with (Z.to_nat 31) in Hn.
  rewrite INR_IZR_INZ, Z2Nat.id in Hn by lia.
  assert (B : 2 / (INR n + 1) <= 1 / 16).
  { apply (Rmult_le_reg_r (INR n + 1)); [lra|]. unfold Rdiv. rewrite Rmult_assoc, Rinv_l; lra. }
  pose proof (Rabs_pos (rr n)). nra.
Qed.
Lemma pow8 x n : 0 <= x <= 8 -> 0 <= x ^ n <= 8 ^ n.
Proof. intros Hx. split; [apply pow_le; lra|]. apply pow_incr. lra. Qed.
Lemma ff_tail x N : 0 <= x <= 8 -> (31 <= N)%nat ->
  Rabs (ff x - sum_f_R0 (fun k => ac k * x ^ k) (pred N)) <= 2 * (Rabs (ac N) * 8 ^ N).
Proof.
  intros Hx HN. unfold ff, PSeries. apply tail_bound; [apply PS_series, ac_in|lia|].
  induction k as [|k IH].
  - rewrite Nat.add_0_r, Rabs_mult. cbn [pow]. rewrite Rmult_1_r.
    destruct (pow8 x N Hx). rewrite (Rabs_pos_eq (x ^ N)) by assumption.
    apply Rmult_le_compat_l; [apply Rabs_pos|assumption].
  - replace (N + S k)%nat with (S (N + k)) by lia. cbn [ac pow].
    replace (rr (N + k) * ac (N + k) * (x * x ^ (N + k))) with ((rr (N + k) * x) * (ac (N + k) * x ^ (N + k))) by ring.
    rewrite Rabs_mult, Rabs_mult, (Rabs_pos_eq x) by lra.
    pose proof (ratio_small (N + k) x ltac:(lia) Hx). pose proof (Rabs_pos (ac (N + k) * x ^ (N + k))).
    pose proof (Rabs_pos (rr (N + k))).
    replace (Rabs (ac N) * 8 ^ N * (1 / 2 * (1 / 2) ^ k)) with (1 / 2 * (Rabs (ac N) * 8 ^ N * (1 / 2) ^ k)) by ring.
    apply Rmult_le_compat; try assumption. apply Rmult_le_pos; [assumption|lra].
Qed.
Lemma ff1_tail x N : 0 <= x <= 8 -> (31 <= N)%nat ->
  Rabs (ff1 x - sum_f_R0 (fun k => PS_derive ac k * x ^ k) (pred N)) <= 2 * (Rabs (PS_derive ac N) * 8 ^ N).
Proof.
  intros Hx HN. unfold ff1, PSeries. apply tail_bound; [apply PS_series, ac1_in|lia|].
  induction k as [|k IH].
  - rewrite Nat.add_0_r, Rabs_mult. cbn [pow]. rewrite Rmult_1_r.
    destruct (pow8 x N Hx). rewrite (Rabs_pos_eq (x ^ N)) by assumption.
    apply Rmult_le_compat_l; [apply Rabs_pos|assumption].
  - replace (N + S k)%nat with (S (N + k)) by lia. unfold PS_derive in *. set (n := (N + k)%nat) in *.
    change (ac (S (S n))) with (rr (S n) * ac (S n)).
    pose proof (pos_INR n) as Pn. pose proof (S_INR n) as Sn. pose proof (S_INR (S n)) as SSn.
    cbn [pow].
    replace (INR (S (S n)) * (rr (S n) * ac (S n)) * (x * x ^ n)) with
      ((INR (S (S n)) / INR (S n) * rr (S n) * x) * (INR (S n) * ac (S n) * x ^ n)) by (field; lra).
    rewrite Rabs_mult.
    replace (Rabs (INR (S N) * ac (S N)) * 8 ^ N * (1 / 2 * (1 / 2) ^ k)) with (1 / 2 * (Rabs (INR (S N) * ac (S N)) * 8 ^ N * (1 / 2) ^ k)) by ring.
    apply Rmult_le_compat; try assumption; try apply Rabs_pos.
    rewrite !Rabs_mult, (Rabs_pos_eq x) by lra.
    rewrite Rabs_pos_eq by (apply Rlt_le, Rdiv_lt_0_compat; lra).
    pose proof (rr_abs (S n)) as A. rewrite <- SSn in A.
    assert (Hn : 31 <= INR n).
    { assert (Q : (31 <= n)%nat) by lia. apply le_INR in Q. rewrite (INR_IZR_INZ 31) in Q. exact Q. }
    assert (B : INR (S (S n)) / INR (S n) * Rabs (rr (S n)) <= 2 / INR (S n)).
    { eapply Rle_trans; [apply Rmult_le_compat_l; [apply Rlt_le, Rdiv_lt_0_compat; lra|exact A]|].
      right. field. lra. }
    assert (C : 2 / INR (S n) <= 1 / 16).
    { apply (Rmult_le_reg_r (INR (S n))); [lra|]. unfold Rdiv. rewrite Rmult_assoc, Rinv_l; lra. }
    assert (P : 0 <= INR (S (S n)) / INR (S n) * Rabs (rr (S n))).
    { apply Rmult_le_pos; [apply Rlt_le, Rdiv_lt_0_compat; lra|apply Rabs_pos]. }
    nra.
Qed.

(** |a_n| as a quotient of integers. *)
Fixpoint az (n : nat) : Z * Z :=
  match n with
  | O => (1, 1)%Z
  | S m => let '(p, q) := az m in let k := Z.of_nat m in ((2 * k + 1) * p, (k + 1) ^ 2 * q)%Z
  end.
Lemma az_ok n : Rabs (ac n) = IZR (fst (az n)) / IZR (snd (az n)) /\ (0 < snd (az n))%Z.
Proof.
  induction n as [|n [IH P]]; [cbn; rewrite Rabs_R1; split; [field|lia]|].
  cbn [az ac]. destruct (az n) as [p q]. cbn [fst snd] in *. split; [|nia].
  rewrite Rabs_mult, IH, Rabs_left by apply rr_neg. unfold rr.
  replace ((Z.of_nat n + 1) ^ 2)%Z with ((Z.of_nat n + 1) * (Z.of_nat n + 1))%Z by ring.
  rewrite !mult_IZR, !plus_IZR, mult_IZR, <- INR_IZR_INZ. apply IZR_lt in P. pose proof (pos_INR n).
  field. lra.
Qed.
Lemma a91_z : (fst (az 91) * 8 ^ Z.of_nat 91 * 10 ^ Z.of_nat 31 <= snd (az 91))%Z.
Proof. vm_compute. discriminate. Qed.
Lemma quot_small (p q : Z) n m : (0 < q)%Z -> (p * 8 ^ Z.of_nat n * 10 ^ Z.of_nat m <= q)%Z ->
  IZR p / IZR q * 8 ^ n <= / 10 ^ m.
Proof.
  intros P E. apply IZR_le in E. apply IZR_lt in P. rewrite !mult_IZR, <- !pow_IZR in E.
  assert (T : 0 < 10 ^ m) by (apply pow_lt; lra).
  apply (Rmult_le_reg_r (IZR q * 10 ^ m)); [nra|].
  replace (IZR p / IZR q * 8 ^ n * (IZR q * 10 ^ m)) with (IZR p * 8 ^ n * 10 ^ m) by (field; lra).
  replace (/ 10 ^ m * (IZR q * 10 ^ m)) with (IZR q) by (field; lra). exact E.
Qed.
Lemma a91_small : Rabs (ac 91) * 8 ^ 91 <= / 10 ^ 31.
Proof. rewrite (proj1 (az_ok 91)). apply quot_small; [apply az_ok|exact a91_z]. Qed.

(** ** The truncated series as an integer polynomial in t = x / 4. *)
Fixpoint ptail (n k : nat) (x : R) : R :=
  match k with O => 1 | S k' => 1 + rr n * x * ptail (S n) k' x end.
Lemma ptail_sum n k x : ac n * x ^ n * ptail n k x = sum_f_R0 (fun j => ac (n + j) * x ^ (n + j)) k.
Proof.
  revert n. induction k as [|k IH]; intros n.
  - cbn. rewrite Nat.add_0_r. ring.
  - rewrite (decomp_sum _ (S k)) by lia. cbn [pred ptail]. rewrite Nat.add_0_r.
    replace (sum_f_R0 (fun i => ac (n + S i) * x ^ (n + S i)) k) with
      (sum_f_R0 (fun j => ac (S n + j) * x ^ (S n + j)) k)
      by (apply sum_eq; intros i _; replace (n + S i)%nat with (S n + i)%nat by lia; reflexivity).
    rewrite <- IH. cbn [ac pow]. ring.
Qed.
Lemma ptail0 k x : ptail 0 k x = sum_f_R0 (fun j => ac j * x ^ j) k.
Proof. pose proof (ptail_sum 0 k x) as P. cbn [ac pow Nat.add] in P. rewrite <- P. ring. Qed.
Fixpoint fl (k : nat) (n : Z) : Z * list Z :=
  match k with
  | O => (1, [1])%Z
  | S k' => let '(D, l) := fl k' (n + 1)%Z in
            let D' := ((n + 1) * (n + 1) * D)%Z in (D', D' :: zscal (- (4 * (2 * n + 1))) l)
  end.
Lemma fl_ok k n t :
  zeval (snd (fl k (Z.of_nat n))) t = IZR (fst (fl k (Z.of_nat n))) * ptail n k (4 * t) /\
  (0 < fst (fl k (Z.of_nat n)))%Z.
Proof.
  revert n. induction k as [|k IH]; intros n; [cbn; split; [ring|lia]|].
  cbn [fl]. specialize (IH (S n)). rewrite Nat2Z.inj_succ in IH. unfold Z.succ in IH.
  destruct (fl k (Z.of_nat n + 1)) as [D l]. cbn [fst snd] in *. destruct IH as [E P]. split; [|nia].
  cbn [zeval ptail]. rewrite zeval_scal, E, opp_IZR, !mult_IZR, !plus_IZR, mult_IZR, <- INR_IZR_INZ.
  unfold rr. pose proof (pos_INR n). field. lra.
Qed.
Definition FZ : Z * list Z := Eval vm_compute in fl 90 0.
Lemma FZ_eq : FZ = fl 90 (Z.of_nat 0).
Proof. vm_compute. reflexivity. Qed.
Lemma FZ_ok t : zeval (snd FZ) t / IZR (fst FZ) = sum_f_R0 (fun j => ac j * (4 * t) ^ j) 90.
Proof.
  rewrite <- ptail0. rewrite FZ_eq. destruct (fl_ok 90 0 t) as [-> P].
  apply IZR_lt in P. field. lra.
Qed.
Lemma FZ_pos : (0 < fst FZ)%Z.
Proof. reflexivity. Qed.
Lemma psum_derive (a : nat -> R) N x :
  is_derive (fun x => sum_f_R0 (fun j => a j * x ^ j) (S N)) x (sum_f_R0 (fun j => PS_derive a j * x ^ j) N).
Proof.
  induction N as [|N IH].
  - cbn. unfold PS_derive. auto_derive; [exact I|]. cbn. ring.
  - apply (is_derive_ext (fun x => plus (sum_f_R0 (fun j => a j * x ^ j) (S N)) (a (S (S N)) * x ^ (S (S N)))));
      [intros y; reflexivity|].
    change (sum_f_R0 (fun j => PS_derive a j * x ^ j) (S N)) with
      (plus (sum_f_R0 (fun j => PS_derive a j * x ^ j) N) (PS_derive a (S N) * x ^ S N)).
    apply (is_derive_plus (V := R_NormedModule)); [exact IH|].
    replace (PS_derive a (S N) * x ^ S N) with (a (S (S N)) * (INR (S (S N)) * x ^ pred (S (S N)))) by (unfold PS_derive; cbn [pred]; ring).
    apply is_derive_scal. apply is_derive_Reals, derivable_pt_lim_pow.
Qed.
Lemma FZ1_ok t : zeval (zderiv (snd FZ)) t / IZR (fst FZ) = 4 * sum_f_R0 (fun j => PS_derive ac j * (4 * t) ^ j) 89.
Proof.
  assert (A : is_derive (fun t => zeval (snd FZ) t / IZR (fst FZ)) t (zeval (zderiv (snd FZ)) t / IZR (fst FZ))).
  { apply (is_derive_ext (fun t => / IZR (fst FZ) * zeval (snd FZ) t)); [intros y; unfold Rdiv; apply Rmult_comm|].
    unfold Rdiv. rewrite (Rmult_comm (zeval _ t)). apply is_derive_scal. apply is_derive_Reals, zeval_deriv. }
  assert (B : is_derive (fun t => zeval (snd FZ) t / IZR (fst FZ)) t
    (4 * sum_f_R0 (fun j => PS_derive ac j * (4 * t) ^ j) 89)).
  { apply (is_derive_ext (fun t => sum_f_R0 (fun j => ac j * (4 * t) ^ j) 90)); [intros y; symmetry; apply FZ_ok|].
    apply (is_derive_comp (fun x => sum_f_R0 (fun j => ac j * x ^ j) 90) (fun t => 4 * t)); [apply psum_derive|].
    auto_derive; [exact I|ring]. }
  apply is_derive_unique in A, B. rewrite A in B. exact B.
Qed.

(** ** The tables as integer polynomials in t, the argument being 2 (t - 1). *)
Definition zchb_step (acc : list Z * list Z * list Z) (e : Z) : list Z * list Z * list Z :=
  let '(b0, b1, b2) := acc in (zadd (zsub (zsub (0%Z :: zscal 2 b0) (zscal 2 b0)) b1) [e], b0, b1).
Definition zchb (l : list Z) : list Z :=
  match l with
  | [] => []
  | c0 :: _ => let '(b0, _, b2) := fold_left zchb_step l ([c0], [], []) in zsub b0 b2
  end.
Lemma zchb_ok (s : R) (l : list Z) t : s <> 0 ->
  chbevl (2 * (t - 1)) (map (fun z => IZR z / s) l) = zeval (zchb l) t / (2 * s).
Proof.
  intros Hs. unfold chbevl, zchb. destruct l as [|c l']; [cbn; field; exact Hs|].
  cbn [map]. change (IZR c / s :: map (fun z => IZR z / s) l') with (map (fun z => IZR z / s) (c :: l')).
  set (l := c :: l'). change (@nzero R RNum) with 0.
  assert (G : forall l b0 b1 b2,
    fold_left (chbevl_step (2 * (t - 1))) (map (fun z => IZR z / s) l) (zeval b0 t / s, zeval b1 t / s, zeval b2 t / s) =
    let '(a, b, c) := fold_left zchb_step l (b0, b1, b2) in (zeval a t / s, zeval b t / s, zeval c t / s)).
  { clear -Hs. intros l. induction l as [|e l IH]; intros b0 b1 b2; [reflexivity|].
    cbn [map fold_left]. cbn [chbevl_step zchb_step]. rewrite <- IH. f_equal. f_equal. f_equal.
    cbn [nadd nsub nmul RNum]. rewrite zeval_add, !zeval_sub, zeval_X, zeval_scal. cbn [zeval]. field. exact Hs. }
  specialize (G l [c] [] []). cbn [zeval] in G.
  replace ((IZR c + t * 0) / s) with (IZR c / s) in G by (field; exact Hs).
  replace (0 / s) with 0 in G by (field; exact Hs). rewrite G.
  destruct (fold_left zchb_step l ([c], [], [])) as [[a b] d]. cbn [nsub ndiv nofZ RNum]. rewrite zeval_sub.
  change (IZR 2) with 2. field. exact Hs.
Qed.
Definition e38 : Z := (10 ^ 38)%Z.
Definition tabz (l : list Q) : list Z := map (fun q => Qnum q * (e38 / Zpos (Qden q)))%Z l.
Lemma tabz_ok l : forallb (fun q => Qnum q * e38 =? Qnum q * (e38 / Zpos (Qden q)) * Zpos (Qden q))%Z l = true ->
  map Q2R l = map (fun z => IZR z / IZR e38) (tabz l).
Proof.
  intros E. unfold tabz. rewrite map_map. apply map_ext_in. intros q Hq.
  rewrite forallb_forall in E. specialize (E q Hq). apply Z.eqb_eq, (f_equal IZR) in E.
  rewrite !mult_IZR in E. unfold Q2R. rewrite mult_IZR.
  assert (P1 : IZR e38 <> 0) by (apply not_0_IZR; discriminate).
  assert (P2 : IZR (Zpos (Qden q)) <> 0) by (apply not_0_IZR; discriminate).
  apply (Rmult_eq_reg_r (IZR e38 * IZR (Zpos (Qden q)))); [|apply Rmult_integral_contrapositive_currified; assumption].
  transitivity (IZR (Qnum q) * IZR e38); [field; exact P2|]. rewrite E. field. exact P1.
Qed.
Definition PA : list Z := Eval vm_compute in zchb (tabz I0_A_F64).
Definition PB : list Z := Eval vm_compute in zchb (tabz I0_B_F64).
Lemma PA_eq : PA = zchb (tabz I0_A_F64).
Proof. vm_compute. reflexivity. Qed.
Lemma PA_ok t : chbevl (2 * (t - 1)) (map Q2R I0_A_F64) = zeval PA t / (2 * IZR e38).
Proof.
  rewrite tabz_ok by (vm_compute; reflexivity). rewrite PA_eq.
  apply zchb_ok. apply not_0_IZR. discriminate.
Qed.
Lemma PB_eq : PB = zchb (tabz I0_B_F64).
Proof. vm_compute. reflexivity. Qed.
Lemma PB_ok t : chbevl (2 * (t - 1)) (map Q2R I0_B_F64) = zeval PB t / (2 * IZR e38).
Proof.
  rewrite tabz_ok by (vm_compute; reflexivity). rewrite PB_eq.
  apply zchb_ok. apply not_0_IZR. discriminate.
Qed.

(** ** x in [0, 8]. *)
Definition GA : list Z := zsub (zscal (fst FZ) PA) (zscal (2 * e38) (snd FZ)).
Lemma GA_bound t : 0 <= t <= 2 -> Rabs (zeval GA t) <= IZR (507 * (2 * e38) * fst FZ) / IZR (10 ^ 20).
Proof. intros Ht. apply zbound_ok; [reflexivity|vm_compute; reflexivity|exact Ht]. Qed.
Lemma small_x x : 0 <= x <= 8 -> Rabs (chbevl (x / 2 - 2) (map Q2R I0_A_F64) - ff x) <= 5.08 / 10 ^ 18.
Proof.
  intros Hx. set (t := x / 4). replace (x / 2 - 2) with (2 * (t - 1)) by (unfold t; field).
  rewrite PA_ok. assert (E : 4 * t = x) by (unfold t; field).
  assert (T : Rabs (ff x - sum_f_R0 (fun k => ac k * (4 * t) ^ k) 90) <= 2 * (Rabs (ac 91) * 8 ^ 91))
    by (rewrite E; apply (ff_tail x 91); [exact Hx|lia]).
  rewrite <- FZ_ok in T. pose proof a91_small as S. pose proof (GA_bound t ltac:(unfold t; lra)) as G.
  unfold GA in G. rewrite zeval_sub, !zeval_scal in G. pose proof FZ_pos as P. apply IZR_lt in P.
  assert (P2 : 0 < IZR e38) by (apply IZR_lt; reflexivity).
  rewrite !mult_IZR in G. set (d := IZR (fst FZ)) in *. set (e := IZR e38) in *.
  set (a := zeval PA t) in *. set (f := zeval (snd FZ) t) in *. clearbody d e a f.
  assert (G' : Rabs (a / (2 * e) - f / d) <= 507 / IZR (10 ^ 20)).
  { replace (a / (2 * e) - f / d) with ((d * a - 2 * e * f) / (2 * e * d)) by (field; lra).
    assert (Pd : 0 < 2 * e * d) by nra.
    unfold Rdiv at 1. rewrite Rabs_mult, (Rabs_pos_eq (/ _)) by (left; apply Rinv_0_lt_compat, Pd).
    apply (Rmult_le_reg_r (2 * e * d)); [exact Pd|]. rewrite Rmult_assoc, Rinv_l, Rmult_1_r by lra.
    eapply Rle_trans; [exact G|]. right. unfold Rdiv. ring. }
  replace (a / (2 * e) - ff x) with ((a / (2 * e) - f / d) - (ff x - f / d)) by ring.
  eapply Rle_trans; [apply Rabs_triang|]. rewrite Rabs_Ropp.
  assert (S' : / 10 ^ 31 <= / 10 ^ 24) by (apply Rinv_le_contravar; [apply pow_lt; lra|apply Rle_pow; [lra|lia]]).
  assert (507 / IZR (10 ^ 20) + 2 * / 10 ^ 24 <= 5.08 / 10 ^ 18); [|lra].
  change (10 ^ 20)%Z with 100000000000000000000%Z. simpl. lra.
Qed.

(** ** Values at 8. *)
Definition f8z : Z := 143431781856850310710907437213%Z.
Definition f18z : Z := (-9289288564152132404050636769)%Z.
Lemma ff8 : Rabs (ff 8 - IZR f8z / IZR (10 ^ 30)) <= 2 / 10 ^ 30.
Proof.
  assert (T : Rabs (ff 8 - sum_f_R0 (fun k => ac k * (4 * 2) ^ k) 90) <= 2 * (Rabs (ac 91) * 8 ^ 91))
    by (replace (4 * 2) with 8 by lra; apply (ff_tail 8 91); [lra|lia]).
  rewrite <- FZ_ok in T. pose proof a91_small as S.
  assert (Z : (Z.abs (fold_right (fun x s => x + 2 * s) 0 (snd FZ) * 10 ^ 30 - f8z * fst FZ) <= fst FZ)%Z) by (vm_compute; discriminate).
  assert (Zr : zeval (snd FZ) 2 = IZR (fold_right (fun x s => x + 2 * s)%Z 0%Z (snd FZ))).
  { generalize (snd FZ). intros l. induction l as [|x l IH]; [reflexivity|]. cbn [zeval fold_right]. rewrite IH, plus_IZR, mult_IZR. reflexivity. }
  rewrite Zr in T. set (z := fold_right _ _ _) in *.
  pose proof FZ_pos as P. apply IZR_le in Z. rewrite abs_IZR, minus_IZR, !mult_IZR in Z. apply IZR_lt in P.
  set (d := IZR (fst FZ)) in *. set (v := IZR z) in *. clearbody v d. clear Zr z.
  assert (P3 : 0 < IZR (10 ^ 30)) by (apply IZR_lt; reflexivity).
  assert (E30 : IZR (10 ^ 30) = 10 ^ 30) by (rewrite (pow_IZR 10 30); reflexivity).
  assert (Z' : Rabs (v / d - IZR f8z / IZR (10 ^ 30)) <= 1 / 10 ^ 30).
  { rewrite <- E30. replace (v / d - IZR f8z / IZR (10 ^ 30)) with ((v * IZR (10 ^ 30) - IZR f8z * d) / (d * IZR (10 ^ 30))) by (field; lra).
    assert (Pd : 0 < d * IZR (10 ^ 30)) by nra.
    unfold Rdiv at 1. rewrite Rabs_mult, (Rabs_pos_eq (/ _)) by (left; apply Rinv_0_lt_compat, Pd).
    apply (Rmult_le_reg_r (d * IZR (10 ^ 30))); [exact Pd|]. rewrite Rmult_assoc, Rinv_l, Rmult_1_r by lra.
    eapply Rle_trans; [exact Z|]. right. field. lra. }
  replace (ff 8 - IZR f8z / IZR (10 ^ 30)) with ((ff 8 - v / d) + (v / d - IZR f8z / IZR (10 ^ 30))) by ring.
  eapply Rle_trans; [apply Rabs_triang|].
  assert (/ 10 ^ 31 = / 10 * / 10 ^ 30) by (change 31%nat with (1 + 30)%nat; rewrite pow_add, pow_1; rewrite Rinv_mult; reflexivity).
  assert (0 < / 10 ^ 30) by (apply Rinv_0_lt_compat, pow_lt; lra). lra.
Qed.
Lemma ff18 : Rabs (ff1 8 - IZR f18z / IZR (10 ^ 30)) <= 5 / 10 ^ 30.
Proof.
  pose proof (ff1_tail 8 90 ltac:(lra) ltac:(lia)) as T. cbn [pred] in T.
  pose proof (FZ1_ok 2) as F1. replace (4 * 2) with 8 in F1 by lra.
  pose proof a91_small as S.
  assert (S1 : Rabs (PS_derive ac 90) * 8 ^ 90 <= 12 / 10 ^ 31).
  { unfold PS_derive. rewrite Rabs_mult, (Rabs_pos_eq (INR 91)) by apply pos_INR.
    replace (INR 91) with 91 by (rewrite INR_IZR_INZ; reflexivity).
    change 91%nat with (1 + 90)%nat in S at 2. rewrite pow_add, pow_1 in S.
    set (u := 8 ^ 90) in *. set (a := Rabs (ac 91)) in *. clearbody u a. set (w := / 10 ^ 31) in *.
    assert (0 < w) by (apply Rinv_0_lt_compat, pow_lt; lra). unfold Rdiv. fold w. clearbody w. lra. }
  assert (Z : (Z.abs (fold_right (fun x s => x + 2 * s) 0 (zderiv (snd FZ)) * 10 ^ 30 - 4 * f18z * fst FZ) <= 4 * fst FZ)%Z) by (vm_compute; discriminate).
  assert (Zr : zeval (zderiv (snd FZ)) 2 = IZR (fold_right (fun x s => x + 2 * s)%Z 0%Z (zderiv (snd FZ)))).
  { generalize (zderiv (snd FZ)). intros l. induction l as [|x l IH]; [reflexivity|]. cbn [zeval fold_right]. rewrite IH, plus_IZR, mult_IZR. reflexivity. }
  rewrite Zr in F1. set (z := fold_right _ _ _) in *.
  pose proof FZ_pos as P. apply IZR_le in Z. rewrite abs_IZR, minus_IZR, !mult_IZR in Z. apply IZR_lt in P.
  set (d := IZR (fst FZ)) in *. set (v := IZR z) in *. clearbody v d. clear Zr z.
  set (sm := sum_f_R0 _ _) in *. assert (Es : sm = v / d / 4) by (rewrite F1; field). rewrite Es in T. clearbody sm.
  assert (P3 : 0 < IZR (10 ^ 30)) by (apply IZR_lt; reflexivity).
  assert (E30 : IZR (10 ^ 30) = 10 ^ 30) by (rewrite (pow_IZR 10 30); reflexivity).
  assert (Z' : Rabs (v / d / 4 - IZR f18z / IZR (10 ^ 30)) <= 1 / 10 ^ 30).
  { rewrite <- E30. replace (v / d / 4 - IZR f18z / IZR (10 ^ 30)) with ((v * IZR (10 ^ 30) - 4 * IZR f18z * d) / (4 * d * IZR (10 ^ 30))) by (field; lra).
    assert (Pd : 0 < 4 * d * IZR (10 ^ 30)) by nra.
    unfold Rdiv at 1. rewrite Rabs_mult, (Rabs_pos_eq (/ _)) by (left; apply Rinv_0_lt_compat, Pd).
    apply (Rmult_le_reg_r (4 * d * IZR (10 ^ 30))); [exact Pd|]. rewrite Rmult_assoc, Rinv_l, Rmult_1_r by lra.
    eapply Rle_trans; [exact Z|]. right. field. lra. }
  replace (ff1 8 - IZR f18z / IZR (10 ^ 30)) with ((ff1 8 - v / d / 4) + (v / d / 4 - IZR f18z / IZR (10 ^ 30))) by ring.
  eapply Rle_trans; [apply Rabs_triang|].
  assert (/ 10 ^ 31 = / 10 * / 10 ^ 30) by (change 31%nat with (1 + 30)%nat; rewrite pow_add, pow_1; rewrite Rinv_mult; reflexivity).
  assert (0 < / 10 ^ 30) by (apply Rinv_0_lt_compat, pow_lt; lra). unfold Rdiv in S1. lra.
Qed.

(** ** Reference polynomial for x > 8: coefficients times 10^40, in the layout of the
    tables (with a leading 0, so that the spurious term of [chbevl] vanishes). *)
Definition cert : list Z :=
  [ (0);
    (1788212825485036396);
    (-6528213894681751404);
    (-662791551750162367);
    (37039743412016941169);
    (-32744391359582088739);
    (-160187901333575506934);
    (288603595553739845602);
    (644465986739205751627);
    (-1938426517300496951632);
    (-2488709824801716645367);
    (11936508906090134447794);
    (9921475412619425097299);
    (-72331804878829635334066);
    (-48305044859427038341958);
    (446562142029673390806855);
    (346122286769746608743694);
    (-2827623980516583510237614);
    (-3425485619677219455051811);
    (17725601330565263302823913);
    (38116806693526226201999461);
    (-95548466988283070557338144);
    (-415056934728722216972219326);
    (154008621752140921622960377);
    (3852778382742142660127597152);
    (7180124451383666697161521813);
    (-17941785315068059538508779317);
    (-132158118404477130683933284261);
    (-314991652796324152787165603398);
    (118891471078464299946600008293);
    (4940602388224969324479286846402);
    (33962320257083862805914552784567);
    (226666899049817805156697024871247);
    (2048918589469063739577393584153588);
    (28913705208347564826276173586962786);
    (688975834691682398421748271926432566);
    (33691164782556940898973388107059334528);
    (8044904110141088316078997172138695571374) ]%Z.
Definition e40 : Z := (10 ^ 40)%Z.
Definition PC : list Z := Eval vm_compute in zchb cert.
Definition PC1 : list Z := Eval vm_compute in zderiv PC.
Definition PC2 : list Z := Eval vm_compute in zderiv PC1.
(** 4 (t^2 q'' + (2t - 32) q') + q. *)
Definition RC : list Z := zadd (0%Z :: 0%Z :: zscal 4 PC2) (zadd (0%Z :: zscal 8 PC1) (zadd (zscal (-128) PC1) PC)).
Lemma RC_eval t : zeval RC t = 4 * (t ^ 2 * zeval PC2 t + (2 * t - 32) * zeval PC1 t) + zeval PC t.
Proof. unfold RC. rewrite !zeval_add, !zeval_X, !zeval_scal. ring. Qed.
Lemma RC_bound t : 0 <= t <= 2 -> Rabs (zeval RC t) <= IZR (6 * 8 * e40) / IZR (10 ^ 19).
Proof. intros Ht. apply zbound_ok; [reflexivity|vm_compute; reflexivity|exact Ht]. Qed.
Lemma PCB_bound t : 0 <= t <= 2 -> Rabs (zeval (zsub (zscal 100 PB) PC) t) <= IZR (2 * e40) / IZR (10 ^ 17).
Proof. intros Ht. apply zbound_ok; [reflexivity|vm_compute; reflexivity|exact Ht]. Qed.
(** The polynomial stays above 0.39. *)
Lemma PC_low t : 0 <= t <= 2 -> Rabs (zeval (zsub PC [8 * 10 ^ 39]%Z) t) <= IZR (e40 * 2) / IZR 100.
Proof. intros Ht. apply zbound_ok; [reflexivity|vm_compute; reflexivity|exact Ht]. Qed.
