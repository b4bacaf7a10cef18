(** Sums of binomial coefficients computed by comb. *)
From Coq Require Import List ZArith Bool Lia.
From Verif Require Import Base MachInt M_Special S_Special P_Comb P_SpecialT T_Special T_Combin.
Import ListNotations.
Local Open Scope Z_scope.

(** f 0 + ... + f (n - 1). *)
Fixpoint zsum (n : nat) (f : nat -> Z) : Z := match n with O => 0 | S m => zsum m f + f m end.
Lemma zsum_ext n f g : (forall k, (k < n)%nat -> f k = g k) -> zsum n f = zsum n g.
Proof. induction n as [|n IH]; intros H; [reflexivity|]. cbn [zsum]. rewrite IH by (intros; apply H; lia). rewrite H by lia. reflexivity. Qed.
Lemma zsum_plus n f g : zsum n (fun k => f k + g k) = zsum n f + zsum n g.
Proof. induction n as [|n IH]; [reflexivity|]. cbn [zsum]. rewrite IH. ring. Qed.
Lemma zsum_scale n c f : zsum n (fun k => c * f k) = c * zsum n f.
Proof. induction n as [|n IH]; [cbn; ring|]. cbn [zsum]. rewrite IH. ring. Qed.
Lemma zsum_first n f : zsum (S n) f = f O + zsum n (fun k => f (S k)).
Proof. induction n as [|n IH]; [cbn; ring|]. cbn [zsum] in *. rewrite IH. ring. Qed.

(** [bin] satisfies the binomial theorem. *)
Lemma binomial_bin x y n : zsum (S n) (fun k => bin n k * x ^ Z.of_nat k * y ^ Z.of_nat (n - k)) = (x + y) ^ Z.of_nat n.
Proof.
  induction n as [|n IH]; [cbn; reflexivity|].
  replace (Z.of_nat (S n)) with (Z.succ (Z.of_nat n)) by lia. rewrite Z.pow_succ_r by lia. rewrite <- IH, Z.mul_add_distr_r, <- !zsum_scale.
  rewrite zsum_first. rewrite (zsum_ext (S n) (fun k => bin (S n) (S k) * _ * _) (fun k => x * (bin n k * x ^ Z.of_nat k * y ^ Z.of_nat (n - k)) + bin n (S k) * x ^ Z.of_nat (S k) * y ^ Z.of_nat (n - k))).
  2:{ intros k Hk. rewrite bin_SS. replace (S n - S k)%nat with (n - k)%nat by lia. replace (Z.of_nat (S k)) with (Z.succ (Z.of_nat k)) by lia. rewrite Z.pow_succ_r by lia. ring. }
  rewrite zsum_plus.
  assert (E : bin (S n) 0 * x ^ Z.of_nat 0 * y ^ Z.of_nat (S n - 0) + zsum (S n) (fun k => bin n (S k) * x ^ Z.of_nat (S k) * y ^ Z.of_nat (n - k)) =
              zsum (S n) (fun k => y * (bin n k * x ^ Z.of_nat k * y ^ Z.of_nat (n - k)))); [|lia].
  transitivity (zsum (S (S n)) (fun k => bin n k * x ^ Z.of_nat k * y ^ Z.of_nat (S n - k))).
  - rewrite (zsum_first (S n) (fun k => bin n k * x ^ Z.of_nat k * y ^ Z.of_nat (S n - k))). rewrite !bin_0_r. reflexivity.
  - assert (Q : forall f m, zsum (S m) f = zsum m f + f m) by reflexivity. rewrite (Q _ (S n)). rewrite (bin_gt n (S n)) by lia. match goal with |- ?u + ?v = _ => replace v with 0 by ring end. rewrite Z.add_0_r. apply zsum_ext. intros k Hk.
    replace (Z.of_nat (S n - k)) with (Z.succ (Z.of_nat (n - k))) by lia. rewrite Z.pow_succ_r by lia. ring.
Qed.
Lemma zsum_nonneg n f : (forall k, (k < n)%nat -> 0 <= f k) -> 0 <= zsum n f.
Proof. induction n as [|n IH]; intros H; [cbn; lia|]. cbn [zsum]. pose proof (H n ltac:(lia)). pose proof (IH ltac:(intros; apply H; lia)). lia. Qed.
Lemma zsum_term n f k : (k < n)%nat -> (forall k, (k < n)%nat -> 0 <= f k) -> f k <= zsum n f.
Proof.
  induction n as [|n IH]; intros Hk H; [lia|]. cbn [zsum]. destruct (Nat.eq_dec k n) as [->|N].
  - pose proof (zsum_nonneg n f ltac:(intros; apply H; lia)). lia.
  - pose proof (IH ltac:(lia) ltac:(intros; apply H; lia)). pose proof (H n ltac:(lia)). lia.
Qed.
Lemma bin_le_pow n k : bin n k <= 2 ^ Z.of_nat n.
Proof.
  destruct (Nat.le_gt_cases k n) as [H|H]; [|rewrite bin_gt by lia; apply Z.pow_nonneg; lia].
  pose proof (binomial_bin 1 1 n) as B. change (1 + 1) with 2 in B. rewrite <- B.
  rewrite (zsum_ext (S n) _ (bin n)) by (intros; rewrite !Z.pow_1_l by lia; ring). apply zsum_term; [lia|]. intros; apply bin_nonneg.
Qed.

(** The binomial theorem: what comb(n, 0), ..., comb(n, n) return, when they all return, are the coefficients of (x + y)^n. *)
Theorem C149_binomial pw t (n : nat) (c : nat -> Z) : In pw pointer_widths -> In t (prim_types pw) -> in_range t (Z.of_nat n) = true ->
  (forall k, (k <= n)%nat -> primint_comb Checked pw t (Z.of_nat n) (Z.of_nat k) = Ok (c k)) ->
  forall x y, zsum (S n) (fun k => c k * x ^ Z.of_nat k * y ^ Z.of_nat (n - k)) = (x + y) ^ Z.of_nat n.
Proof.
  intros Hp Ht Hn H x y. rewrite <- binomial_bin. apply zsum_ext. intros k Hk. f_equal. f_equal.
  assert (Hk' : in_range t (Z.of_nat k) = true) by (apply (in_range_le pw t _ (Z.of_nat n)); try assumption; lia).
  pose proof (comb_cases pw t (Z.of_nat n) (Z.of_nat k) Hp Ht Hn Hk' ltac:(lia)) as C. cbv zeta in C. rewrite H, !Nat2Z.id in C by lia.
  destruct C as [[_ [_ C]]|[_ C]]; [injection C as ->; reflexivity|discriminate C].
Qed.
Print Assumptions C149_binomial.
(** Rows sum to 2^n; with alternating signs to 0. *)
Theorem C149_row pw t (n : nat) (c : nat -> Z) : In pw pointer_widths -> In t (prim_types pw) -> in_range t (Z.of_nat n) = true ->
  (forall k, (k <= n)%nat -> primint_comb Checked pw t (Z.of_nat n) (Z.of_nat k) = Ok (c k)) ->
  zsum (S n) c = 2 ^ Z.of_nat n /\ ((0 < n)%nat -> zsum (S n) (fun k => c k * (-1) ^ Z.of_nat k) = 0).
Proof.
  intros Hp Ht Hn H. pose proof (C149_binomial pw t n c Hp Ht Hn H) as B. split.
  - specialize (B 1 1). change (1 + 1) with 2 in B. rewrite <- B. apply zsum_ext. intros k _. rewrite !Z.pow_1_l by lia. ring.
  - intros N. specialize (B (-1) 1). change (-1 + 1) with 0 in B. rewrite Z.pow_0_l in B by lia. rewrite <- B. apply zsum_ext. intros k _. rewrite (Z.pow_1_l (Z.of_nat (n - k))) by lia. ring.
Qed.
Print Assumptions C149_row.
(** They all return, in both overflow modes, if n < MAX and (n / 2) 2^n <= MAX. *)
Theorem C149_row_returns pw t md (n k : nat) : In pw pointer_widths -> In t (prim_types pw) -> (k <= n)%nat ->
  Z.of_nat n < imax t -> Z.of_nat (n / 2) * 2 ^ Z.of_nat n <= imax t ->
  exists c, primint_comb md pw t (Z.of_nat n) (Z.of_nat k) = Ok c /\ 1 <= c <= 2 ^ Z.of_nat n.
Proof.
  intros Hp Ht K N S. pose proof (min_nonpos pw t Hp Ht) as M.
  assert (Hn : in_range t (Z.of_nat n) = true) by (apply range_of; lia). assert (Hk : in_range t (Z.of_nat k) = true) by (apply range_of; lia).
  exists (bin n k). pose proof (bin_le_pow n k) as L. split.
  - destruct (C16_comb_partial pw t (Z.of_nat n) (Z.of_nat k) Hp Ht Hn Hk) as [_ [A _]]. pose proof (binom_exists (Z.of_nat n) (Z.of_nat k) ltac:(lia)) as E. rewrite !Nat2Z.id in E.
    apply (A _ E N). eapply Z.le_trans; [|exact S]. apply Z.mul_le_mono_nonneg; [lia| |apply bin_nonneg|exact L]. pose proof (Nat.div_mod_eq n 2). pose proof (Nat.mod_upper_bound n 2 ltac:(lia)). lia.
  - split; [|exact L]. apply bin_pos, K.
Qed.
Print Assumptions C149_row_returns.
(** When comb(n + 1, k + 1) returns, so does comb(m, k) for m = k, ..., n, and it is their sum. *)
Theorem C149_hockey_stick pw t (k d : nat) c : In pw pointer_widths -> In t (prim_types pw) -> in_range t (Z.of_nat (k + d) + 1) = true ->
  primint_comb Checked pw t (Z.of_nat (k + d) + 1) (Z.of_nat k + 1) = Ok c ->
  exists a, (forall j, (j <= d)%nat -> primint_comb Checked pw t (Z.of_nat (k + j)) (Z.of_nat k) = Ok (a j)) /\ c = zsum (S d) a.
Proof.
  intros Hp Ht. revert c. induction d as [|d IH]; intros c Hn H.
  - assert (Hk : in_range t (Z.of_nat k + 1) = true) by (apply (in_range_le pw t _ (Z.of_nat (k + 0) + 1)); try assumption; lia).
    destruct (C142_pascal pw t (Z.of_nat (k + 0)) (Z.of_nat k) c Hp Ht Hn Hk ltac:(lia) H) as [a [b [Ea [Eb ->]]]].
    assert (Hn' : in_range t (Z.of_nat (k + 0)) = true) by (apply (in_range_le pw t _ (Z.of_nat (k + 0) + 1)); try assumption; lia).
    rewrite (proj1 (C16_comb_partial pw t (Z.of_nat (k + 0)) (Z.of_nat k + 1) Hp Ht Hn' Hk)) in Eb by lia. injection Eb as <-.
    exists (fun _ => a). split; [|cbn; lia]. intros j Hj. replace j with 0%nat by lia. exact Ea.
  - assert (Hk : in_range t (Z.of_nat k + 1) = true) by (apply (in_range_le pw t _ (Z.of_nat (k + S d) + 1)); try assumption; lia).
    destruct (C142_pascal pw t (Z.of_nat (k + S d)) (Z.of_nat k) c Hp Ht Hn Hk ltac:(lia) H) as [a [b [Ea [Eb ->]]]].
    replace (Z.of_nat (k + S d)) with (Z.of_nat (k + d) + 1) in Eb by lia.
    destruct (IH b) as [f [Hf ->]]; [apply (in_range_le pw t _ (Z.of_nat (k + S d) + 1)); try assumption; lia|exact Eb|].
    exists (fun j => if Nat.eqb j (S d) then a else f j). split.
    + intros j Hj. destruct (Nat.eqb_spec j (S d)) as [->|N]; [exact Ea|apply Hf; lia].
    + assert (Q : forall g m, zsum (S m) g = zsum m g + g m) by reflexivity. rewrite (Q _ (S d)), Nat.eqb_refl. rewrite (zsum_ext (S d) (fun j => if Nat.eqb j (S d) then a else f j) f); [ring|].
      intros j Hj. destruct (Nat.eqb_spec j (S d)); [lia|reflexivity].
Qed.
Print Assumptions C149_hockey_stick.
(** Row four in u8: all five values return, and add up to 16. *)
Example C149_ex : In 64 pointer_widths /\ In u8 (prim_types 64) /\ in_range u8 4 = true /\ 4 < imax u8 /\ Z.of_nat (4 / 2) * 2 ^ 4 <= imax u8 /\
  (forall k, (k <= 4)%nat -> primint_comb Checked 64 u8 4 (Z.of_nat k) = Ok (nth k [1; 4; 6; 4; 1] 0)) /\ primint_comb Checked 64 u8 5 3 = Ok 10 /\
  zsum 5 (fun k => nth k [1; 4; 6; 4; 1] 0) = 2 ^ 4.
Proof.
  split; [vm_compute; tauto|]. split; [vm_compute; tauto|]. split; [vm_compute; reflexivity|]. split; [vm_compute; reflexivity|]. split; [vm_compute; discriminate|]. split; [|split; vm_compute; reflexivity].
  intros k Hk. do 5 (destruct k as [|k]; [vm_compute; reflexivity|]). lia.
Qed.
