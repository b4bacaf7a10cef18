(** Proofs about comb, comb_rep, perm and stirling2. *)
From Coq Require Import List ZArith Bool Lia ZifyBool.
From Verif Require Import Base MachInt M_Special S_Special P_MachInt P_Factorial.
Import ListNotations.
Local Open Scope Z_scope.

(** * Binomial coefficients (Pascal) *)
Fixpoint bin (n k : nat) : Z :=
  match n, k with
  | _, O => 1
  | O, S _ => 0
  | S n', S k' => bin n' k' + bin n' (S k')
  end.

Lemma bin_0_r n : bin n 0 = 1.
Proof. destruct n; reflexivity. Qed.

Lemma bin_SS n k : bin (S n) (S k) = bin n k + bin n (S k).
Proof. reflexivity. Qed.

Lemma bin_gt n k : (n < k)%nat -> bin n k = 0.
Proof.
  revert k. induction n as [|n IH]; intros k H; destruct k as [|k]; try lia; [reflexivity|].
  rewrite bin_SS, !IH by lia. reflexivity.
Qed.

Lemma bin_diag n : bin n n = 1.
Proof. induction n as [|n IH]; [reflexivity|]. rewrite bin_SS, IH, bin_gt by lia. reflexivity. Qed.

Lemma bin_nonneg n k : 0 <= bin n k.
Proof.
  revert k. induction n as [|n IH]; intros k; destruct k as [|k]; try (simpl; lia).
  rewrite bin_SS. pose proof (IH k). pose proof (IH (S k)). lia.
Qed.

Lemma bin_pos n k : (k <= n)%nat -> 1 <= bin n k.
Proof.
  revert k. induction n as [|n IH]; intros k H; destruct k as [|k]; try (simpl; lia).
  rewrite bin_SS. pose proof (IH k ltac:(lia)). pose proof (bin_nonneg n (S k)). lia.
Qed.

Lemma bin_fact n k : (k <= n)%nat -> bin n k * (zfact k * zfact (n - k)) = zfact n.
Proof.
  revert k. induction n as [|n IH]; intros k H.
  - assert (k = 0)%nat by lia. subst. reflexivity.
  - destruct k as [|k].
    + rewrite bin_0_r. cbn [zfact Nat.sub]. lia.
    + rewrite bin_SS. replace (S n - S k)%nat with (n - k)%nat by lia.
      destruct (Nat.eq_dec k n) as [->|Hk].
      * rewrite bin_diag, bin_gt by lia. rewrite Nat.sub_diag. cbn [zfact]. lia.
      * pose proof (IH k ltac:(lia)) as E1. pose proof (IH (S k) ltac:(lia)) as E2.
        replace (n - k)%nat with (S (n - S k)) in * by lia.
        rewrite !zfact_S in *.
        replace (Z.of_nat (S n)) with (Z.of_nat (S k) + Z.of_nat (S (n - S k))) by lia.
        rewrite !Z.mul_add_distr_r. rewrite <- E2 at 2. rewrite <- E1. ring.
Qed.

Lemma bin_step n i : Z.of_nat (S i) * bin n (S i) = (Z.of_nat n - Z.of_nat i) * bin n i.
Proof.
  revert i. induction n as [|n IH]; intros i.
  - destruct i as [|i]; cbn [bin]; lia.
  - rewrite bin_SS. rewrite Z.mul_add_distr_l. rewrite IH.
    destruct i as [|i].
    + rewrite bin_0_r, (bin_0_r (S n)). lia.
    + specialize (IH i). rewrite (bin_SS n i).
      replace (Z.of_nat (S n) - Z.of_nat (S i)) with (Z.of_nat n - Z.of_nat i) by lia.
      rewrite Z.mul_add_distr_l. rewrite <- IH.
      replace (Z.of_nat (S (S i))) with (Z.of_nat (S i) + 1) by lia.
      replace (Z.of_nat n - Z.of_nat (S i)) with (Z.of_nat n - Z.of_nat i - 1) by lia.
      rewrite !Z.mul_add_distr_r, !Z.mul_sub_distr_r. lia.
Qed.

Lemma bin_sym n k : (k <= n)%nat -> bin n (n - k) = bin n k.
Proof.
  intros H. pose proof (bin_fact n k H) as E1.
  pose proof (bin_fact n (n - k) ltac:(lia)) as E2.
  replace (n - (n - k))%nat with k in E2 by lia.
  pose proof (zfact_pos k). pose proof (zfact_pos (n - k)).
  rewrite (Z.mul_comm (zfact (n - k))) in E2. rewrite <- E1 in E2.
  apply Z.mul_reg_r in E2; [exact E2|nia].
Qed.

Lemma bin_up n i : (2 * S i <= n)%nat -> bin n i <= bin n (S i).
Proof.
  intros H. pose proof (bin_step n i) as E. pose proof (bin_nonneg n i).
  pose proof (bin_nonneg n (S i)). nia.
Qed.

Lemma bin_mono n i r : (i <= r)%nat -> (2 * r <= n)%nat -> bin n i <= bin n r.
Proof.
  induction 1 as [|r Hir IH]; intros H; [lia|].
  pose proof (bin_up n r H). specialize (IH ltac:(lia)). lia.
Qed.

Lemma bin_pow2 n r : (2 * r <= n)%nat -> 2 ^ Z.of_nat r <= bin n r.
Proof.
  revert r. induction n as [|n IH]; intros r H.
  - assert (r = 0)%nat by lia. subst. cbn. lia.
  - destruct r as [|r]; [rewrite bin_0_r; simpl; lia|].
    rewrite bin_SS. destruct (Nat.eq_dec (S n) (2 * S r)) as [E|E].
    + replace (bin n (S r)) with (bin n r).
      2:{ replace r with (n - S r)%nat at 1 by lia. apply bin_sym. lia. }
      pose proof (IH r ltac:(lia)).
      rewrite Nat2Z.inj_succ, Z.pow_succ_r by lia. lia.
    + pose proof (IH (S r) ltac:(lia)). pose proof (bin_nonneg n r). lia.
Qed.

Lemma is_binom_bin n k c : is_binom n k c -> c = bin (Z.to_nat n) (Z.to_nat k).
Proof.
  intros [H E]. pose proof (bin_fact (Z.to_nat n) (Z.to_nat k) ltac:(lia)) as E2.
  rewrite <- E in E2. replace (Z.to_nat n - Z.to_nat k)%nat with (Z.to_nat (n - k)) in E2 by lia.
  pose proof (zfact_pos (Z.to_nat k)). pose proof (zfact_pos (Z.to_nat (n - k))).
  apply Z.mul_reg_r in E2; [symmetry; exact E2|nia].
Qed.

Lemma binom_exists n k : 0 <= k <= n -> is_binom n k (bin (Z.to_nat n) (Z.to_nat k)).
Proof.
  intros H. split; [exact H|]. rewrite <- (bin_fact (Z.to_nat n) (Z.to_nat k)) by lia.
  do 2 f_equal. f_equal. lia.
Qed.

(** * comb *)
Definition combstep md t m := fun result i =>
             let! i1 := from_usize t i in
             let! d := isub md t m i1 in
             let! p := imul md t result d in
             let! i2 := from_usize t i in
             idiv t p i2.

Lemma comb_loop_ok md t n r : wf_ity t -> 0 <= r -> 2 * r <= n -> n < imax t ->
  r * bin (Z.to_nat n) (Z.to_nat r) <= imax t ->
  rfold (combstep md t (n + 1)) (zrange 1 (r + 1)) 1 = Ok (bin (Z.to_nat n) (Z.to_nat r)).
Proof.
  intros W Hr Hrn Hn Hb. destruct (wf_bounds t W) as (B1 & B2 & _).
  revert Hrn Hb. pattern r. apply natlike_ind; [ | |exact Hr].
  - intros _ _. change (Z.to_nat 0) with O. rewrite bin_0_r. reflexivity.
  - intros x Hx IH Hrn Hb. unfold Z.succ in *.
    rewrite zrange_snoc by lia. rewrite rfold_app.
    set (N := Z.to_nat n) in *.
    replace (Z.to_nat (x + 1)) with (S (Z.to_nat x)) in * by lia.
    pose proof (bin_up N (Z.to_nat x) ltac:(lia)) as Hup.
    pose proof (bin_nonneg N (Z.to_nat x)).
    pose proof (bin_step N (Z.to_nat x)) as Hst.
    replace (Z.of_nat (S (Z.to_nat x))) with (x + 1) in Hst by lia.
    replace (Z.of_nat N) with n in Hst by lia. replace (Z.of_nat (Z.to_nat x)) with x in Hst by lia.
    rewrite IH by nia. cbn [bind rfold]. unfold combstep, from_usize.
    rewrite convert_ok by lia. cbn [bind].
    unfold isub. rewrite arith_ok by lia. cbn [bind].
    replace (n + 1 - (x + 1)) with (n - x) by lia.
    unfold imul. rewrite arith_ok by nia. cbn [bind].
    rewrite idiv_ok by nia. cbn [bind].
    rewrite (Z.mul_comm (bin N (Z.to_nat x))), <- Hst.
    rewrite Z.mul_comm, Z.div_mul by lia. reflexivity.
Qed.

(** In checked mode the loop either panics or computes the coefficient. *)
Lemma comb_loop_checked t n r : wf_ity t -> 0 <= r -> 2 * r <= n -> n < imax t ->
  rfold (combstep Checked t (n + 1)) (zrange 1 (r + 1)) 1 = Panic \/
  (rfold (combstep Checked t (n + 1)) (zrange 1 (r + 1)) 1 = Ok (bin (Z.to_nat n) (Z.to_nat r))
   /\ r * bin (Z.to_nat n) (Z.to_nat r) <= imax t).
Proof.
  intros W Hr Hrn Hn. destruct (wf_bounds t W) as (B1 & B2 & _).
  revert Hrn. pattern r. apply natlike_ind; [ | |exact Hr].
  - intros _. right. change (Z.to_nat 0) with O. rewrite bin_0_r. split; [reflexivity|lia].
  - intros x Hx IH Hrn. unfold Z.succ in *.
    rewrite zrange_snoc by lia. rewrite rfold_app.
    set (N := Z.to_nat n) in *.
    replace (Z.to_nat (x + 1)) with (S (Z.to_nat x)) in * by lia.
    pose proof (bin_nonneg N (Z.to_nat x)).
    pose proof (bin_step N (Z.to_nat x)) as Hst.
    replace (Z.of_nat (S (Z.to_nat x))) with (x + 1) in Hst by lia.
    replace (Z.of_nat N) with n in Hst by lia. replace (Z.of_nat (Z.to_nat x)) with x in Hst by lia.
    destruct (IH ltac:(lia)) as [E|[E Hle]]; rewrite E; [left; reflexivity|].
    cbn [bind rfold]. unfold combstep, from_usize.
    rewrite convert_ok by lia. cbn [bind].
    unfold isub. rewrite arith_ok by lia. cbn [bind].
    replace (n + 1 - (x + 1)) with (n - x) by lia.
    unfold imul.
    destruct (Z_le_gt_dec (bin N (Z.to_nat x) * (n - x)) (imax t)) as [G|G].
    + right. rewrite arith_ok by nia. cbn [bind].
      rewrite idiv_ok by nia. cbn [bind].
      rewrite (Z.mul_comm (bin N (Z.to_nat x))), <- Hst.
      rewrite Z.mul_comm, Z.div_mul by lia. split; [reflexivity|lia].
    + left. rewrite arith_panic by lia. reflexivity.
Qed.

Lemma comb_zero md pw t n k : n < k \/ n < 0 \/ k < 0 -> primint_comb md pw t n k = Ok 0.
Proof.
  intros H. unfold primint_comb.
  replace ((n <? k) || (n <? 0) || (k <? 0)) with true by lia. reflexivity.
Qed.

Lemma comb_unfold md pw t n k : wf_ity t -> 0 <= k <= n -> n < imax t ->
  primint_comb md pw t n k =
  let! n_terms := to_usize pw (Z.min k (n - k) + 1) in
  rfold (combstep md t (n + 1)) (zrange 1 n_terms) 1.
Proof.
  intros W Hk Hn. destruct (wf_bounds t W) as (B1 & B2 & _).
  unfold primint_comb. replace ((n <? k) || (n <? 0) || (k <? 0)) with false by lia.
  unfold iadd, isub. rewrite (arith_ok md t (n + 1)) by lia. cbn [bind].
  rewrite (arith_ok md t (n - k)) by lia. cbn [bind].
  rewrite (arith_ok md t (Z.min k (n - k) + 1)) by lia. cbn [bind]. reflexivity.
Qed.

Lemma bin_min n k : 0 <= k <= n ->
  bin (Z.to_nat n) (Z.to_nat (Z.min k (n - k))) = bin (Z.to_nat n) (Z.to_nat k).
Proof.
  intros H. destruct (Z_le_gt_dec k (n - k)) as [G|G].
  - rewrite Z.min_l by lia. reflexivity.
  - rewrite Z.min_r by lia. replace (Z.to_nat (n - k)) with (Z.to_nat n - Z.to_nat k)%nat by lia.
    apply bin_sym. lia.
Qed.

Lemma comb_ok md pw t n k c : In pw pointer_widths -> wf_ity t -> is_binom n k c ->
  n < imax t -> Z.min k (n - k) * c <= imax t ->
  primint_comb md pw t n k = Ok c.
Proof.
  intros Hp W Hc Hn Hle. destruct (wf_bounds t W) as (B1 & B2 & B3 & _).
  destruct (usize_bounds pw Hp) as [Hu0 Hu1].
  pose proof (is_binom_bin n k c Hc) as E. destruct Hc as [Hk _].
  rewrite comb_unfold by auto.
  set (r := Z.min k (n - k)) in *. assert (Hr : 0 <= r /\ 2 * r <= n) by lia.
  rewrite <- (bin_min n k Hk) in E. fold r in E. subst c.
  assert (Hr128 : r <= 128).
  { destruct (Z_le_gt_dec r 128); [assumption|exfalso].
    pose proof (bin_pow2 (Z.to_nat n) (Z.to_nat r) ltac:(lia)) as Q.
    assert (2 ^ 128 <= 2 ^ Z.of_nat (Z.to_nat r)) by (apply Z.pow_le_mono_r; lia). nia. }
  unfold to_usize. rewrite convert_ok by lia. cbn [bind].
  apply comb_loop_ok; auto; lia.
Qed.

Lemma comb_panic pw t n k c : In pw pointer_widths -> wf_ity t -> is_binom n k c ->
  n <= imax t -> n = imax t \/ imax t < Z.min k (n - k) * c ->
  primint_comb Checked pw t n k = Panic.
Proof.
  intros Hp W Hc Hn Hbad. destruct (wf_bounds t W) as (B1 & B2 & B3 & _).
  destruct (usize_bounds pw Hp) as [Hu0 Hu1].
  pose proof (is_binom_bin n k c Hc) as E. destruct Hc as [Hk _].
  destruct (Z.eq_dec n (imax t)) as [->|Hne].
  - unfold primint_comb. replace ((imax t <? k) || (imax t <? 0) || (k <? 0)) with false by lia.
    unfold iadd at 1. rewrite arith_panic by lia. reflexivity.
  - rewrite comb_unfold by (auto; lia).
    set (r := Z.min k (n - k)) in *. assert (Hr : 0 <= r /\ 2 * r <= n) by lia.
    rewrite <- (bin_min n k Hk) in E. fold r in E. subst c.
    unfold to_usize. destruct (Z_le_gt_dec (r + 1) (imax (usize_t pw))) as [G|G].
    2:{ rewrite convert_panic by lia. reflexivity. }
    rewrite convert_ok by lia. cbn [bind].
    destruct (comb_loop_checked t n r W ltac:(lia) ltac:(lia) ltac:(lia)) as [E|[E Hle]];
      [exact E|lia].
Qed.

(** * comb_rep *)
Lemma multichoose_binom n k c : is_multichoose n k c -> is_binom (n + k - 1) k c.
Proof.
  intros (H1 & H2 & E). split; [lia|]. replace (n + k - 1 - k) with (n - 1) by lia. exact E.
Qed.

Lemma comb_rep_ok md pw t n k c : In pw pointer_widths -> wf_ity t -> is_multichoose n k c ->
  n + k <= imax t -> Z.min k (n - 1) * c <= imax t ->
  primint_comb_rep md pw t n k = Ok c.
Proof.
  intros Hp W Hc Hn Hle. destruct (wf_bounds t W) as (B1 & B2 & B3 & _).
  pose proof (multichoose_binom n k c Hc) as Hb. destruct Hc as (H1 & H2 & _).
  unfold primint_comb_rep, iadd, isub. rewrite arith_ok by lia. cbn [bind].
  replace (n + k =? 0) with false by lia. rewrite arith_ok by lia. cbn [bind].
  apply comb_ok; auto; [lia|]. replace (n + k - 1 - k) with (n - 1) by lia. exact Hle.
Qed.

Lemma comb_rep_panic pw t n k c : In pw pointer_widths -> wf_ity t -> is_multichoose n k c ->
  imax t < n + k \/ imax t < Z.min k (n - 1) * c ->
  primint_comb_rep Checked pw t n k = Panic.
Proof.
  intros Hp W Hc Hbad. destruct (wf_bounds t W) as (B1 & B2 & B3 & _).
  pose proof (multichoose_binom n k c Hc) as Hb. destruct Hc as (H1 & H2 & _).
  unfold primint_comb_rep, iadd, isub.
  destruct (Z_le_gt_dec (n + k) (imax t)) as [G|G].
  2:{ rewrite arith_panic by lia. reflexivity. }
  rewrite arith_ok by lia. cbn [bind].
  replace (n + k =? 0) with false by lia. rewrite arith_ok by lia. cbn [bind].
  eapply comb_panic; eauto; [lia|]. replace (n + k - 1 - k) with (n - 1) by lia. lia.
Qed.

Lemma comb_rep_zero md pw t n k : wf_ity t -> n <= 0 \/ k < 0 ->
  imin t < n + k <= imax t ->
  primint_comb_rep md pw t n k = Ok 0.
Proof.
  intros W H Hr. destruct (wf_bounds t W) as (B1 & B2 & B3 & _).
  unfold primint_comb_rep, iadd, isub. rewrite arith_ok by lia. cbn [bind].
  destruct (Z.eqb_spec (n + k) 0); [reflexivity|].
  rewrite arith_ok by lia. cbn [bind]. apply comb_zero. lia.
Qed.

Lemma comb_rep_zero2 md pw t n k : wf_ity t -> n + k = 0 -> primint_comb_rep md pw t n k = Ok 0.
Proof.
  intros W H. destruct (wf_bounds t W) as (B1 & B2 & B3 & _).
  unfold primint_comb_rep, iadd. rewrite arith_ok by lia. cbn [bind].
  replace (n + k =? 0) with true by lia. reflexivity.
Qed.

Lemma comb_rep_under pw t n k : n + k <> 0 -> n + k <= imin t -> imin t <= imax t ->
  primint_comb_rep Checked pw t n k = Panic.
Proof.
  intros H0 H W. unfold primint_comb_rep, iadd, isub.
  destruct (Z_lt_ge_dec (n + k) (imin t)) as [G|G].
  - rewrite arith_panic by lia. reflexivity.
  - rewrite arith_ok by lia. cbn [bind]. replace (n + k =? 0) with false by lia.
    rewrite arith_panic by lia. reflexivity.
Qed.

(** * perm *)
Lemma perm_zero md pw t n k : n < k \/ n < 0 \/ k < 0 -> primint_perm md pw t n k = Ok 0.
Proof.
  intros H. unfold primint_perm.
  replace ((n <? k) || (n <? 0) || (k <? 0)) with true by lia. reflexivity.
Qed.

Lemma is_perm_prod n k c : is_perm n k c -> c = zprod (zrange (n - k + 1) (n + 1)).
Proof.
  intros [H E]. pose proof (zprod_zrange_from (n - k + 1) n ltac:(lia)) as E2.
  replace (n - k + 1 - 1) with (n - k) in E2 by lia.
  rewrite <- E in E2. rewrite Z.mul_comm in E2. pose proof (zfact_pos (Z.to_nat (n - k))).
  apply Z.mul_reg_r in E2; [symmetry; exact E2|lia].
Qed.

Lemma perm_ok md pw t n k c : In pw pointer_widths -> wf_ity t -> is_perm n k c ->
  c <= imax t -> n < imax t -> n < imax (usize_t pw) ->
  primint_perm md pw t n k = Ok c.
Proof.
  intros Hp W Hc Hle Hn Hu. destruct (wf_bounds t W) as (B1 & B2 & B3 & _).
  destruct (usize_bounds pw Hp) as [Hu0 Hu1].
  pose proof (is_perm_prod n k c Hc) as E. destruct Hc as [Hk _].
  unfold primint_perm. replace ((n <? k) || (n <? 0) || (k <? 0)) with false by lia.
  unfold isub, iadd, to_usize. rewrite (arith_ok md t (n - k)) by lia. cbn [bind].
  rewrite (arith_ok md t (n - k + 1)) by lia. cbn [bind].
  rewrite convert_ok by lia. cbn [bind]. rewrite arith_ok by lia. cbn [bind].
  rewrite convert_ok by lia. cbn [bind].
  change (fun result v => _) with (mulstep md t).
  rewrite rfold_mul_ok; [rewrite Z.mul_1_l; subst; reflexivity|exact B1|lia| |lia].
  intros v Hv. apply zrange_In in Hv. lia.
Qed.

Lemma perm_panic pw t n k c : In pw pointer_widths -> wf_ity t -> is_perm n k c ->
  n <= imax t ->
  imax t < c \/ n = imax t \/ imax (usize_t pw) <= n ->
  primint_perm Checked pw t n k = Panic.
Proof.
  intros Hp W Hc Hn Hbad. destruct (wf_bounds t W) as (B1 & B2 & B3 & _).
  destruct (usize_bounds pw Hp) as [Hu0 Hu1].
  pose proof (is_perm_prod n k c Hc) as E. destruct Hc as [Hk _].
  unfold primint_perm. replace ((n <? k) || (n <? 0) || (k <? 0)) with false by lia.
  unfold isub, iadd, to_usize. rewrite (arith_ok _ t (n - k)) by lia. cbn [bind].
  destruct (Z_le_gt_dec (n - k + 1) (imax t)) as [G1|G1].
  2:{ rewrite arith_panic by lia. reflexivity. }
  rewrite (arith_ok _ t (n - k + 1)) by lia. cbn [bind].
  destruct (Z_le_gt_dec (n - k + 1) (imax (usize_t pw))) as [G2|G2].
  2:{ rewrite convert_panic by lia. reflexivity. }
  rewrite convert_ok by lia. cbn [bind].
  destruct (Z_le_gt_dec (n + 1) (imax t)) as [G3|G3].
  2:{ rewrite arith_panic by lia. reflexivity. }
  rewrite arith_ok by lia. cbn [bind].
  destruct (Z_le_gt_dec (n + 1) (imax (usize_t pw))) as [G4|G4].
  2:{ rewrite convert_panic by lia. reflexivity. }
  rewrite convert_ok by lia. cbn [bind].
  change (fun result v => _) with (mulstep Checked t).
  apply rfold_mul_panic; try lia.
  intros v Hv. apply zrange_In in Hv. lia.
Qed.

(** * Counting surjections *)
Section Surj.
Variable (A : Type) (eqb : A -> A -> bool).
Hypothesis eqb_spec : forall x y, eqb x y = true <-> x = y.

Definition covers (L w : list A) : bool := forallb (fun x => existsb (eqb x) w) L.
Definition cnt (n : nat) (L : list A) : nat := length (filter (covers L) (words n L)).
Definition rem (a : A) (L : list A) : list A := filter (fun x => negb (eqb x a)) L.

Lemma eqb_refl' x : eqb x x = true.
Proof. apply eqb_spec. reflexivity. Qed.

Lemma filter_map_len {X Y} (f : Y -> bool) (g : X -> Y) l :
  length (filter f (map g l)) = length (filter (fun x => f (g x)) l).
Proof. induction l as [|x l IH]; [reflexivity|]. cbn. destruct (f (g x)); cbn; rewrite IH; reflexivity. Qed.

Lemma filter_filter {X} (f g : X -> bool) l : filter f (filter g l) = filter (fun x => g x && f x) l.
Proof.
  induction l as [|x l IH]; [reflexivity|]. cbn. destruct (g x); cbn; [|exact IH].
  destruct (f x); rewrite IH; reflexivity.
Qed.

Definition notin (a : A) (w : list A) : bool := negb (existsb (eqb a) w).

Lemma words_rem a L n : filter (notin a) (words n L) = words n (rem a L).
Proof.
  induction n as [|n IH]; [reflexivity|]. cbn [words].
  enough (G : forall M, filter (notin a) (flat_map (fun b => map (cons b) (words n L)) M) =
                        flat_map (fun b => map (cons b) (words n (rem a L))) (rem a M)) by apply G.
  induction M as [|b M IHM]; [reflexivity|].
  cbn [flat_map rem filter]. rewrite filter_app, IHM.
  destruct (eqb b a) eqn:E.
  - cbn [negb]. apply eqb_spec in E. subst b.
    rewrite (filter_none (notin a) (map (cons a) (words n L))); [reflexivity|].
    intros w Hw. apply in_map_iff in Hw. destruct Hw as [v [<- _]].
    unfold notin. cbn. rewrite eqb_refl'. reflexivity.
  - cbn [negb flat_map]. f_equal. rewrite <- IH.
    clear IHM IH. induction (words n L) as [|w W IHW]; [reflexivity|]. cbn [map filter].
    assert (Hn : notin a (b :: w) = notin a w).
    { unfold notin. cbn. replace (eqb a b) with false; [reflexivity|].
      destruct (eqb a b) eqn:E2; [|reflexivity]. apply eqb_spec in E2. subst.
      rewrite eqb_refl' in E. discriminate. }
    rewrite Hn. destruct (notin a w); cbn [map]; rewrite IHW; reflexivity.
Qed.

Lemma covers_cons a L w : covers L (a :: w) = covers (rem a L) w.
Proof.
  unfold covers, rem. induction L as [|x L IH]; [reflexivity|].
  cbn [forallb filter]. rewrite IH.
  change (existsb (eqb x) (a :: w)) with (eqb x a || existsb (eqb x) w).
  destruct (eqb x a) eqn:E; reflexivity.
Qed.

Lemma covers_split a L w : In a L -> covers (rem a L) w = true ->
  covers L w = negb (notin a w).
Proof.
  intros Ha Hr. unfold notin. rewrite negb_involutive.
  destruct (existsb (eqb a) w) eqn:E.
  - unfold covers. apply forallb_forall. intros x Hx.
    destruct (eqb x a) eqn:Ex; [apply eqb_spec in Ex; subst; exact E|].
    unfold covers in Hr. rewrite forallb_forall in Hr. apply Hr.
    apply filter_In. rewrite Ex. auto.
  - unfold covers. destruct (forallb _ L) eqn:F; [|reflexivity].
    rewrite forallb_forall in F. rewrite (F a Ha) in E. discriminate.
Qed.

Lemma covers_rem a L w : covers L w = true -> covers (rem a L) w = true.
Proof.
  unfold covers, rem. rewrite !forallb_forall. intros H x Hx. apply filter_In in Hx. apply H. tauto.
Qed.

Lemma len_filter_split {X} (f g : X -> bool) l :
  length (filter f l) = (length (filter (fun x => f x && g x) l) +
                         length (filter (fun x => f x && negb (g x)) l))%nat.
Proof. induction l as [|x l IH]; [reflexivity|]. cbn. destruct (f x), (g x); cbn; lia. Qed.

Lemma cnt_head a L n : In a L ->
  length (filter (covers (rem a L)) (words n L)) = (cnt n L + cnt n (rem a L))%nat.
Proof.
  intros Ha. rewrite (len_filter_split _ (fun w => negb (notin a w))). f_equal.
  - unfold cnt. f_equal. apply filter_ext. intros w.
    destruct (covers (rem a L) w) eqn:E.
    + rewrite (covers_split a L w Ha E). reflexivity.
    + destruct (covers L w) eqn:E2; [|reflexivity].
      rewrite (covers_rem a L w E2) in E. discriminate.
  - unfold cnt. rewrite <- words_rem, filter_filter. f_equal. apply filter_ext. intros w.
    rewrite negb_involutive. apply andb_comm.
Qed.

Lemma cnt_S n L : cnt (S n) L = list_sum (map (fun a => cnt n L + cnt n (rem a L))%nat L).
Proof.
  unfold cnt at 1. cbn [words].
  enough (G : forall M, (forall a, In a M -> In a L) ->
    length (filter (covers L) (flat_map (fun a => map (cons a) (words n L)) M)) =
    list_sum (map (fun a => cnt n L + cnt n (rem a L))%nat M)) by (apply G; auto).
  induction M as [|a M IH]; intros HM; [reflexivity|].
  cbn [flat_map map list_sum fold_right]. rewrite filter_app, app_length.
  rewrite IH by (intros; apply HM; right; assumption). f_equal.
  rewrite filter_map_len, <- cnt_head by (apply HM; left; reflexivity).
  f_equal. apply filter_ext. intros w. apply covers_cons.
Qed.

Lemma NoDup_rem a L : NoDup L -> NoDup (rem a L).
Proof. intros H. apply NoDup_filter. exact H. Qed.

Lemma len_rem a L : NoDup L -> In a L -> length L = S (length (rem a L)).
Proof.
  induction L as [|x L IH]; intros Hn Ha; [destruct Ha|].
  inversion Hn as [|? ? Hx HL]; subst. unfold rem. cbn.
  destruct (eqb x a) eqn:E; cbn.
  - apply eqb_spec in E. subst. f_equal. f_equal.
    clear IH Hn Ha HL. induction L as [|y L IHL]; [reflexivity|]. cbn.
    destruct (eqb y a) eqn:E2.
    + apply eqb_spec in E2. subst. exfalso. apply Hx. left. reflexivity.
    + cbn. f_equal. apply IHL. intros H. apply Hx. right. exact H.
  - f_equal. apply IH; [exact HL|]. destruct Ha as [->|Ha]; [|exact Ha].
    rewrite eqb_refl' in E. discriminate.
Qed.

(** surj n k = k! S(n,k), by recurrence *)
Fixpoint st2 (n k : nat) : Z :=
  match n, k with
  | O, O => 1
  | O, S _ => 0
  | S _, O => 0
  | S n', S k' => Z.of_nat (S k') * st2 n' (S k') + st2 n' k'
  end.

Lemma cnt_st2 n : forall L, NoDup L -> Z.of_nat (cnt n L) = st2 n (length L) * zfact (length L).
Proof.
  induction n as [|n IH]; intros L HL.
  - destruct L as [|a L]; [reflexivity|]. cbn. lia.
  - rewrite cnt_S.
    assert (G : forall a, In a L -> Z.of_nat (cnt n L + cnt n (rem a L)) =
              st2 n (length L) * zfact (length L) +
              st2 n (length L - 1) * zfact (length L - 1)).
    { intros a Ha. rewrite Nat2Z.inj_add, IH, IH by (auto using NoDup_rem).
      replace (length (rem a L)) with (length L - 1)%nat; [reflexivity|].
      rewrite (len_rem a L HL Ha). lia. }
    assert (Hsum : forall M, (forall a, In a M -> In a L) ->
       Z.of_nat (list_sum (map (fun a => cnt n L + cnt n (rem a L))%nat M)) =
       Z.of_nat (length M) * (st2 n (length L) * zfact (length L) +
              st2 n (length L - 1) * zfact (length L - 1))).
    { induction M as [|a M IHM]; intros HM; [reflexivity|].
      cbn [map list_sum fold_right length]. rewrite Nat2Z.inj_add.
      rewrite G by (apply HM; left; reflexivity).
      change (fold_right Nat.add 0%nat (map ?f M)) with (list_sum (map f M)).
      rewrite IHM by (intros; apply HM; right; assumption). lia. }
    rewrite Hsum by auto. destruct (length L) as [|k]; [reflexivity|].
    cbn [Nat.sub]. rewrite Nat.sub_0_r. cbn [st2]. rewrite zfact_S. ring.
Qed.
End Surj.

Lemma surjections_st2 n k : surjections n k = st2 n k * zfact k.
Proof.
  pose proof (cnt_st2 nat Nat.eqb (fun x y => Nat.eqb_eq x y) n (seq 0 k) (seq_NoDup k 0)) as E.
  rewrite seq_length in E. exact E.
Qed.

Lemma is_stirling2_st2 n k c : is_stirling2 n k c -> c = st2 (Z.to_nat n) (Z.to_nat k).
Proof.
  intros (H1 & H2 & E). rewrite surjections_st2 in E.
  pose proof (zfact_pos (Z.to_nat k)). apply Z.mul_reg_r in E; [exact E|lia].
Qed.

Lemma stirling2_exists n k : 0 <= k -> 0 <= n -> is_stirling2 n k (st2 (Z.to_nat n) (Z.to_nat k)).
Proof. intros H1 H2. split; [exact H1|]. split; [exact H2|]. rewrite surjections_st2. reflexivity. Qed.

Lemma st2_nonneg n k : 0 <= st2 n k.
Proof.
  revert k. induction n as [|n IH]; intros k; destruct k as [|k]; cbn [st2]; try lia.
  pose proof (IH k). pose proof (IH (S k)). nia.
Qed.

Lemma st2_gt n k : (n < k)%nat -> st2 n k = 0.
Proof.
  revert k. induction n as [|n IH]; intros k H; destruct k as [|k]; try lia; [reflexivity|].
  cbn [st2]. rewrite !IH by lia. lia.
Qed.

Lemma st2_diag n : st2 n n = 1.
Proof. induction n as [|n IH]; [reflexivity|]. cbn [st2]. rewrite IH, st2_gt by lia. lia. Qed.

Lemma stirling2_zero md t fuel n k : (n < k \/ n < 0 \/ k < 0) ->
  primint_stirling2 md t (S fuel) n k = Ok 0.
Proof.
  intros H. cbn [primint_stirling2].
  destruct ((n <? 0) || (k <? 0)) eqn:E; [reflexivity|].
  replace (n <? k) with true by lia. reflexivity.
Qed.

Lemma stirling2_ok md t : wf_ity t -> forall fuel n k, 0 <= n <= imax t -> 0 <= k <= imax t ->
  n < Z.of_nat fuel -> st2 (Z.to_nat n) (Z.to_nat k) <= imax t ->
  primint_stirling2 md t fuel n k = Ok (st2 (Z.to_nat n) (Z.to_nat k)).
Proof.
  intros W. destruct (wf_bounds t W) as (B1 & B2 & B3 & _).
  induction fuel as [|f IH]; intros n k Hn Hk Hf Hle; [lia|].
  cbn [primint_stirling2]. replace ((n <? 0) || (k <? 0)) with false by lia.
  destruct (Z.ltb_spec n k) as [H1|H1]; [rewrite st2_gt by lia; reflexivity|].
  destruct (Z.eqb_spec n k) as [H2|H2]; [subst; rewrite st2_diag; reflexivity|].
  destruct (Z.eqb_spec k 0) as [H3|H3].
  { subst. cbn [orb]. replace (Z.to_nat n) with (S (Z.to_nat (n - 1))) by lia. reflexivity. }
  replace (n =? 0) with false by lia. cbn [orb].
  replace (Z.to_nat n) with (S (Z.to_nat (n - 1))) in * by lia.
  replace (Z.to_nat k) with (S (Z.to_nat (k - 1))) in * by lia. cbn [st2] in *.
  replace (Z.of_nat (S (Z.to_nat (k - 1)))) with k in * by lia.
  pose proof (st2_nonneg (Z.to_nat (n - 1)) (S (Z.to_nat (k - 1)))).
  pose proof (st2_nonneg (Z.to_nat (n - 1)) (Z.to_nat (k - 1))).
  assert (Ek : S (Z.to_nat (k - 1)) = Z.to_nat k) by lia.
  unfold isub. rewrite (arith_ok md t (n - 1)) by lia. cbn [bind].
  rewrite IH by (try lia; rewrite <- Ek; nia). cbn [bind]. rewrite <- Ek.
  unfold imul. rewrite arith_ok by nia. cbn [bind].
  rewrite arith_ok by lia. cbn [bind]. rewrite IH by nia. cbn [bind].
  unfold iadd. apply arith_ok. nia.
Qed.

Lemma stirling2_checked t : wf_ity t -> forall fuel n k, 0 <= n <= imax t -> 0 <= k <= imax t ->
  n < Z.of_nat fuel ->
  primint_stirling2 Checked t fuel n k = Panic \/
  (primint_stirling2 Checked t fuel n k = Ok (st2 (Z.to_nat n) (Z.to_nat k)) /\
   st2 (Z.to_nat n) (Z.to_nat k) <= imax t).
Proof.
  intros W. destruct (wf_bounds t W) as (B1 & B2 & B3 & _).
  induction fuel as [|f IH]; intros n k Hn Hk Hf; [lia|].
  cbn [primint_stirling2]. replace ((n <? 0) || (k <? 0)) with false by lia.
  destruct (Z.ltb_spec n k) as [H1|H1]; [right; rewrite st2_gt by lia; split; [reflexivity|lia]|].
  destruct (Z.eqb_spec n k) as [H2|H2]; [right; subst; rewrite st2_diag; split; [reflexivity|lia]|].
  destruct (Z.eqb_spec k 0) as [H3|H3].
  { right. subst. cbn [orb]. replace (Z.to_nat n) with (S (Z.to_nat (n - 1))) by lia.
    split; [reflexivity|]. cbn. lia. }
  replace (n =? 0) with false by lia. cbn [orb].
  replace (Z.to_nat n) with (S (Z.to_nat (n - 1))) in * by lia.
  replace (Z.to_nat k) with (S (Z.to_nat (k - 1))) in * by lia. cbn [st2] in *.
  replace (Z.of_nat (S (Z.to_nat (k - 1)))) with k in * by lia.
  pose proof (st2_nonneg (Z.to_nat (n - 1)) (S (Z.to_nat (k - 1)))).
  pose proof (st2_nonneg (Z.to_nat (n - 1)) (Z.to_nat (k - 1))).
  assert (Ek : S (Z.to_nat (k - 1)) = Z.to_nat k) by lia.
  unfold isub. rewrite (arith_ok _ t (n - 1)) by lia. cbn [bind].
  destruct (IH (n - 1) k ltac:(lia) ltac:(lia) ltac:(lia)) as [E|[E Hle]]; rewrite E; cbn [bind];
    [left; reflexivity|]. rewrite <- Ek.
  unfold imul.
  match goal with |- context [arith Checked t (k * ?x)] =>
    destruct (Z_le_gt_dec (k * x) (imax t)) as [G|G] end.
  2:{ rewrite arith_panic by lia. left; reflexivity. }
  rewrite arith_ok by nia. cbn [bind].
  rewrite arith_ok by lia. cbn [bind].
  destruct (IH (n - 1) (k - 1) ltac:(lia) ltac:(lia) ltac:(lia)) as [E2|[E2 Hle2]]; rewrite E2; cbn [bind];
    [left; reflexivity|].
  unfold iadd.
  match goal with |- context [arith Checked t ?x] =>
    destruct (Z_le_gt_dec x (imax t)) as [G2|G2] end.
  2:{ rewrite arith_panic by lia. left; reflexivity. }
  right. rewrite arith_ok by nia. split; [reflexivity|lia].
Qed.

Lemma stirling2_wrapping t : wf_ity t -> forall fuel n k, 0 <= n <= imax t -> 0 <= k <= imax t ->
  n < Z.of_nat fuel ->
  primint_stirling2 Wrapping t fuel n k = Ok (wrap t (st2 (Z.to_nat n) (Z.to_nat k))).
Proof.
  intros W. destruct (wf_bounds t W) as (B1 & B2 & B3 & _).
  induction fuel as [|f IH]; intros n k Hn Hk Hf; [lia|].
  cbn [primint_stirling2]. replace ((n <? 0) || (k <? 0)) with false by lia.
  destruct (Z.ltb_spec n k) as [H1|H1]; [rewrite st2_gt, wrap_id by (auto; lia); reflexivity|].
  destruct (Z.eqb_spec n k) as [H2|H2]; [subst; rewrite st2_diag, wrap_id by (auto; lia); reflexivity|].
  destruct (Z.eqb_spec k 0) as [H3|H3].
  { subst. cbn [orb]. replace (Z.to_nat n) with (S (Z.to_nat (n - 1))) by lia. cbn.
    rewrite wrap_id by (auto; lia). reflexivity. }
  replace (n =? 0) with false by lia. cbn [orb].
  replace (Z.to_nat n) with (S (Z.to_nat (n - 1))) in * by lia.
  replace (Z.to_nat k) with (S (Z.to_nat (k - 1))) in * by lia. cbn [st2] in *.
  replace (Z.of_nat (S (Z.to_nat (k - 1)))) with k in * by lia.
  assert (Ek : S (Z.to_nat (k - 1)) = Z.to_nat k) by lia.
  unfold isub. rewrite (arith_ok _ t (n - 1)) by lia. cbn [bind].
  rewrite IH by lia. cbn [bind]. rewrite <- Ek.
  unfold imul. rewrite arith_wrapping by exact W. cbn [bind]. rewrite wrap_mul_r by exact W.
  rewrite arith_ok by lia. cbn [bind].
  rewrite IH by lia. cbn [bind].
  unfold iadd. rewrite arith_wrapping, wrap_add by exact W. reflexivity.
Qed.

(** Falling-factorial characterisation: x^n = sum_k S(n,k) x(x-1)...(x-k+1). *)
Fixpoint falling (x : Z) (k : nat) : Z :=
  match k with O => 1 | S k' => falling x k' * (x - Z.of_nat k') end.
Definition zsum (l : list Z) : Z := fold_right Z.add 0 l.

Lemma zsum_app l m : zsum (l ++ m) = zsum l + zsum m.
Proof. unfold zsum. induction l as [|a l IH]; cbn; [reflexivity|]. rewrite IH. ring. Qed.

Lemma st2_falling_sum n x m : (n <= m)%nat ->
  zsum (map (fun k => st2 n k * falling x k) (seq 0 (S m))) = x ^ Z.of_nat n.
Proof.
  revert m. induction n as [|n IH]; intros m Hm.
  - cbn [seq map]. unfold zsum. cbn [fold_right].
    change (st2 0 0 * falling x 0) with 1.
    change (fold_right Z.add 0 (map (fun k => st2 0 k * falling x k) (seq 1 m)))
      with (zsum (map (fun k => st2 0 k * falling x k) (seq 1 m))).
    assert (E : forall s, (1 <= s)%nat -> zsum (map (fun k => st2 0 k * falling x k) (seq s m)) = 0).
    { induction m as [|m IHm]; intros s Hs; [reflexivity|]. cbn [seq map].
      unfold zsum. cbn [fold_right]. change (fold_right Z.add 0 ?l) with (zsum l).
      destruct s as [|s]; [lia|]. cbn [st2].
      destruct m as [|m]; [reflexivity|]. rewrite IHm by lia. lia. }
    rewrite E by lia. reflexivity.
  - destruct m as [|m]; [lia|].
    assert (G : forall q, zsum (map (fun k => st2 (S n) k * falling x k) (seq 0 (S q))) =
      x * zsum (map (fun k => st2 n k * falling x k) (seq 0 q)) +
      Z.of_nat q * st2 n q * falling x q).
    { induction q as [|q IHq].
      - cbn. lia.
      - replace (seq 0 (S (S q))) with (seq 0 (S q) ++ [S q]) by (symmetry; apply seq_S).
        rewrite map_app, zsum_app, IHq.
        replace (seq 0 (S q)) with (seq 0 q ++ [q]) by (symmetry; apply seq_S).
        rewrite map_app, zsum_app.
        change (zsum (map ?f [?a])) with (f a + 0). cbv beta.
        cbn [st2 falling]. ring. }
    rewrite G. rewrite st2_gt by lia.
    rewrite IH by lia. rewrite (Nat2Z.inj_succ n), Z.pow_succ_r by lia. ring.
Qed.
