(** Proofs about factorial, factorial2 and factorialk. *)
From Coq Require Import List ZArith Bool Lia ZifyBool.
From Verif Require Import Base MachInt M_Special S_Special P_MachInt.
Import ListNotations.
Local Open Scope Z_scope.

Lemma zprod_app l m : zprod (l ++ m) = zprod l * zprod m.
Proof. unfold zprod. induction l as [|a l IH]; cbn [app fold_right]; [lia|]. rewrite IH. ring. Qed.

Lemma zprod_pos l : (forall v, In v l -> 1 <= v) -> 1 <= zprod l.
Proof.
  unfold zprod. induction l as [|a l IH]; intros H; cbn [fold_right]; [lia|].
  assert (1 <= a) by (apply H; left; reflexivity).
  assert (1 <= fold_right Z.mul 1 l) by (apply IH; intros; apply H; right; assumption).
  nia.
Qed.

Lemma zprod_cons a l : zprod (a :: l) = a * zprod l.
Proof. reflexivity. Qed.

Lemma zfact_pos n : 1 <= zfact n.
Proof. induction n as [|n IH]; cbn [zfact]; [lia|]. nia. Qed.

Lemma zfact_S n : zfact (S n) = Z.of_nat (S n) * zfact n.
Proof. reflexivity. Qed.

Lemma zfact_fact n : zfact n = Z.of_nat (fact n).
Proof. induction n as [|n IH]; [reflexivity|]. cbn [zfact fact]. rewrite IH. lia. Qed.

Lemma zfact_le m n : (m <= n)%nat -> zfact m <= zfact n.
Proof.
  induction 1 as [|n H IH]; [lia|]. cbn [zfact]. pose proof (zfact_pos n). nia.
Qed.

Lemma zfact_ge n : Z.of_nat n <= zfact n.
Proof. destruct n as [|n]; [simpl; lia|]. cbn [zfact]. pose proof (zfact_pos n). nia. Qed.

Lemma zprod_zrange n : 0 <= n -> zprod (zrange 1 (n + 1)) = zfact (Z.to_nat n).
Proof.
  intros H. pattern n. apply natlike_ind; [reflexivity| |exact H].
  intros x Hx IH. unfold Z.succ. rewrite zrange_snoc by lia. rewrite zprod_app, IH.
  replace (Z.to_nat (x + 1)) with (S (Z.to_nat x)) by lia. rewrite zfact_S.
  unfold zprod; cbn [fold_right]. replace (Z.of_nat (S (Z.to_nat x))) with (x + 1) by lia. ring.
Qed.

Lemma zprod_zrange_from a n : 1 <= a <= n + 1 ->
  zfact (Z.to_nat (a - 1)) * zprod (zrange a (n + 1)) = zfact (Z.to_nat n).
Proof.
  intros H. rewrite <- (zprod_zrange n) by lia. rewrite (zrange_app 1 a (n + 1)) by lia.
  rewrite zprod_app. f_equal. rewrite <- zprod_zrange by lia. do 2 f_equal. lia.
Qed.

(** Products computed by folding. *)
Definition mulstep (md : mode) (t : ity) :=
  fun result n => let! v := from_usize t n in imul md t result v.

Lemma rfold_mul_ok md t l a : imin t <= 0 ->
  1 <= a -> (forall v, In v l -> 1 <= v) -> a * zprod l <= imax t ->
  rfold (mulstep md t) l a = Ok (a * zprod l).
Proof.
  intros Hm. revert a. induction l as [|v l IH]; intros a Ha Hl Hle.
  - cbn. rewrite Z.mul_1_r. reflexivity.
  - assert (Hv : 1 <= v) by (apply Hl; left; reflexivity).
    assert (Hl' : forall w, In w l -> 1 <= w) by (intros; apply Hl; right; assumption).
    pose proof (zprod_pos l Hl') as Hp. rewrite zprod_cons in *.
    assert (Hav : a * v <= imax t) by nia.
    assert (Hv2 : v <= imax t) by nia.
    cbn [rfold mulstep bind]. unfold mulstep at 1, from_usize. rewrite convert_ok by nia. cbn [bind].
    unfold imul. rewrite arith_ok by nia. cbn [bind].
    rewrite IH; [f_equal; ring|nia|exact Hl'|nia].
Qed.

Lemma rfold_mul_panic t l a : imin t <= 0 ->
  1 <= a <= imax t -> (forall v, In v l -> 1 <= v) -> imax t < a * zprod l ->
  rfold (mulstep Checked t) l a = Panic.
Proof.
  intros Hm. revert a. induction l as [|v l IH]; intros a Ha Hl Hle.
  - cbn in Hle. lia.
  - assert (Hv : 1 <= v) by (apply Hl; left; reflexivity).
    assert (Hl' : forall w, In w l -> 1 <= w) by (intros; apply Hl; right; assumption).
    cbn [rfold]. unfold mulstep at 1, from_usize.
    destruct (Z_le_gt_dec v (imax t)) as [Hv2|Hv2].
    + rewrite convert_ok by lia. cbn [bind]. unfold imul.
      destruct (Z_le_gt_dec (a * v) (imax t)) as [Hav|Hav].
      * rewrite arith_ok by nia. cbn [bind]. apply IH; [nia|exact Hl'|].
        rewrite zprod_cons in Hle. nia.
      * rewrite arith_panic by lia. reflexivity.
    + rewrite convert_panic by lia. reflexivity.
Qed.

Lemma rfold_mul_wrapping t l a : wf_ity t ->
  (forall v, In v l -> imin t <= v <= imax t) ->
  rfold (mulstep Wrapping t) l (wrap t a) = Ok (wrap t (a * zprod l)).
Proof.
  intros W. revert a. induction l as [|v l IH]; intros a Hl.
  - cbn. rewrite Z.mul_1_r. reflexivity.
  - cbn [rfold]. unfold mulstep at 1, from_usize.
    rewrite convert_ok by (apply Hl; left; reflexivity). cbn [bind].
    unfold imul. rewrite arith_wrapping by exact W. cbn [bind].
    rewrite wrap_mul by exact W. rewrite IH by (intros; apply Hl; right; assumption).
    rewrite zprod_cons. do 2 f_equal. ring.
Qed.

(** partial_product with step 1. *)
Lemma partial_product1_ok md pw t fuel s n :
  In pw pointer_widths -> imin t <= 0 -> 1 <= s <= n -> n < imax (usize_t pw) ->
  zprod (zrange s (n + 1)) <= imax t ->
  partial_product md pw t fuel s n 1 = Ok (zprod (zrange s (n + 1))).
Proof.
  intros Hp Hm Hs Hn Hz. destruct (usize_bounds pw Hp) as [Hu0 Hu1].
  unfold partial_product. rewrite (proj2 (Z.leb_le s n)) by lia. cbn [rassert bind Z.ltb Z.compare].
  cbn [Z.eqb]. change (1 =? 1) with true. cbn iota.
  unfold to_usize. rewrite !convert_ok by lia. cbn [bind].
  unfold iadd. rewrite arith_ok by lia. cbn [bind].
  change (fun result n => _) with (mulstep md t).
  rewrite rfold_mul_ok; [rewrite Z.mul_1_l; reflexivity|exact Hm|lia| |lia].
  intros v Hv. apply zrange_In in Hv. lia.
Qed.

Lemma partial_product1_panic pw t fuel s n :
  In pw pointer_widths -> wf_ity t -> 1 <= s <= n ->
  imax t < zprod (zrange s (n + 1)) ->
  partial_product Checked pw t fuel s n 1 = Panic.
Proof.
  intros Hp W Hs Hz. destruct (usize_bounds pw Hp) as [Hu0 Hu1].
  destruct (wf_bounds t W) as (B1 & B2 & _).
  unfold partial_product. rewrite (proj2 (Z.leb_le s n)) by lia. cbn [rassert bind Z.ltb Z.compare].
  change (1 =? 1) with true. cbn iota. unfold to_usize.
  destruct (Z_le_gt_dec s (imax (usize_t pw))) as [H1|H1].
  2:{ rewrite (convert_panic _ s) by lia. reflexivity. }
  rewrite (convert_ok _ s) by lia. cbn [bind].
  destruct (Z_le_gt_dec n (imax (usize_t pw))) as [H2|H2].
  2:{ rewrite (convert_panic _ n) by lia. reflexivity. }
  rewrite convert_ok by lia. cbn [bind]. unfold iadd.
  destruct (Z_le_gt_dec (n + 1) (imax (usize_t pw))) as [H3|H3].
  2:{ rewrite arith_panic by lia. reflexivity. }
  rewrite arith_ok by lia. cbn [bind].
  change (fun result n => _) with (mulstep Checked t).
  apply rfold_mul_panic; try lia.
  intros v Hv. apply zrange_In in Hv. lia.
Qed.

(** A panic in [partial_product] or an [Ok] value: used when only the final
    multiplication overflows. *)
Lemma partial_product1_cases pw t fuel s n :
  In pw pointer_widths -> wf_ity t -> 1 <= s <= n ->
  partial_product Checked pw t fuel s n 1 = Panic \/
  partial_product Checked pw t fuel s n 1 = Ok (zprod (zrange s (n + 1))).
Proof.
  intros Hp W Hs. destruct (usize_bounds pw Hp) as [Hu0 Hu1].
  destruct (wf_bounds t W) as (B1 & B2 & _).
  destruct (Z_le_gt_dec (zprod (zrange s (n + 1))) (imax t)) as [Hz|Hz].
  2:{ left. apply partial_product1_panic; auto; lia. }
  destruct (Z_lt_ge_dec n (imax (usize_t pw))) as [Hn|Hn].
  { right. apply partial_product1_ok; auto; lia. }
  left. unfold partial_product. rewrite (proj2 (Z.leb_le s n)) by lia.
  cbn [rassert bind Z.ltb Z.compare].
  change (1 =? 1) with true. cbn iota. unfold to_usize.
  destruct (Z_le_gt_dec s (imax (usize_t pw))) as [H1|H1].
  2:{ rewrite (convert_panic _ s) by lia. reflexivity. }
  rewrite (convert_ok _ s) by lia. cbn [bind].
  destruct (Z_le_gt_dec n (imax (usize_t pw))) as [H2|H2].
  2:{ rewrite (convert_panic _ n) by lia. reflexivity. }
  rewrite convert_ok by lia. cbn [bind]. unfold iadd.
  rewrite arith_panic by lia. reflexivity.
Qed.

(** * factorial *)
Lemma fact_35_big : 2 ^ 128 <= zfact 35.
Proof. vm_compute. discriminate. Qed.

Lemma fact_small t n : wf_ity t -> zfact n <= imax t -> (n < 35)%nat.
Proof.
  intros W H. destruct (wf_bounds t W) as (_ & _ & B & _).
  destruct (le_lt_dec 35 n) as [Hn|Hn]; [|exact Hn].
  pose proof (zfact_le _ _ Hn). pose proof fact_35_big. lia.
Qed.

Lemma cache_correct n : 0 <= n < 17 ->
  index FACTORIAL_CACHE (Z.to_nat n) = Ok (zfact (Z.to_nat n)).
Proof.
  intros H.
  assert (Hs : forallb (fun i => match index FACTORIAL_CACHE i with
                          | Ok v => v =? zfact i | _ => false end) (seq 0 17) = true)
    by (vm_compute; reflexivity).
  rewrite forallb_forall in Hs. specialize (Hs (Z.to_nat n)).
  assert (Hi : In (Z.to_nat n) (seq 0 17)) by (apply in_seq; lia).
  apply Hs in Hi. destruct (index FACTORIAL_CACHE (Z.to_nat n)); try discriminate.
  apply Z.eqb_eq in Hi. subst. reflexivity.
Qed.

Lemma cache_last : index FACTORIAL_CACHE (Z.to_nat (FACTORIAL_CACHE_LEN - 1)) = Ok (zfact 16).
Proof. reflexivity. Qed.

Lemma factorial_neg md pw t fuel n : n < 0 -> primint_factorial md pw t fuel n = Ok 0.
Proof. intros H. unfold primint_factorial. rewrite (proj2 (Z.ltb_lt _ _) H). reflexivity. Qed.

Lemma factorial_unfold md pw t fuel n :
  In pw pointer_widths -> wf_ity t -> 0 <= n ->
  primint_factorial md pw t fuel n =
  if n <? 17 then convert t (zfact (Z.to_nat n))
  else let! v := convert t (zfact 16) in
       let! p := partial_product md pw t fuel 17 n 1 in imul md t v p.
Proof.
  intros Hp W Hn. destruct (usize_bounds pw Hp) as [Hu0 Hu1].
  destruct (wf_bounds t W) as (B1 & B2 & _).
  unfold primint_factorial. rewrite (proj2 (Z.ltb_ge _ _) Hn).
  unfold from_usize, FACTORIAL_CACHE_LEN. rewrite (convert_ok t 17) by lia. cbn [bind].
  destruct (Z.ltb_spec n 17) as [H|H].
  - unfold to_usize. rewrite convert_ok by lia. cbn [bind].
    rewrite cache_correct by lia. cbn [bind]. reflexivity.
  - change (index FACTORIAL_CACHE (Z.to_nat (17 - 1))) with (@Ok Z (zfact 16)).
    cbn [bind]. unfold from_u128. destruct (convert t (zfact 16)); reflexivity.
Qed.

Lemma factorial_ok md pw t fuel n :
  In pw pointer_widths -> wf_ity t -> 0 <= n -> zfact (Z.to_nat n) <= imax t ->
  primint_factorial md pw t fuel n = Ok (zfact (Z.to_nat n)).
Proof.
  intros Hp W Hn Hf. destruct (usize_bounds pw Hp) as [Hu0 Hu1].
  destruct (wf_bounds t W) as (B1 & B2 & _).
  rewrite factorial_unfold by assumption.
  pose proof (zfact_pos (Z.to_nat n)) as P0.
  destruct (Z.ltb_spec n 17) as [H|H].
  - apply convert_ok. lia.
  - pose proof (fact_small t _ W Hf) as Hsm.
    pose proof (zprod_zrange_from 17 n ltac:(lia)) as E.
    change (Z.to_nat (17 - 1)) with 16%nat in E.
    assert (P1 : 1 <= zprod (zrange 17 (n + 1))).
    { apply zprod_pos. intros v Hv. apply zrange_In in Hv. lia. }
    pose proof (zfact_pos 16) as P2.
    rewrite convert_ok by nia. cbn [bind].
    rewrite partial_product1_ok; auto; try lia; try nia. cbn [bind].
    unfold imul. rewrite E. apply arith_ok. lia.
Qed.

Lemma factorial_panic pw t fuel n :
  In pw pointer_widths -> wf_ity t -> 0 <= n -> imax t < zfact (Z.to_nat n) ->
  primint_factorial Checked pw t fuel n = Panic.
Proof.
  intros Hp W Hn Hf. destruct (wf_bounds t W) as (B1 & B2 & _).
  rewrite factorial_unfold by assumption.
  destruct (Z.ltb_spec n 17) as [H|H].
  - apply convert_panic. lia.
  - destruct (Z_le_gt_dec (zfact 16) (imax t)) as [H16|H16].
    2:{ rewrite convert_panic by lia. reflexivity. }
    pose proof (zfact_pos 16) as P2. rewrite convert_ok by lia. cbn [bind].
    destruct (partial_product1_cases pw t fuel 17 n Hp W ltac:(lia)) as [E|E]; rewrite E.
    + reflexivity.
    + cbn [bind]. unfold imul. apply arith_panic. left.
      pose proof (zprod_zrange_from 17 n ltac:(lia)) as E2.
      change (Z.to_nat (17 - 1)) with 16%nat in E2. lia.
Qed.

(** Release builds: n! modulo 2^bits when the type can hold 16! and n+1 is a usize. *)
Lemma factorial_wrapping pw t fuel n :
  In pw pointer_widths -> wf_ity t -> 17 <= n <= imax t -> n < imax (usize_t pw) ->
  zfact 16 <= imax t ->
  primint_factorial Wrapping pw t fuel n = Ok (wrap t (zfact (Z.to_nat n))).
Proof.
  intros Hp W Hn Hu H16. destruct (usize_bounds pw Hp) as [Hu0 Hu1].
  destruct (wf_bounds t W) as (B1 & B2 & _).
  rewrite factorial_unfold by (auto; lia).
  destruct (Z.ltb_spec n 17); [lia|].
  pose proof (zfact_pos 16). rewrite convert_ok by lia. cbn [bind].
  unfold partial_product. rewrite (proj2 (Z.leb_le 17 n)) by lia.
  cbn [rassert bind Z.ltb Z.compare]. change (1 =? 1) with true. cbn iota.
  unfold to_usize. rewrite !convert_ok by lia. cbn [bind].
  unfold iadd. rewrite arith_ok by lia. cbn [bind].
  change (fun result n => _) with (mulstep Wrapping t).
  assert (Q : rfold (mulstep Wrapping t) (zrange 17 (n + 1)) (wrap t 1) =
              Ok (wrap t (1 * zprod (zrange 17 (n + 1))))).
  { apply rfold_mul_wrapping; auto. intros v Hv. apply zrange_In in Hv. lia. }
  rewrite (wrap_id t 1) in Q by (auto; lia). rewrite Q.
  cbn [bind]. unfold imul. rewrite arith_wrapping by exact W.
  rewrite wrap_mul_r by exact W. f_equal. f_equal.
  rewrite Z.mul_1_l.
  pose proof (zprod_zrange_from 17 n ltac:(lia)) as E2.
  exact E2.
Qed.

(** * k-factorials *)
Lemma kfact_nonpos n k : n <= 0 -> kfact n k = 1.
Proof. intros H. unfold kfact. rewrite zrange_nil by lia. reflexivity. Qed.

Lemma filter_none {A} (f : A -> bool) l : (forall x, In x l -> f x = false) -> filter f l = [].
Proof.
  induction l as [|a l IH]; intros H; [reflexivity|]. cbn [filter].
  rewrite (H a) by (left; reflexivity). apply IH. intros; apply H; right; assumption.
Qed.

Lemma kfact_rec n k : 1 <= k -> 1 <= n -> kfact n k = n * kfact (n - k) k.
Proof.
  intros Hk Hn. unfold kfact. rewrite zrange_snoc by lia.
  rewrite filter_app, zprod_app. cbn [filter].
  rewrite Z.sub_diag, Z.mod_0_l by lia. cbn [Z.eqb].
  change (0 =? 0) with true. cbn iota.
  destruct (Z_le_gt_dec n k) as [H|H].
  - rewrite (zrange_nil 1 (n - k + 1)) by lia.
    rewrite (filter_none _ (zrange 1 n)).
    + unfold zprod; cbn [filter fold_right]; lia.
    + intros x Hx. apply zrange_In in Hx. apply Z.eqb_neq. rewrite Z.mod_small by lia. lia.
  - rewrite (zrange_app 1 (n - k + 1) n) by lia. rewrite filter_app, zprod_app.
    rewrite (filter_none _ (zrange (n - k + 1) n)).
    2:{ intros x Hx. apply zrange_In in Hx. apply Z.eqb_neq. rewrite Z.mod_small by lia. lia. }
    rewrite (filter_ext_in (fun m => (n - m) mod k =? 0) (fun m => (n - k - m) mod k =? 0)).
    2:{ intros m Hm. f_equal. replace (n - k - m) with (n - m + (-1) * k) by lia.
        rewrite Z.mod_add by lia. reflexivity. }
    unfold zprod; cbn [fold_right]. lia.
Qed.

Lemma kfact_pos n k : 1 <= k -> 1 <= kfact n k.
Proof.
  intros Hk. unfold kfact. apply zprod_pos. intros v Hv.
  apply filter_In in Hv. destruct Hv as [Hv _]. apply zrange_In in Hv. lia.
Qed.

Lemma kfact_mono n k : 1 <= k -> kfact (n - k) k <= kfact n k.
Proof.
  intros Hk. destruct (Z_le_gt_dec n 0) as [H|H].
  - rewrite !kfact_nonpos by lia. lia.
  - rewrite (kfact_rec n k) by lia. pose proof (kfact_pos (n - k) k Hk). nia.
Qed.

Lemma kfact_ge n k : 1 <= k -> n <= kfact n k.
Proof.
  intros Hk. destruct (Z_le_gt_dec n 0) as [H|H].
  - rewrite kfact_nonpos by lia. lia.
  - rewrite (kfact_rec n k) by lia. pose proof (kfact_pos (n - k) k Hk). nia.
Qed.

Lemma kfact_1 n : 0 <= n -> kfact n 1 = zfact (Z.to_nat n).
Proof.
  intros H. unfold kfact. rewrite <- zprod_zrange by lia. f_equal.
  induction (zrange 1 (n + 1)) as [|a l IH]; [reflexivity|]. cbn [filter].
  rewrite Z.mod_1_r. change (0 =? 0) with true. cbn iota. f_equal. exact IH.
Qed.

(** The loop starting at [s] (congruent to n) with result = kfact (s-k).
    [j] iterations remain: s + (j-1) k = n. *)
Lemma pp_loop_ok md t k n : imin t <= 0 -> 1 <= k ->
  kfact n k <= imax t -> n + k <= imax t ->
  forall (j : nat) s fuel, 1 <= s -> s + (Z.of_nat j) * k = n + k -> (j < fuel)%nat ->
  kfact (s - k) k <= imax t ->
  pp_loop md t fuel (kfact (s - k) k) s n k = Ok (kfact n k).
Proof.
  intros Hm Hk Hf Hnk. induction j as [|j IH]; intros s fuel Hs Hj Hfu Hi.
  - destruct fuel as [|f]; [lia|]. cbn [pp_loop].
    replace (s <=? n) with false by lia. do 2 f_equal. lia.
  - destruct fuel as [|f]; [lia|]. cbn [pp_loop].
    replace (s <=? n) with true by nia.
    assert (E : kfact (s - k) k * s = kfact s k) by (rewrite (kfact_rec s k) by lia; ring).
    assert (Hmono : kfact s k <= kfact n k).
    { assert (G : forall i : nat, kfact s k <= kfact (s + Z.of_nat i * k) k).
      { induction i as [|i IHi]; [replace (s + Z.of_nat 0 * k) with s by lia; lia|].
        pose proof (kfact_mono (s + Z.of_nat (S i) * k) k Hk) as Q.
        replace (s + Z.of_nat (S i) * k - k) with (s + Z.of_nat i * k) in Q by lia. lia. }
      specialize (G j). replace (s + Z.of_nat j * k) with n in G by nia. exact G. }
    unfold imul. rewrite E. pose proof (kfact_pos s k Hk).
    rewrite arith_ok by lia. cbn [bind].
    unfold iadd. rewrite arith_ok by nia. cbn [bind].
    replace (kfact s k) with (kfact (s + k - k) k) by (f_equal; lia).
    apply IH; try lia. replace (s + k - k) with s by lia. lia.
Qed.

Lemma pp_loop_panic t k n : imin t <= 0 -> 1 <= k ->
  imax t < kfact n k \/ imax t < n + k ->
  forall (j : nat) s fuel, 1 <= s -> s <= imax t -> s + (Z.of_nat j) * k = n -> (j < fuel)%nat ->
  kfact (s - k) k <= imax t ->
  pp_loop Checked t fuel (kfact (s - k) k) s n k = Panic.
Proof.
  intros Hm Hk Hbad. induction j as [|j IH]; intros s fuel Hs Hsm Hj Hfu Hi.
  - destruct fuel as [|f]; [lia|]. cbn [pp_loop].
    replace (s <=? n) with true by lia.
    assert (E : kfact (s - k) k * s = kfact s k) by (rewrite (kfact_rec s k) by lia; ring).
    unfold imul. rewrite E. pose proof (kfact_pos s k Hk).
    assert (s = n) by lia. subst s.
    destruct (Z_le_gt_dec (kfact n k) (imax t)) as [G|G].
    + rewrite arith_ok by lia. cbn [bind]. unfold iadd. rewrite arith_panic by lia. reflexivity.
    + rewrite arith_panic by lia. reflexivity.
  - destruct fuel as [|f]; [lia|]. cbn [pp_loop].
    replace (s <=? n) with true by nia.
    assert (E : kfact (s - k) k * s = kfact s k) by (rewrite (kfact_rec s k) by lia; ring).
    unfold imul. rewrite E. pose proof (kfact_pos s k Hk).
    destruct (Z_le_gt_dec (kfact s k) (imax t)) as [G|G].
    + rewrite arith_ok by lia. cbn [bind]. unfold iadd.
      destruct (Z_le_gt_dec (s + k) (imax t)) as [G2|G2].
      * rewrite arith_ok by lia. cbn [bind].
        replace (kfact s k) with (kfact (s + k - k) k) by (f_equal; lia).
        apply IH; try lia. replace (s + k - k) with s by lia. lia.
      * rewrite arith_panic by lia. reflexivity.
    + rewrite arith_panic by lia. reflexivity.
Qed.

(** partial_product with step >= 2 from the residue representative. *)
Lemma pp_term_ok md pw t s n k (j : nat) : wf_ity t -> 2 <= k -> 1 <= s <= n -> s <= k ->
  s + Z.of_nat j * k = n -> kfact n k <= imax t -> n + k <= imax t ->
  terminates_with (fun f => partial_product md pw t f s n k) (Ok (kfact n k)).
Proof.
  intros W Hk Hs Hsk Hj H1 H2. destruct (wf_bounds t W) as (B1 & B2 & _).
  split; [discriminate|]. exists (S (S j)). intros f Hf.
  unfold partial_product. replace (0 <? k) with true by lia. replace (s <=? n) with true by lia.
  cbn [rassert bind]. replace (k =? 1) with false by lia. cbn iota.
  replace 1 with (kfact (s - k) k) at 1 by (apply kfact_nonpos; lia).
  apply (pp_loop_ok md t k n B1 ltac:(lia) H1 H2 (S j)); try lia.
  rewrite kfact_nonpos by lia. lia.
Qed.

Lemma pp_term_panic pw t s n k (j : nat) : wf_ity t -> 2 <= k -> 1 <= s <= n -> s <= k ->
  s + Z.of_nat j * k = n -> n <= imax t -> imax t < kfact n k \/ imax t < n + k ->
  terminates_with (fun f => partial_product Checked pw t f s n k) Panic.
Proof.
  intros W Hk Hs Hsk Hj H1 H2. destruct (wf_bounds t W) as (B1 & B2 & _).
  split; [discriminate|]. exists (S j). intros f Hf.
  unfold partial_product. replace (0 <? k) with true by lia. replace (s <=? n) with true by lia.
  cbn [rassert bind]. replace (k =? 1) with false by lia. cbn iota.
  replace 1 with (kfact (s - k) k) at 1 by (apply kfact_nonpos; lia).
  apply (pp_loop_panic t k n B1 ltac:(lia) H2 j); try lia.
  rewrite kfact_nonpos by lia. lia.
Qed.

(** * factorialk *)
Lemma factorialk_neg_k md pw t fuel n k : k <= 0 -> primint_factorialk md pw t fuel n k = Panic.
Proof. intros H. unfold primint_factorialk. replace (0 <? k) with false by lia. reflexivity. Qed.

Lemma factorialk_neg md pw t fuel n k : 0 < k -> n < 0 -> primint_factorialk md pw t fuel n k = Ok 0.
Proof.
  intros H1 H2. unfold primint_factorialk. replace (0 <? k) with true by lia.
  cbn [rassert bind]. replace (n <? 0) with true by lia. reflexivity.
Qed.

Lemma factorialk_zero md pw t fuel k : 0 < k -> primint_factorialk md pw t fuel 0 k = Ok 1.
Proof.
  intros H1. unfold primint_factorialk. replace (0 <? k) with true by lia. reflexivity.
Qed.

Lemma factorialk_unfold md pw t fuel n k : wf_ity t -> 0 < k <= imax t -> 1 <= n <= imax t ->
  primint_factorialk md pw t fuel n k =
  partial_product md pw t fuel (if n mod k =? 0 then k else n mod k) n k.
Proof.
  intros W Hk Hn. destruct (wf_bounds t W) as (B1 & B2 & _).
  unfold primint_factorialk. replace (0 <? k) with true by lia. cbn [rassert bind].
  replace (n <? 0) with false by lia. replace (n =? 0) with false by lia.
  rewrite idiv_ok by lia. cbn [bind].
  pose proof (Z.div_mod n k ltac:(lia)) as E. pose proof (Z.mod_pos_bound n k ltac:(lia)).
  assert (0 <= n / k) by (apply Z.div_pos; lia).
  unfold imul. rewrite arith_ok by nia. cbn [bind].
  unfold isub. rewrite arith_ok by nia. cbn [bind].
  replace (n - k * (n / k)) with (n mod k) by lia.
  destruct (n mod k =? 0); reflexivity.
Qed.

Lemma start_props n k : 0 < k -> 1 <= n ->
  let s := if n mod k =? 0 then k else n mod k in
  1 <= s <= n /\ s <= k /\ exists j : nat, s + Z.of_nat j * k = n.
Proof.
  intros Hk Hn s. pose proof (Z.div_mod n k ltac:(lia)) as E.
  pose proof (Z.mod_pos_bound n k ltac:(lia)) as B.
  assert (Hq : 0 <= n / k) by (apply Z.div_pos; lia).
  subst s. destruct (Z.eqb_spec (n mod k) 0) as [H|H].
  - assert (1 <= n / k) by nia. split; [nia|]. split; [lia|].
    exists (Z.to_nat (n / k - 1)). rewrite Z2Nat.id by lia. nia.
  - split; [nia|]. split; [lia|].
    exists (Z.to_nat (n / k)). rewrite Z2Nat.id by lia. nia.
Qed.

Lemma factorialk_ok md pw t n k :
  In pw pointer_widths -> wf_ity t -> 0 < k <= imax t -> 1 <= n <= imax t ->
  kfact n k <= imax t -> k = 1 \/ n + k <= imax t ->
  terminates_with (fun f => primint_factorialk md pw t f n k) (Ok (kfact n k)).
Proof.
  intros Hp W Hk Hn Hf Hnk. destruct (wf_bounds t W) as (B1 & B2 & _).
  destruct (usize_bounds pw Hp) as [Hu0 Hu1].
  destruct (Z.eq_dec k 1) as [->|Hk1].
  - apply terminates_const; [discriminate|]. intros f.
    rewrite factorialk_unfold by (auto; lia). rewrite Z.mod_1_r. change (0 =? 0) with true. cbn iota.
    rewrite kfact_1 in * by lia.
    pose proof (fact_small t _ W Hf). rewrite <- zprod_zrange in * by lia.
    apply partial_product1_ok; auto; lia.
  - destruct (start_props n k ltac:(lia) ltac:(lia)) as (S1 & S2 & j & S3).
    destruct (pp_term_ok md pw t _ n k j W ltac:(lia) S1 S2 S3 Hf ltac:(lia)) as [T1 [f0 T2]].
    split; [exact T1|]. exists f0. intros f Hf0. rewrite factorialk_unfold by (auto; lia).
    apply T2. exact Hf0.
Qed.

Lemma factorialk_panic pw t n k :
  In pw pointer_widths -> wf_ity t -> 0 < k <= imax t -> 1 <= n <= imax t ->
  imax t < kfact n k \/ (k <> 1 /\ imax t < n + k) ->
  terminates_with (fun f => primint_factorialk Checked pw t f n k) Panic.
Proof.
  intros Hp W Hk Hn Hbad. destruct (wf_bounds t W) as (B1 & B2 & _).
  destruct (Z.eq_dec k 1) as [->|Hk1].
  - apply terminates_const; [discriminate|]. intros f.
    rewrite factorialk_unfold by (auto; lia). rewrite Z.mod_1_r. change (0 =? 0) with true. cbn iota.
    rewrite kfact_1 in * by lia. rewrite <- zprod_zrange in * by lia.
    apply partial_product1_panic; auto; lia.
  - destruct (start_props n k ltac:(lia) ltac:(lia)) as (S1 & S2 & j & S3).
    destruct (pp_term_panic pw t _ n k j W ltac:(lia) S1 S2 S3 ltac:(lia) ltac:(lia)) as [T1 [f0 T2]].
    split; [exact T1|]. exists f0. intros f Hf0. rewrite factorialk_unfold by (auto; lia).
    apply T2. exact Hf0.
Qed.

(** Release-mode non-termination: the counter of the [while] loop wraps below
    [stop] for ever when [stop] is the largest value of the type. *)
Lemma pp_loop_diverges t stop step : wf_ity t -> stop = imax t ->
  forall fuel result start, pp_loop Wrapping t fuel result start stop step = OutOfFuel \/ stop < start.
Proof.
  intros W ->. induction fuel as [|f IH]; intros result start; [left; reflexivity|].
  cbn [pp_loop]. destruct (Z.leb_spec start (imax t)) as [H|H]; [|right; lia].
  left. unfold imul, iadd. rewrite !arith_wrapping by exact W. cbn [bind].
  destruct (IH (wrap t (result * start)) (wrap t (start + step))) as [E|E]; [exact E|].
  pose proof (wrap_range t (start + step) W). lia.
Qed.

Lemma factorialk_diverges pw t k : wf_ity t -> 2 <= k <= imax t ->
  diverges (fun f => primint_factorialk Wrapping pw t f (imax t) k).
Proof.
  intros W Hk f. destruct (wf_bounds t W) as (B1 & B2 & _).
  rewrite factorialk_unfold by (auto; lia).
  destruct (start_props (imax t) k ltac:(lia) ltac:(lia)) as (S1 & S2 & j & S3).
  unfold partial_product. replace (0 <? k) with true by lia.
  destruct (Z.leb_spec (if imax t mod k =? 0 then k else imax t mod k) (imax t)) as [H|H]; [|lia].
  cbn [rassert bind]. replace (k =? 1) with false by lia. cbn iota.
  edestruct (pp_loop_diverges t (imax t) k W eq_refl f) as [E|E]; [exact E|]. lia.
Qed.

(** * factorial2 *)
Lemma cache2_correct n : 0 <= n < 33 ->
  index FACTORIAL2_CACHE (Z.to_nat n) = Ok (kfact n 2).
Proof.
  intros H.
  assert (Hs : forallb (fun i => match index FACTORIAL2_CACHE i with
                          | Ok v => v =? kfact (Z.of_nat i) 2 | _ => false end) (seq 0 33) = true)
    by (vm_compute; reflexivity).
  rewrite forallb_forall in Hs. specialize (Hs (Z.to_nat n)).
  assert (Hi : In (Z.to_nat n) (seq 0 33)) by (apply in_seq; lia).
  apply Hs in Hi. rewrite Z2Nat.id in Hi by lia.
  destruct (index FACTORIAL2_CACHE (Z.to_nat n)); try discriminate.
  apply Z.eqb_eq in Hi. subst. reflexivity.
Qed.

Lemma factorial2_neg md pw t fuel n : n < 0 -> primint_factorial2 md pw t fuel n = Ok 0.
Proof. intros H. unfold primint_factorial2. rewrite (proj2 (Z.ltb_lt _ _) H). reflexivity. Qed.

Lemma land1 n : 0 <= n -> Z.land n 1 = n mod 2.
Proof. intros H. change 1 with (Z.ones 1). rewrite Z.land_ones by lia. reflexivity. Qed.

Lemma factorial2_unfold md pw t fuel n :
  In pw pointer_widths -> wf_ity t -> 0 <= n ->
  primint_factorial2 md pw t fuel n =
  if n <? 33 then convert t (kfact n 2)
  else let s := if n mod 2 =? 0 then 34 else 33 in
       let! v := convert t (kfact (s - 2) 2) in
       let! p := partial_product md pw t fuel s n 2 in imul md t v p.
Proof.
  intros Hp W Hn. destruct (usize_bounds pw Hp) as [Hu0 Hu1].
  destruct (wf_bounds t W) as (B1 & B2 & _).
  unfold primint_factorial2. rewrite (proj2 (Z.ltb_ge _ _) Hn).
  unfold from_usize, FACTORIAL2_CACHE_LEN. rewrite (convert_ok t 33) by lia. cbn [bind].
  destruct (Z.ltb_spec n 33) as [H|H].
  - unfold to_usize. rewrite convert_ok by lia. cbn [bind].
    rewrite cache2_correct by lia. cbn [bind]. reflexivity.
  - unfold iadd at 1. rewrite arith_ok by lia. cbn [bind].
    change (negb (Z.land 33 1 =? 0)) with true. rewrite andb_true_r, land1 by lia.
    destruct (n mod 2 =? 0); cbv zeta.
    + rewrite cache2_correct by lia. cbn [bind]. unfold from_u128.
      change (33 + 1) with 34. rewrite (convert_ok t 34) by lia.
      change (33 - 1) with (34 - 2). destruct (convert t (kfact (34 - 2) 2)); reflexivity.
    + rewrite cache2_correct by lia. cbn [bind]. unfold from_u128.
      destruct (convert t (kfact (33 - 2) 2)); reflexivity.
Qed.

(** General product of an arithmetic progression: loop started in the middle. *)
Lemma pp_loop_mid_ok md t k n c : imin t <= 0 -> 1 <= k -> 1 <= c ->
  forall (j : nat) s r fuel, 1 <= s -> 1 <= r -> s + (Z.of_nat j) * k = n + k -> (j < fuel)%nat ->
  c * r = kfact (s - k) k -> r * c <= imax t -> kfact n k <= imax t -> n + k <= imax t ->
  exists p, pp_loop md t fuel r s n k = Ok p /\ 1 <= p /\ c * p = kfact n k.
Proof.
  intros Hm Hk Hc. induction j as [|j IH]; intros s r fuel Hs Hr Hj Hfu Hcr Hi Hf Hnk.
  - destruct fuel as [|f]; [lia|]. cbn [pp_loop].
    replace (s <=? n) with false by lia. exists r. repeat split; try lia.
    rewrite Hcr. f_equal. lia.
  - destruct fuel as [|f]; [lia|]. cbn [pp_loop].
    replace (s <=? n) with true by nia.
    assert (E : kfact s k = s * kfact (s - k) k) by (apply kfact_rec; lia).
    assert (Hmono : kfact s k <= kfact n k).
    { assert (G : forall i : nat, kfact s k <= kfact (s + Z.of_nat i * k) k).
      { induction i as [|i IHi]; [replace (s + Z.of_nat 0 * k) with s by lia; lia|].
        pose proof (kfact_mono (s + Z.of_nat (S i) * k) k Hk) as Q.
        replace (s + Z.of_nat (S i) * k - k) with (s + Z.of_nat i * k) in Q by lia. lia. }
      specialize (G j). replace (s + Z.of_nat j * k) with n in G by nia. exact G. }
    unfold imul. rewrite arith_ok by nia. cbn [bind].
    unfold iadd. rewrite arith_ok by nia. cbn [bind].
    apply IH; try lia; try nia. replace (s + k - k) with s by lia. nia.
Qed.

Lemma pp_loop_mid_checked t k n c : imin t <= 0 -> 1 <= k -> 1 <= c ->
  forall (j : nat) s r fuel, 1 <= s -> 1 <= r -> s + (Z.of_nat j) * k = n + k -> (j < fuel)%nat ->
  c * r = kfact (s - k) k ->
  pp_loop Checked t fuel r s n k = Panic \/
  exists p, pp_loop Checked t fuel r s n k = Ok p /\ c * p = kfact n k.
Proof.
  intros Hm Hk Hc. induction j as [|j IH]; intros s r fuel Hs Hr Hj Hfu Hcr.
  - destruct fuel as [|f]; [lia|]. cbn [pp_loop].
    replace (s <=? n) with false by lia. right. exists r. repeat split; try lia.
    rewrite Hcr. f_equal. lia.
  - destruct fuel as [|f]; [lia|]. cbn [pp_loop].
    replace (s <=? n) with true by nia.
    assert (E : kfact s k = s * kfact (s - k) k) by (apply kfact_rec; lia).
    unfold imul. destruct (Z_le_gt_dec (r * s) (imax t)) as [G|G].
    2:{ rewrite arith_panic by lia. left. reflexivity. }
    rewrite arith_ok by nia. cbn [bind]. unfold iadd.
    destruct (Z_le_gt_dec (s + k) (imax t)) as [G2|G2].
    2:{ rewrite arith_panic by lia. left. reflexivity. }
    rewrite arith_ok by nia. cbn [bind].
    apply IH; try lia; try nia. replace (s + k - k) with s by lia. nia.
Qed.

Lemma kfact2_ge n : 5 <= n -> n + 2 <= kfact n 2.
Proof.
  intros H. rewrite (kfact_rec n 2) by lia.
  pose proof (kfact_ge (n - 2) 2 ltac:(lia)). nia.
Qed.

Lemma s2_props n : 33 <= n -> exists j : nat,
  (if n mod 2 =? 0 then 34 else 33) + Z.of_nat j * 2 = n + 2.
Proof.
  intros H. pose proof (Z.div_mod n 2 ltac:(lia)) as E. pose proof (Z.mod_pos_bound n 2 ltac:(lia)).
  destruct (Z.eqb_spec (n mod 2) 0).
  - exists (Z.to_nat (n / 2 - 16)). lia.
  - exists (Z.to_nat (n / 2 - 15)). lia.
Qed.

Lemma factorial2_ok md pw t n :
  In pw pointer_widths -> wf_ity t -> 0 <= n -> kfact n 2 <= imax t ->
  terminates_with (fun f => primint_factorial2 md pw t f n) (Ok (kfact n 2)).
Proof.
  intros Hp W Hn Hf. destruct (wf_bounds t W) as (B1 & B2 & _).
  split; [discriminate|]. pose proof (kfact_pos n 2 ltac:(lia)) as P0.
  destruct (n <? 33) eqn:EQ; [apply Z.ltb_lt in EQ as H|apply Z.ltb_ge in EQ as H].
  - exists O. intros f _. rewrite factorial2_unfold by assumption. rewrite EQ.
    apply convert_ok. lia.
  - destruct (s2_props n H) as [j Hj]. exists (S j). intros f Hfu.
    rewrite factorial2_unfold by assumption. rewrite EQ. cbv zeta.
    set (s := if n mod 2 =? 0 then 34 else 33) in *.
    assert (Hs : 33 <= s <= 34) by (unfold s; destruct (n mod 2 =? 0); lia).
    assert (Hsn : s <= n).
    { unfold s. destruct (Z.eqb_spec (n mod 2) 0) as [E|E]; [|lia].
      assert (n <> 33) by (intros ->; discriminate E). lia. }
    pose proof (kfact2_ge n ltac:(lia)) as Hge.
    assert (Hmono : kfact (s - 2) 2 <= kfact n 2).
    { assert (G : forall i : nat, kfact (s - 2) 2 <= kfact (s - 2 + Z.of_nat i * 2) 2).
      { induction i as [|i IHi]; [replace (s - 2 + Z.of_nat 0 * 2) with (s - 2) by lia; lia|].
        pose proof (kfact_mono (s - 2 + Z.of_nat (S i) * 2) 2 ltac:(lia)) as Q.
        replace (s - 2 + Z.of_nat (S i) * 2 - 2) with (s - 2 + Z.of_nat i * 2) in Q by lia. lia. }
      specialize (G j). replace (s - 2 + Z.of_nat j * 2) with n in G by lia. exact G. }
    pose proof (kfact_pos (s - 2) 2 ltac:(lia)) as P1.
    rewrite convert_ok by lia. cbn [bind].
    unfold partial_product. replace (s <=? n) with true by lia. cbn [rassert bind Z.ltb Z.compare].
    change (2 =? 1) with false. cbn iota.
    destruct (pp_loop_mid_ok md t 2 n (kfact (s - 2) 2) B1 ltac:(lia) P1 j s 1 f
                ltac:(lia) ltac:(lia) Hj ltac:(lia) ltac:(lia) ltac:(lia) Hf ltac:(lia)) as (p & E & Hp1 & Hp2).
    rewrite E. cbn [bind]. unfold imul. rewrite Hp2. apply arith_ok. lia.
Qed.

Lemma factorial2_panic pw t n :
  In pw pointer_widths -> wf_ity t -> 0 <= n -> imax t < kfact n 2 ->
  terminates_with (fun f => primint_factorial2 Checked pw t f n) Panic.
Proof.
  intros Hp W Hn Hf. destruct (wf_bounds t W) as (B1 & B2 & _).
  split; [discriminate|].
  destruct (n <? 33) eqn:EQ; [apply Z.ltb_lt in EQ as H|apply Z.ltb_ge in EQ as H].
  - exists O. intros f _. rewrite factorial2_unfold by assumption. rewrite EQ.
    apply convert_panic. lia.
  - destruct (s2_props n H) as [j Hj]. exists (S j). intros f Hfu.
    rewrite factorial2_unfold by assumption. rewrite EQ. cbv zeta.
    set (s := if n mod 2 =? 0 then 34 else 33) in *.
    assert (Hs : 33 <= s <= 34) by (unfold s; destruct (n mod 2 =? 0); lia).
    assert (Hsn : s <= n).
    { unfold s. destruct (Z.eqb_spec (n mod 2) 0) as [E|E]; [|lia].
      assert (n <> 33) by (intros ->; discriminate E). lia. }
    pose proof (kfact_pos (s - 2) 2 ltac:(lia)) as P1.
    destruct (Z_le_gt_dec (kfact (s - 2) 2) (imax t)) as [G|G].
    2:{ rewrite convert_panic by lia. reflexivity. }
    rewrite convert_ok by lia. cbn [bind].
    unfold partial_product. replace (s <=? n) with true by lia. cbn [rassert bind Z.ltb Z.compare].
    change (2 =? 1) with false. cbn iota.
    destruct (pp_loop_mid_checked t 2 n (kfact (s - 2) 2) B1 ltac:(lia) P1 j s 1 f
                ltac:(lia) ltac:(lia) Hj ltac:(lia) ltac:(lia)) as [E|(p & E & Hp2)]; rewrite E.
    + reflexivity.
    + cbn [bind]. unfold imul. rewrite Hp2. apply arith_panic. lia.
Qed.
