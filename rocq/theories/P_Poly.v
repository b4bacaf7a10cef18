(** Proofs about [poly_dyn] and [zpk2tf_dyn]. *)
From Coq Require Import List Arith ZArith Reals Permutation Sorted Lra Lia.
From Verif Require Import Base Num Trans M_Linalg M_Complex M_Fourier M_Filter M_Design RSum Cx S_Design P_MachInt P_Savgol P_Ext.
Import ListNotations.
Local Open Scope R_scope.

(** Multiplication by (x - z) on coefficient lists. *)
Definition pstep (a : list C) (z : C) : list C :=
  map (fun i => cadd (nth i a C0) (cmul (cneg z) (match i with O => C0 | S j => nth j a C0 end))) (seq 0 (length a + 1)).

Lemma index_nth {A} (l : list A) i d : (i < length l)%nat -> index l i = Ok (nth i l d).
Proof. intros Hi. unfold index. rewrite (nth_error_nth' l d) by exact Hi. reflexivity. Qed.
Lemma pstep_length a z : length (pstep a z) = (length a + 1)%nat.
Proof. unfold pstep. rewrite map_length, seq_length. reflexivity. Qed.
Lemma pstep_nth a z i : nth i (pstep a z) C0 = cadd (nth i a C0) (cmul (cneg z) (match i with O => C0 | S j => nth j a C0 end)).
Proof.
  destruct (Nat.lt_ge_cases i (length a + 1)) as [Hi|Hi].
  - unfold pstep. rewrite nth_map_seq' by exact Hi. reflexivity.
  - rewrite nth_overflow by (rewrite pstep_length; lia). rewrite (nth_overflow a) by lia.
    destruct i as [|j]; [lia|]. rewrite (nth_overflow a) by lia. ring.
Qed.

Lemma rfold_noop {A B} (f : A -> B -> res A) l a : (forall b, In b l -> f a b = Ok a) -> rfold f l a = Ok a.
Proof.
  induction l as [|b l IH]; intros Hn; [reflexivity|]. cbn [rfold]. rewrite Hn by (left; reflexivity). cbn [bind].
  apply IH. intros c Hc. apply Hn. right. exact Hc.
Qed.

Section Pass.
Variables (a : list C) (z : C).
Hypothesis Ha : (0 < length a)%nat.
Notation kk := [C1; cneg z].

Lemma accumulate (b : list C) i u : (i < length b)%nat -> (u < length a)%nat -> (u <= i < u + 2)%nat ->
  exists b', (let! d := usub i u in
    if Nat.ltb d 2 then
      let! au := index a u in let! ki := index kk d in let! bi := index b i in
      set_index b i (cadd bi (cmul au ki)) else Ok b) = Ok b' /\ length b' = length b /\
    forall k, nth k b' C0 = if (k =? i)%nat then cadd (nth i b C0) (cmul (nth u a C0) (nth (i - u) kk C0)) else nth k b C0.
Proof.
  intros Hi Hu Hr. rewrite usub_ok by lia. cbn [bind]. destruct (Nat.ltb_spec (i - u) 2); [|lia].
  rewrite (index_nth a u C0) by exact Hu. cbn [bind]. rewrite (index_nth kk (i - u) C0) by (cbn [length]; lia). cbn [bind].
  rewrite (index_nth b i C0) by exact Hi. cbn [bind]. apply set_index_nth. exact Hi.
Qed.

Definition pass_body (b : list C) (i : nat) : res (list C) :=
    let! u_i := if Nat.ltb (length a) i then usub i 2 else Ok 0%nat in
    let! l1 := usub (length a) 1 in
    let u_f := Nat.min i l1 in
    if Nat.eqb u_i u_f then
      let! au := index a u_i in
      let! d := usub i u_i in
      let! ki := index kk d in
      let! bi := index b i in
      set_index b i (cadd bi (cmul au ki))
    else
      rfold (fun b u =>
        let! d := usub i u in
        if Nat.ltb d 2 then
          let! au := index a u in
          let! ki := index kk d in
          let! bi := index b i in
          set_index b i (cadd bi (cmul au ki))
        else Ok b) (seq u_i (u_f + 1 - u_i)) b.

Lemma pass_body_ok (b : list C) i : (i < length b)%nat -> (i <= length a)%nat -> nth i b C0 = C0 ->
  exists b', pass_body b i = Ok b' /\ length b' = length b /\
    forall k, nth k b' C0 = if (k =? i)%nat then nth i (pstep a z) C0 else nth k b C0.
Proof.
  intros Hb Hi H0. unfold pass_body. destruct (Nat.ltb_spec (length a) i); [lia|]. cbn [bind].
  rewrite usub_ok by lia. cbn [bind].
  destruct (Nat.eqb_spec 0 (Nat.min i (length a - 1))) as [E|E].
  - (* i = 0 or a single coefficient *)
    rewrite (index_nth a 0 C0) by exact Ha. cbn [bind]. rewrite usub_ok by lia. cbn [bind].
    rewrite (index_nth kk (i - 0) C0) by (cbn [length]; lia). cbn [bind].
    rewrite (index_nth b i C0) by exact Hb. cbn [bind].
    destruct (set_index_nth b i (cadd (nth i b C0) (cmul (nth 0 a C0) (nth (i - 0) kk C0))) C0 Hb) as [b' [E1 [L N]]].
    exists b'. split; [exact E1|]. split; [exact L|]. intros k. rewrite N. destruct (Nat.eqb_spec k i); [|reflexivity].
    rewrite H0, pstep_nth. destruct i as [|[|j]].
    + cbn [Nat.sub nth]. ring.
    + rewrite (nth_overflow a (n := 1)) by lia. cbn [Nat.sub nth]. ring.
    + lia.
  - destruct i as [|j]; [cbn in E; lia|]. rewrite Nat.sub_0_r.
    destruct (Nat.eq_dec (S j) (length a)) as [Eq|Ne].
    + replace (Nat.min (S j) (length a - 1) + 1)%nat with (j + 1)%nat by lia.
      rewrite seq_app, rfold_app.
      rewrite rfold_noop.
      2:{ intros u Hu. apply in_seq in Hu. rewrite usub_ok by lia. cbn [bind]. destruct (Nat.ltb_spec (S j - u) 2); [lia|reflexivity]. }
      cbn [bind seq rfold Nat.add].
      destruct (accumulate b (S j) j) as [b1 [E1 [L1 N1]]]; try lia.
      cbv zeta in E1. rewrite E1. cbn [bind]. exists b1. split; [reflexivity|]. split; [exact L1|].
      intros k. rewrite N1. destruct (Nat.eqb_spec k (S j)); [|reflexivity]. rewrite H0, pstep_nth.
      rewrite (nth_overflow a (n := S j)) by lia. replace (S j - j)%nat with 1%nat by lia. cbn [nth]. ring.
    + replace (Nat.min (S j) (length a - 1) + 1)%nat with (j + 2)%nat by lia.
      rewrite seq_app, rfold_app.
      rewrite rfold_noop.
      2:{ intros u Hu. apply in_seq in Hu. rewrite usub_ok by lia. cbn [bind]. destruct (Nat.ltb_spec (S j - u) 2); [lia|reflexivity]. }
      cbn [bind seq rfold Nat.add].
      destruct (accumulate b (S j) j) as [b1 [E1 [L1 N1]]]; try lia.
      cbv zeta in E1. rewrite E1. cbn [bind].
      destruct (accumulate b1 (S j) (S j)) as [b2 [E2 [L2 N2]]]; try lia.
      cbv zeta in E2. rewrite E2. cbn [bind]. exists b2. split; [reflexivity|]. split; [lia|].
      intros k. rewrite N2. destruct (Nat.eqb_spec k (S j)) as [->|Nk].
      * rewrite N1, Nat.eqb_refl, H0, pstep_nth. replace (S j - j)%nat with 1%nat by lia. rewrite Nat.sub_diag. cbn [nth]. ring.
      * rewrite N1. destruct (Nat.eqb_spec k (S j)); [contradiction|reflexivity].
Qed.

Lemma pass_loop j : (j <= length a + 1)%nat ->
  exists b, rfold pass_body (seq 0 j) (repeat C0 (length a + 1)) = Ok b /\ length b = (length a + 1)%nat /\
    forall k, nth k b C0 = if (k <? j)%nat then nth k (pstep a z) C0 else C0.
Proof.
  induction j as [|j IH]; intros Hj.
  - exists (repeat C0 (length a + 1)). split; [reflexivity|]. split; [apply repeat_length|]. intros k. apply nth_repeat.
  - destruct IH as [b [E [L N]]]; [lia|]. rewrite seq_S, rfold_app, E. cbn [bind rfold Nat.add].
    destruct (pass_body_ok b j) as [b' [E' [L' N']]]; try lia.
    { rewrite N. destruct (Nat.ltb_spec j j); [lia|reflexivity]. }
    rewrite E'. cbn [bind]. exists b'. split; [reflexivity|]. split; [lia|]. intros k. rewrite N', N.
    destruct (Nat.eqb_spec k j) as [->|Nk].
    + destruct (Nat.ltb_spec j (S j)); [reflexivity|lia].
    + destruct (Nat.ltb_spec k j), (Nat.ltb_spec k (S j)); try lia; reflexivity.
Qed.

Lemma poly_pass_ok : poly_pass a z = Ok (pstep a z).
Proof.
  unfold poly_pass. cbv zeta. change (rfold pass_body (seq 0 (length a + 2 - 1)) (repeat C0 (length a + 1)) = Ok (pstep a z)).
  replace (length a + 2 - 1)%nat with (length a + 1)%nat by lia.
  destruct (pass_loop (length a + 1)) as [b [E [L N]]]; [lia|]. rewrite E. f_equal.
  apply (nth_ext _ _ C0 C0); [rewrite pstep_length; exact L|]. intros k Hk. rewrite N.
  destruct (Nat.ltb_spec k (length a + 1)); [reflexivity|lia].
Qed.
End Pass.

Lemma poly_fold (z : list C) : forall a, (0 < length a)%nat -> rfold poly_pass z a = Ok (fold_left pstep z a).
Proof.
  induction z as [|r z IH]; intros a Ha; [reflexivity|]. cbn [rfold fold_left]. rewrite poly_pass_ok by exact Ha.
  cbn [bind]. apply IH. rewrite pstep_length. lia.
Qed.
Lemma fold_pstep_length z : forall a, length (fold_left pstep z a) = (length a + length z)%nat.
Proof.
  induction z as [|r z IH]; intros a; cbn [fold_left length]; [lia|]. rewrite IH, pstep_length. lia.
Qed.

(** Evaluation. *)
Lemma pstep_eval a z x : poly_at (pstep a z) x = cmul (csub x z) (poly_at a x).
Proof.
  unfold poly_at. rewrite pstep_length. rewrite Nat.add_sub.
  rewrite (csum_ext _ _ (fun i => cadd (cmul (nth i a C0) (cpow x (length a - i)))
     (cmul (cneg z) (cmul (match i with O => C0 | S j => nth j a C0 end) (cpow x (length a - i)))))).
  2:{ intros i Hi. rewrite pstep_nth. ring. }
  rewrite csum_plus, csum_scale.
  replace (length a + 1)%nat with (S (length a)) by lia.
  rewrite (csum_first (length a) (fun i => cmul (match i with O => C0 | S j => nth j a C0 end) (cpow x (length a - i)))).
  cbn [csum]. rewrite (nth_overflow a (n := length a)) by lia.
  rewrite (csum_ext (length a) (fun i => cmul (nth i a C0) (cpow x (length a - i)))
     (fun i => cmul x (cmul (nth i a C0) (cpow x (length a - 1 - i))))).
  2:{ intros i Hi. replace (length a - i)%nat with (S (length a - 1 - i)) by lia. cbn [cpow]. ring. }
  rewrite csum_scale.
  rewrite (csum_ext (length a) (fun i => cmul (nth i a C0) (cpow x (length a - S i)))
     (fun i => cmul (nth i a C0) (cpow x (length a - 1 - i)))).
  2:{ intros i Hi. f_equal. f_equal. lia. }
  ring.
Qed.
Lemma fold_pstep_eval z : forall a x, poly_at (fold_left pstep z a) x = cmul (root_product z x) (poly_at a x).
Proof.
  induction z as [|r z IH]; intros a x; cbn [fold_left root_product fold_right]; [ring|].
  rewrite IH, pstep_eval. fold (root_product z x). ring.
Qed.
Definition pcoef (z : list C) : list C := fold_left pstep z [C1].
Lemma pcoef_length z : length (pcoef z) = S (length z).
Proof. unfold pcoef. rewrite fold_pstep_length. reflexivity. Qed.
Lemma pcoef_eval z x : poly_at (pcoef z) x = root_product z x.
Proof. unfold pcoef. rewrite fold_pstep_eval. unfold poly_at. cbn. apply C_ext; cbn; ring. Qed.
Lemma fold_pstep_head z : forall a, nth 0 (fold_left pstep z a) C0 = nth 0 a C0.
Proof. induction z as [|r z IH]; intros a; cbn [fold_left]; [reflexivity|]. rewrite IH, pstep_nth. ring. Qed.
Lemma pcoef_head z : nth 0 (pcoef z) C0 = C1.
Proof. unfold pcoef. rewrite fold_pstep_head. reflexivity. Qed.

(** Conjugation and permutation on coefficients. *)
Lemma pstep_comm a z w : pstep (pstep a z) w = pstep (pstep a w) z.
Proof.
  apply (nth_ext _ _ C0 C0); [rewrite !pstep_length; reflexivity|]. intros i _. rewrite !pstep_nth.
  destruct i as [|[|i]]; rewrite ?pstep_nth; ring.
Qed.
Lemma fold_pstep_perm z w : Permutation z w -> forall a, fold_left pstep z a = fold_left pstep w a.
Proof.
  induction 1; intros a; cbn [fold_left]; auto.
  - rewrite pstep_comm. reflexivity.
  - rewrite IHPermutation1. apply IHPermutation2.
Qed.
Lemma cconj_add z w : cconj (cadd z w) = cadd (cconj z) (cconj w).
Proof. cx. Qed.
Lemma cconj_sub z w : cconj (csub z w) = csub (cconj z) (cconj w).
Proof. cx. Qed.
Lemma cconj_mul z w : cconj (cmul z w) = cmul (cconj z) (cconj w).
Proof. cx. Qed.
Lemma cconj_neg z : cconj (cneg z) = cneg (cconj z).
Proof. cx. Qed.
Lemma cconj_0 : cconj C0 = C0.
Proof. cx. Qed.
Lemma cconj_1 : cconj C1 = C1.
Proof. cx. Qed.
Lemma cconj_conj z : cconj (cconj z) = z.
Proof. cx. Qed.
Lemma cconj_RtoC x : cconj (RtoC x) = RtoC x.
Proof. cx. Qed.
Lemma nth_cconj (a : list C) i : nth i (map cconj a) C0 = cconj (nth i a C0).
Proof. rewrite <- cconj_0 at 1. apply map_nth. Qed.
Lemma pstep_conj a z : map cconj (pstep a z) = pstep (map cconj a) (cconj z).
Proof.
  apply (nth_ext _ _ C0 C0); [rewrite map_length, !pstep_length, map_length; reflexivity|]. intros i _.
  rewrite nth_cconj, !pstep_nth. rewrite nth_cconj, cconj_add, cconj_mul, cconj_neg. f_equal. f_equal.
  destruct i; [apply cconj_0|]. rewrite nth_cconj. reflexivity.
Qed.
Lemma fold_pstep_conj z : forall a, map cconj (fold_left pstep z a) = fold_left pstep (map cconj z) (map cconj a).
Proof. induction z as [|r z IH]; intros a; cbn [fold_left map]; [reflexivity|]. rewrite IH, pstep_conj. reflexivity. Qed.
Lemma conj_closed_real z : conj_closed z -> Forall (fun c => cim c = 0) (pcoef z).
Proof.
  intros Hc. assert (E : map cconj (pcoef z) = pcoef z).
  { unfold pcoef. rewrite fold_pstep_conj. cbn [map]. rewrite cconj_1. apply fold_pstep_perm. exact Hc. }
  apply Forall_forall. intros c Hin. apply (In_nth _ _ C0) in Hin. destruct Hin as [i [Hi <-]].
  assert (Hq : cconj (nth i (pcoef z) C0) = nth i (pcoef z) C0) by (rewrite <- nth_cconj, E; reflexivity).
  apply (f_equal snd) in Hq. cbn in Hq. unfold cim in *. lra.
Qed.
Lemma real_is_RtoC c : cim c = 0 -> RtoC (cre c) = c.
Proof. intros Hc. apply C_ext; cbn; [reflexivity|]. symmetry. exact Hc. Qed.
Lemma map_re_id (l : list C) : Forall (fun c => cim c = 0) l -> map (fun ai => RtoC (cre ai)) l = l.
Proof.
  induction 1; cbn [map]; [reflexivity|]. rewrite real_is_RtoC by assumption. f_equal. assumption.
Qed.

(** Comparison of sorted lists. *)
Lemma ceqb_spec (z w : C) : ceqb z w = true <-> z = w.
Proof.
  unfold ceqb. cbn [neqb RNum]. unfold Reqb. destruct (Req_EM_T (cre z) (cre w)), (Req_EM_T (cim z) (cim w)); cbn [andb];
  split; intros Hx; try discriminate; try reflexivity; try (apply C_ext; assumption); subst; congruence.
Qed.
Lemma all_eq_spec x y : length x = length y -> (all_eq x y = true <-> x = y).
Proof.
  revert y. induction x as [|a x IH]; intros [|b y] L; try discriminate L; [split; reflexivity|].
  unfold all_eq. cbn [zip forallb fst snd]. rewrite Bool.andb_true_iff, ceqb_spec. fold (all_eq x y).
  rewrite IH by (injection L; auto). split; [intros [-> ->]; reflexivity|intros E; injection E; auto].
Qed.

Section Sorting.
Variable sort : forall A : Type, (A -> A -> bool) -> list A -> list A.
Hypothesis Hsort : is_sort sort.

Lemma sort_cplx_perm x : Permutation x (sort_cplx_dyn sort x).
Proof. apply (proj1 (Hsort _ le_cplx x)). Qed.
Lemma sort_cplx_length x : length (sort_cplx_dyn sort x) = length x.
Proof. symmetry. apply Permutation_length, sort_cplx_perm. Qed.

(** The check of [poly_dyn] succeeds only for conjugate-closed roots. *)
Lemma poly_check z : all_eq (sort_cplx_dyn sort z) (sort_cplx_dyn sort (map cconj z)) = true -> conj_closed z.
Proof.
  intros Hc. apply all_eq_spec in Hc; [|rewrite !sort_cplx_length, map_length; reflexivity].
  unfold conj_closed. rewrite (sort_cplx_perm (map cconj z)), <- Hc. symmetry. apply sort_cplx_perm.
Qed.

Lemma poly_dyn_ok z : poly_dyn sort z = Ok (pcoef z).
Proof.
  unfold poly_dyn. rewrite poly_fold by (cbn; lia). cbn [bind]. fold (pcoef z).
  destruct (all_eq _ _) eqn:E; [|reflexivity]. f_equal. apply map_re_id, conj_closed_real, poly_check, E.
Qed.

Lemma copy_re_nth n (l : list C) k : nth k (copy_re (repeat 0 n) l) 0 = if (k <? n)%nat then cre (nth k l C0) else 0.
Proof.
  revert l k. induction n as [|n IH]; intros l k.
  - cbn. destruct k; reflexivity.
  - destruct l as [|c l]; cbn [repeat copy_re].
    + change (0 :: repeat 0 n) with (repeat 0 (S n)). rewrite nth_repeat. destruct k as [|k]; cbn [nth]; match goal with |- context [if ?b then _ else _] => destruct b end; reflexivity.
    + destruct k as [|k]; [reflexivity|]. cbn [nth]. rewrite IH. reflexivity.
Qed.
Lemma copy_re_length n (l : list C) : length (copy_re (repeat 0 n) l) = n.
Proof. revert l. induction n as [|n IH]; intros [|c l]; cbn; try rewrite repeat_length; auto. Qed.
Lemma poly2ba_re x y k : cre (nth k (poly2ba sort x y) C0) = cre (nth k x C0).
Proof.
  assert (M : cre (nth k (map (fun xi => RtoC (cre xi)) x) C0) = cre (nth k x C0)).
  { pose proof (map_nth (fun xi : C => RtoC (cre xi)) x C0 k) as M. cbv beta in M. change (RtoC (cre C0)) with C0 in M. unfold C in *. rewrite M. reflexivity. }
  unfold poly2ba. destruct (Nat.eqb _ _); [|reflexivity]. destruct (all_eq _ _); [exact M|reflexivity].
Qed.

Definition padded_coef (order : nat) (k : R) (z : list C) : list R :=
  map (fun i => k * cre (nth i (pcoef z) C0)) (seq 0 (order + 1)).
Lemma zpk2tf_ok order z p k :
  zpk2tf_dyn sort order z p k = Ok (mkBa (padded_coef order k z) (padded_coef order 1 p)).
Proof.
  unfold zpk2tf_dyn. rewrite !poly_dyn_ok. cbn [bind]. do 2 f_equal.
  - apply (nth_ext _ _ 0 0); [rewrite copy_re_length; unfold padded_coef; rewrite map_length, seq_length; reflexivity|].
    intros i Hi. rewrite copy_re_length in Hi. rewrite copy_re_nth. destruct (Nat.ltb_spec i (order + 1)); [|lia].
    rewrite poly2ba_re. unfold padded_coef. rewrite nth_map_seq' by exact Hi.
    assert (M : nth i (map (fun bi => cmul (RtoC k) bi) (pcoef z)) C0 = cmul (RtoC k) (nth i (pcoef z) C0)).
    { replace C0 with (cmul (RtoC k) C0) at 1 by (cx). apply (map_nth (fun bi => cmul (RtoC k) bi)). }
    rewrite M. cbn. ring.
  - apply (nth_ext _ _ 0 0); [rewrite copy_re_length; unfold padded_coef; rewrite map_length, seq_length; reflexivity|].
    intros i Hi. rewrite copy_re_length in Hi. rewrite copy_re_nth. destruct (Nat.ltb_spec i (order + 1)); [|lia].
    rewrite poly2ba_re. unfold padded_coef. rewrite nth_map_seq' by exact Hi. ring.
Qed.
Lemma padded_eval order k z x : conj_closed z -> (length z <= order)%nat ->
  rpoly_at (padded_coef order k z) x = cmul (cmul (RtoC k) (root_product z x)) (cpow x (order - length z)).
Proof.
  intros Hc Hl. unfold rpoly_at, poly_at, padded_coef. rewrite map_map, map_length, seq_length.
  rewrite (csum_ext _ _ (fun i => cmul (RtoC k) (cmul (nth i (pcoef z) C0) (cpow x (order - i))))).
  2:{ intros i Hi. rewrite nth_map_seq' by exact Hi. rewrite RtoC_mul, real_is_RtoC.
      - replace (order + 1 - 1 - i)%nat with (order - i)%nat by lia. ring.
      - pose proof (conj_closed_real z Hc) as Fr. destruct (Nat.lt_ge_cases i (length (pcoef z))) as [Hn|Hn].
        + rewrite Forall_forall in Fr. apply Fr, nth_In, Hn.
        + rewrite nth_overflow by exact Hn. reflexivity. }
  rewrite csum_scale. replace (order + 1)%nat with (S (length z) + (order - length z))%nat by lia.
  rewrite csum_add, (csum_zero (order - length z)).
  2:{ intros i Hi. rewrite nth_overflow by (rewrite pcoef_length; lia). ring. }
  rewrite <- (pcoef_eval z x). unfold poly_at. rewrite pcoef_length.
  rewrite (csum_ext _ (fun i => cmul (nth i (pcoef z) C0) (cpow x (order - i)))
     (fun i => cmul (cmul (nth i (pcoef z) C0) (cpow x (S (length z) - 1 - i))) (cpow x (order - length z)))).
  2:{ intros i Hi. replace (order - i)%nat with ((S (length z) - 1 - i) + (order - length z))%nat by lia. rewrite cpow_add. ring. }
  rewrite csum_scale_r. ring.
Qed.
End Sorting.
