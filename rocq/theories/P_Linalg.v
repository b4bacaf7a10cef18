(** Matrix writes, companion matrix. *)
From Coq Require Import List Arith Bool Lia Field.
From Verif Require Import Base Num M_Linalg ListUtil S_Linalg.
Import ListNotations.

Section Writes.
Context {F : Type}.
Definition hits (w : nat * nat * F) (i j : nat) : bool :=
  Nat.eqb i (fst (fst w)) && Nat.eqb j (snd (fst w)).
Definition do_writes (ws : list (nat * nat * F)) (M : mat F) : res (mat F) :=
  rfold (fun mm (w : nat * nat * F) => let '(i, j, t) := w in mset_unchecked mm i j t) ws M.

Lemma do_writes_ok ws M :
  (forall w, In w ws -> in_bounds M (fst (fst w)) (snd (fst w)) = true) ->
  do_writes ws M = Ok (mkmat (nrows M) (ncols M)
    (fun i j => fold_left (fun v w => if hits w i j then snd w else v) ws (ent M i j))).
Proof.
  revert M. induction ws as [|[[i j] t] ws IH]; intros M H.
  - destruct M. reflexivity.
  - unfold do_writes. cbn [rfold]. unfold mset_unchecked at 1.
    pose proof (H (i, j, t) (or_introl eq_refl)) as H0. cbn [fst snd] in H0. rewrite H0. cbn [bind].
    match goal with |- rfold _ ws ?M1 = _ => change (do_writes ws M1 = Ok (mkmat (nrows M) (ncols M) (fun i0 j0 =>
       fold_left (fun v w => if hits w i0 j0 then snd w else v) ((i, j, t) :: ws) (ent M i0 j0)))) end.
    rewrite IH; [reflexivity|]. intros w Hw. apply (H w (or_intror Hw)).
Qed.

Lemma do_writes_ub ws M w : In w ws -> in_bounds M (fst (fst w)) (snd (fst w)) = false ->
  do_writes ws M = UB.
Proof.
  revert M. induction ws as [|[[i j] t] ws IH]; intros M Hin Hb; [destruct Hin|].
  unfold do_writes. cbn [rfold]. unfold mset_unchecked at 1.
  destruct (in_bounds M i j) eqn:E; [|reflexivity]. cbn [bind].
  destruct Hin as [<-|Hin]; [cbn in Hb; congruence|].
  apply (IH (mkmat _ _ _) Hin). exact Hb.
Qed.

Lemma do_writes_app ws1 ws2 M : do_writes (ws1 ++ ws2) M = let! M' := do_writes ws1 M in do_writes ws2 M'.
Proof.
  revert M. induction ws1 as [|[[i j] t] ws1 IH]; intros M; [reflexivity|].
  cbn [app]. unfold do_writes in *. cbn [rfold]. destruct (mset_unchecked M i j t); cbn [bind]; auto.
Qed.

Lemma fold_miss (ws : list (nat * nat * F)) i j v :
  (forall w, In w ws -> hits w i j = false) ->
  fold_left (fun v w => if hits w i j then snd w else v) ws v = v.
Proof.
  revert v. induction ws as [|w ws IH]; intros v H; cbn; [reflexivity|].
  rewrite (H w (or_introl eq_refl)). apply IH. intros w' Hw'. apply H. right. exact Hw'.
Qed.

Lemma fold_hit (ws : list (nat * nat * F)) i j v x :
  (exists w, In w ws /\ hits w i j = true) ->
  (forall w, In w ws -> hits w i j = true -> snd w = x) ->
  fold_left (fun v w => if hits w i j then snd w else v) ws v = x.
Proof.
  revert v. induction ws as [|w ws IH]; intros v (w0 & Hin & Hh) Hx; [destruct Hin|].
  cbn [fold_left]. destruct (existsb (fun w => hits w i j) ws) eqn:Ex.
  - apply existsb_exists in Ex. apply IH; [destruct Ex as (w1 & ? & ?); exists w1; auto|].
    intros w' Hw'. apply Hx. right. exact Hw'.
  - assert (No : forall w', In w' ws -> hits w' i j = false).
    { intros w' Hw'. destruct (hits w' i j) eqn:E'; [|reflexivity].
      exfalso. rewrite <- not_true_iff_false in Ex. apply Ex. apply existsb_exists. eauto. }
    rewrite fold_miss by exact No. destruct Hin as [<-|Hin]; [|rewrite (No w0 Hin) in Hh; discriminate].
    rewrite Hh. apply Hx; [left; reflexivity|exact Hh].
Qed.
End Writes.

Lemma hits_iff {F} (w : nat * nat * F) i j : hits w i j = true <-> fst (fst w) = i /\ snd (fst w) = j.
Proof.
  unfold hits. rewrite andb_true_iff, !Nat.eqb_eq. intuition congruence.
Qed.

Lemma in_bounds_iff {F} (M : mat F) i j : in_bounds M i j = true <-> i < nrows M /\ j < ncols M.
Proof. unfold in_bounds. rewrite andb_true_iff, !Nat.ltb_lt. reflexivity. Qed.

Lemma zip_seq_in {A} (l : list A) s i a : In (i, a) (zip (seq s (length l)) l) <-> s <= i /\ nth_error l (i - s) = Some a.
Proof.
  revert s. induction l as [|b l IH]; intros s; cbn [length seq zip].
  - cbn. split; [tauto|]. intros [_ H]. destruct (i - s); discriminate.
  - cbn [In]. rewrite IH. split.
    + intros [E|[H1 H2]].
      * injection E as -> ->. split; [lia|]. rewrite Nat.sub_diag. reflexivity.
      * split; [lia|]. replace (i - s) with (S (i - S s)) by lia. exact H2.
    + intros [H1 H2]. destruct (Nat.eq_dec i s) as [->|N].
      * left. rewrite Nat.sub_diag in H2. cbn in H2. congruence.
      * right. split; [lia|]. replace (i - s) with (S (i - S s)) in H2 by lia. exact H2.
Qed.

Section Companion.
Context {F : Type} {NF : Num F}.
Local Open Scope num_scope.

Lemma companion_panic_empty m : companion_dyn (@nil F) m = Panic.
Proof. reflexivity. Qed.
Lemma companion_panic_small (a : list F) m : m < 2 -> companion_dyn a m = Panic.
Proof.
  intros H. destruct a as [|a0 rest]; [reflexivity|]. unfold companion_dyn, usub. cbn [hd_error unwrap bind].
  destruct (Nat.ltb_spec m 2); [reflexivity|lia].
Qed.

Definition companion_writes (a0 : F) (rest : list F) (m : nat) : list (nat * nat * F) :=
  map (fun p : nat * F => (0%nat, fst p, (- snd p) / a0)) (zip (seq 0 (length rest)) rest)
    ++ map (fun i => ((i + 1)%nat, i, 1)) (seq 0 (m - 2)).

Lemma companion_unfold a0 rest m : 2 <= m ->
  companion_dyn (a0 :: rest) m = do_writes (companion_writes a0 rest m) (mzeros (m - 1) (m - 1)).
Proof.
  intros H. unfold companion_dyn, usub. cbn [hd_error unwrap bind tl].
  destruct (Nat.ltb_spec m 2); [lia|]. destruct (Nat.ltb_spec m 1); [lia|]. reflexivity.
Qed.

Lemma companion_ub (a : list F) m : 2 <= m -> m < length a -> companion_dyn a m = UB.
Proof.
  intros Hm Hl. destruct a as [|a0 rest]; [cbn in Hl; lia|]. rewrite companion_unfold by exact Hm.
  cbn [length] in Hl. destruct (nth_error rest (m - 1)) as [x|] eqn:E; [|apply nth_error_None in E; lia].
  apply (do_writes_ub _ _ (0%nat, (m - 1)%nat, (- x) / a0)).
  - apply in_or_app. left. apply in_map_iff. exists ((m - 1)%nat, x). split; [reflexivity|].
    apply zip_seq_in. split; [lia|]. rewrite Nat.sub_0_r. exact E.
  - cbn [fst snd]. unfold in_bounds. cbn [nrows ncols mzeros]. rewrite Nat.ltb_irrefl.
    apply andb_false_r.
Qed.

Lemma companion_ok a0 rest m : 2 <= m -> length rest <= m - 1 ->
  exists M, companion_dyn (a0 :: rest) m = Ok M /\ nrows M = (m - 1)%nat /\ ncols M = (m - 1)%nat /\
  (forall j, j < m - 1 -> ent M 0 j = match nth_error rest j with Some x => (- x) / a0 | None => 0 end) /\
  (forall i j, i < m - 2 -> j < m - 1 -> ent M (S i) j = if Nat.eqb i j then 1 else 0).
Proof.
  intros Hm Hl. rewrite companion_unfold by exact Hm. rewrite do_writes_ok.
  2:{ intros w Hw. apply in_app_or in Hw. apply in_bounds_iff. destruct Hw as [Hw|Hw]; apply in_map_iff in Hw.
      - destruct Hw as ([j x] & <- & Hp). apply zip_seq_in in Hp. destruct Hp as [_ Hp].
        assert (j - 0 < length rest)%nat by (apply nth_error_Some; congruence). cbn. lia.
      - destruct Hw as (i & <- & Hp). apply in_seq in Hp. cbn. lia. }
  eexists. split; [reflexivity|]. cbn [nrows ncols ent mzeros]. split; [reflexivity|]. split; [reflexivity|].
  unfold companion_writes. split.
  - intros j Hj. rewrite fold_left_app. rewrite fold_miss.
    2:{ intros w Hw. apply in_map_iff in Hw. destruct Hw as (i & <- & _). cbn. unfold hits. cbn.
        destruct i; reflexivity. }
    destruct (nth_error rest j) as [x|] eqn:E.
    + apply fold_hit.
      * exists (0%nat, j, (- x) / a0). split; [|unfold hits; cbn; rewrite Nat.eqb_refl; reflexivity].
        apply in_map_iff. exists (j, x). split; [reflexivity|]. apply zip_seq_in.
        rewrite Nat.sub_0_r. split; [lia|exact E].
      * intros w Hw Hh. apply in_map_iff in Hw. destruct Hw as ([j' x'] & <- & Hp).
        apply hits_iff in Hh. cbn in Hh. destruct Hh as [_ ->]. apply zip_seq_in in Hp.
        rewrite Nat.sub_0_r in Hp. destruct Hp as [_ Hp]. cbn. congruence.
    + apply fold_miss. intros w Hw. apply in_map_iff in Hw. destruct Hw as ([j' x'] & <- & Hp).
      apply zip_seq_in in Hp. rewrite Nat.sub_0_r in Hp. destruct Hp as [_ Hp].
      destruct (hits _ 0 j) eqn:Hh; [|reflexivity]. apply hits_iff in Hh. cbn in Hh. destruct Hh as [_ ->]. congruence.
  - intros i j Hi Hj. rewrite fold_left_app.
    rewrite (fold_miss (map _ (zip _ _))).
    2:{ intros w Hw. apply in_map_iff in Hw. destruct Hw as ([j' x'] & <- & _). reflexivity. }
    destruct (Nat.eqb_spec i j) as [->|N].
    + apply fold_hit.
      * exists ((j + 1)%nat, j, 1). split; [apply in_map_iff; exists j; split; [reflexivity|apply in_seq; lia]|].
        apply hits_iff. cbn. lia.
      * intros w Hw _. apply in_map_iff in Hw. destruct Hw as (i' & <- & _). reflexivity.
    + apply fold_miss. intros w Hw. apply in_map_iff in Hw. destruct Hw as (i' & <- & _).
      destruct (hits _ (S i) j) eqn:Hh; [|reflexivity]. apply hits_iff in Hh. cbn in Hh. lia.
Qed.
End Companion.

(** Eigenvalues, over any field. *)
Section Eigen.
Context {F : Type} {NF : Num F} (HF : is_field F).
Local Open Scope num_scope.
Definition finv (x : F) := 1 / x.
Lemma FT : field_theory (0 : F) 1 nadd nmul nsub nneg ndiv finv eq.
Proof. exact HF. Qed.
Add Field Ffield : FT.

Lemma fsum_ext n (f g : nat -> F) : (forall i, i < n -> f i = g i) -> fsum n f = fsum n g.
Proof. induction n as [|n IH]; intros H; cbn; [reflexivity|]. rewrite IH, H by auto. reflexivity. Qed.
Lemma fsum_scale n c (f : nat -> F) : fsum n (fun i => c * f i) = c * fsum n f.
Proof. induction n as [|n IH]; cbn; [ring|]. rewrite IH. ring. Qed.
Lemma fsum_single n k (x : nat -> F) : k < n ->
  fsum n (fun j => (if Nat.eqb k j then 1 else 0) * x j) = x k.
Proof.
  induction n as [|n IH]; intros H; [lia|]. cbn [fsum]. destruct (Nat.eq_dec k n) as [->|N].
  - rewrite Nat.eqb_refl. rewrite (fsum_ext n _ (fun j => 0 * x j)).
    2:{ intros i Hi. destruct (Nat.eqb_spec n i); [lia|reflexivity]. }
    rewrite fsum_scale. ring.
  - rewrite IH by lia. destruct (Nat.eqb_spec k n); [contradiction|]. ring.
Qed.

Lemma fpow_S (r : F) n : fpow r (S n) = r * fpow r n.
Proof. reflexivity. Qed.

(** Split the first term off. *)
Lemma fsum_first n (f : nat -> F) : fsum (S n) f = f 0%nat + fsum n (fun i => f (S i)).
Proof. induction n as [|n IH]; cbn [fsum] in *; [ring|]. rewrite IH. ring. Qed.

Lemma companion_eigen (a : list F) m r :
  2 <= m -> length a = m -> nth 0 a 0 <> 0 ->
  exists M, companion_dyn a m = Ok M /\ nrows M = (m - 1)%nat /\ ncols M = (m - 1)%nat /\
  (is_eigenvalue M r <-> poly_eval a r = 0).
Proof.
  intros Hm Hl Ha0. destruct a as [|a0 rest]; [cbn in Hl; lia|]. cbn in Hl, Ha0.
  destruct (companion_ok a0 rest m Hm ltac:(lia)) as (M & E & Nr & Nc & R0 & RS).
  exists M. split; [exact E|]. split; [exact Nr|]. split; [exact Nc|].
  set (n := (m - 1)%nat) in *. assert (Hn : length rest = n) by lia.
  assert (Hn1 : 1 <= n) by lia.
  assert (Row0 : forall v, fsum n (fun j => ent M 0 j * v j) = - (fsum n (fun j => nth j rest 0 * v j)) / a0).
  { intros v. rewrite (fsum_ext n _ (fun j => ((- (1)) / a0) * (nth j rest 0 * v j))).
    - rewrite fsum_scale. field. exact Ha0.
    - intros j Hj. rewrite R0 by exact Hj. destruct (nth_error rest j) as [x|] eqn:Ex.
      + rewrite (nth_error_nth rest j 0 Ex). field. exact Ha0.
      + apply nth_error_None in Ex. lia. }
  assert (Poly : poly_eval (a0 :: rest) r = a0 * fpow r n + fsum n (fun j => nth j rest 0 * fpow r (n - 1 - j))).
  { unfold poly_eval. cbn [length]. rewrite Hn, fsum_first. f_equal.
    - cbn [nth]. f_equal. f_equal. lia.
    - apply fsum_ext. intros i Hi. cbn [nth]. f_equal. f_equal. lia. }
  assert (RowS : forall v i, i < n - 1 -> fsum n (fun j => ent M (S i) j * v j) = v i).
  { intros v i Hi. rewrite (fsum_ext n _ (fun j => (if Nat.eqb i j then 1 else 0) * v j)).
    - apply fsum_single. lia.
    - intros j Hj. rewrite RS by lia. reflexivity. }
  split.
  - intros (v & (k & Hk & Hvk) & Hv). rewrite Nr in Hk, Hv. rewrite Nc in Hv.
    assert (V : forall d, d < n -> v (n - 1 - d)%nat = fpow r d * v (n - 1)%nat).
    { induction d as [|d IH]; intros Hd; [cbn; rewrite Nat.sub_0_r; ring|].
      specialize (Hv (S (n - 1 - S d)) ltac:(lia)). rewrite RowS in Hv by lia.
      rewrite Hv. replace (S (n - 1 - S d)) with (n - 1 - d)%nat by lia. rewrite IH by lia.
      rewrite fpow_S. ring. }
    assert (VN : v (n - 1)%nat <> 0).
    { intros Z. apply Hvk. replace k with (n - 1 - (n - 1 - k))%nat by lia. rewrite V by lia. rewrite Z. ring. }
    specialize (Hv 0%nat ltac:(lia)). rewrite Row0 in Hv.
    rewrite (fsum_ext n _ (fun j => v (n - 1)%nat * (nth j rest 0 * fpow r (n - 1 - j)))) in Hv.
    2:{ intros j Hj. replace (v j) with (v (n - 1 - (n - 1 - j))%nat) by (f_equal; lia).
        rewrite V by lia. ring. }
    rewrite fsum_scale in Hv.
    replace (v 0%nat) with (v (n - 1 - (n - 1))%nat) in Hv by (f_equal; lia). rewrite V in Hv by lia.
    set (P := fsum n (fun j => nth j rest 0 * fpow r (n - 1 - j))) in *.
    set (w := v (n - 1)%nat) in *.
    assert (Hp : fpow r n = r * fpow r (n - 1)).
    { replace n with (S (n - 1)) at 1 by lia. apply fpow_S. }
    rewrite Poly, Hp.
    assert (Q : w * (a0 * (r * fpow r (n - 1)) + P) = 0).
    { replace (w * (a0 * (r * fpow r (n - 1)) + P)) with
        (a0 * (r * (fpow r (n - 1) * w)) - a0 * (- (w * P) / a0)) by (field; exact Ha0).
      rewrite Hv. ring. }
    set (T := a0 * (r * fpow r (n - 1)) + P) in *.
    replace T with (1 / w * (w * T)) by (field; exact VN). rewrite Q. ring.
  - intros H. exists (fun i => fpow r (n - 1 - i)). split.
    + exists (n - 1)%nat. rewrite Nr. split; [lia|]. rewrite Nat.sub_diag. cbn.
      destruct FT. exact F_1_neq_0.
    + intros i Hi. rewrite Nr in Hi. rewrite Nc. destruct i as [|i].
      * rewrite Row0. rewrite Poly in H.
        set (P := fsum n (fun j => nth j rest 0 * fpow r (n - 1 - j))) in *.
        assert (Hp : fpow r n = r * fpow r (n - 1)).
        { replace n with (S (n - 1)) at 1 by lia. apply fpow_S. }
        rewrite Nat.sub_0_r. rewrite Hp in H.
        replace P with (a0 * (r * fpow r (n - 1)) + P - a0 * (r * fpow r (n - 1))) by ring. rewrite H.
        field. exact Ha0.
      * rewrite RowS by lia. replace (n - 1 - i)%nat with (S (n - 1 - S i)) by lia. apply fpow_S.
Qed.
End Eigen.
