(** odd_ext_dyn and pad. *)
From Coq Require Import List Arith Bool Lia.
From Verif Require Import Base Num M_Linalg M_Stats M_Filter ListUtil P_Linalg.
Import ListNotations.

Section Ext.
Context {F : Type} {NF : Num F}.

Lemma rfold_writes {P} (body : mat F -> P -> res (mat F)) (w : P -> nat * nat * F) l M :
  (forall m p, In p l -> body m p = mset_unchecked m (fst (fst (w p))) (snd (fst (w p))) (snd (w p))) ->
  rfold body l M = do_writes (map w l) M.
Proof.
  revert M. induction l as [|p l IH]; intros M H; [reflexivity|].
  unfold do_writes. cbn [map rfold]. rewrite (H M p (or_introl eq_refl)).
  destruct (w p) as [[i j] t]. cbn [fst snd]. destruct (mset_unchecked M i j t); cbn [bind]; try reflexivity.
  apply IH. intros m q Hq. apply H. right. exact Hq.
Qed.

Lemma phase_miss {P} (w : P -> nat * nat * F) l i j v :
  (forall p, In p l -> ~ (fst (fst (w p)) = i /\ snd (fst (w p)) = j)) ->
  fold_left (fun v w => if hits w i j then snd w else v) (map w l) v = v.
Proof.
  intros H. apply fold_miss. intros x Hx. apply in_map_iff in Hx. destruct Hx as (p & <- & Hp).
  destruct (hits (w p) i j) eqn:E; [|reflexivity]. apply hits_iff in E. exfalso. exact (H p Hp E).
Qed.
Lemma phase_hit {P} (w : P -> nat * nat * F) l i j v x p0 :
  In p0 l -> fst (fst (w p0)) = i -> snd (fst (w p0)) = j ->
  (forall p, In p l -> fst (fst (w p)) = i -> snd (fst (w p)) = j -> snd (w p) = x) ->
  fold_left (fun v w => if hits w i j then snd w else v) (map w l) v = x.
Proof.
  intros H0 Hi Hj H. apply fold_hit.
  - exists (w p0). split; [apply in_map; exact H0|]. apply hits_iff. auto.
  - intros y Hy Hh. apply in_map_iff in Hy. destruct Hy as (p & <- & Hp). apply hits_iff in Hh.
    apply H; tauto.
Qed.

Lemma in_prod_seq j i a b : In (j, i) (list_prod (seq 0 a) (seq 0 b)) <-> j < a /\ i < b.
Proof. rewrite in_prod_iff, !in_seq. lia. Qed.

Lemma mget_ok (x : mat F) i j : i < nrows x -> j < ncols x -> mget x i j = Ok (ent x i j).
Proof. intros. unfold mget. rewrite (proj2 (in_bounds_iff x i j)) by auto. reflexivity. Qed.
Lemma mget_unchecked_ok (x : mat F) i j : i < nrows x -> j < ncols x -> mget_unchecked x i j = Ok (ent x i j).
Proof. intros. unfold mget_unchecked. rewrite (proj2 (in_bounds_iff x i j)) by auto. reflexivity. Qed.
Lemma usub_ok a b : b <= a -> usub a b = Ok (a - b).
Proof. intros. unfold usub. destruct (Nat.ltb_spec a b); [lia|reflexivity]. Qed.

Lemma copy_list (x : mat F) : exists m, mat_from_list (nrows x) (ncols x) (mat_to_list x) = Ok m /\
  nrows m = nrows x /\ ncols m = ncols x /\
  forall i j, i < nrows x -> j < ncols x -> ent m i j = ent x i j.
Proof.
  assert (L : forall c s, length (flat_map (fun j => map (fun i => ent x i j) (seq 0 (nrows x))) (seq s c)) = nrows x * c).
  { induction c as [|c IH]; intros s; cbn [seq flat_map]; [cbn [length]; lia|].
    rewrite app_length, map_length, seq_length, IH. lia. }
  assert (N : forall c s i j, i < nrows x -> j < c ->
     nth (i + j * nrows x) (flat_map (fun j => map (fun i => ent x i j) (seq 0 (nrows x))) (seq s c)) nzero = ent x i (s + j)).
  { induction c as [|c IH]; intros s i j Hi Hj; [lia|]. cbn [seq flat_map].
    destruct j as [|j].
    - rewrite app_nth1 by (rewrite map_length, seq_length; lia).
      rewrite (nth_indep _ nzero (ent x 0 s)) by (rewrite map_length, seq_length; lia).
      rewrite (map_nth (fun i => ent x i s)), seq_nth by lia. f_equal; lia.
    - rewrite app_nth2 by (rewrite map_length, seq_length; cbn [Nat.mul]; lia). rewrite map_length, seq_length.
      replace (i + S j * nrows x - nrows x) with (i + j * nrows x) by (cbn [Nat.mul]; lia).
      rewrite IH by lia. f_equal; lia. }
  unfold mat_from_list, mat_to_list. rewrite L, Nat.ltb_irrefl. eexists. split; [reflexivity|].
  split; [reflexivity|]. split; [reflexivity|]. intros i j Hi Hj. cbn [ent]. rewrite N by assumption. reflexivity.
Qed.

Definition twice (a : F) : F := nmul (nadd none none) a.

Lemma odd_ext_rows (x : mat F) n : 1 <= n < nrows x ->
  exists m, odd_ext_dyn x n 0 = Ok m /\ nrows m = nrows x + 2 * n /\ ncols m = ncols x /\
  (forall i j, i < nrows x -> j < ncols x -> ent m (n + i) j = ent x i j) /\
  (forall d j, 1 <= d <= n -> j < ncols x -> ent m (n - d) j = nsub (twice (ent x 0 j)) (ent x d j)) /\
  (forall d j, 1 <= d <= n -> j < ncols x ->
     ent m (n + (nrows x - 1) + d) j = nsub (twice (ent x (nrows x - 1) j)) (ent x (nrows x - 1 - d) j)).
Proof.
  intros Hn. unfold odd_ext_dyn. change (Nat.ltb 0 2) with true. cbn [rassert bind].
  destruct (Nat.ltb_spec n 1); [lia|]. destruct (Nat.ltb_spec n (nrows x)); [|lia]. cbn [rassert bind].
  set (R := nrows x) in *. set (C := ncols x) in *.
  set (w1 := fun p : nat * nat => (snd p, fst p, nsub (twice (ent x 0 (fst p))) (ent x (n - snd p) (fst p)))).
  rewrite (rfold_writes _ w1).
  2:{ intros m [j i] Hp. apply in_prod_seq in Hp. rewrite mget_ok by (fold R C; lia). cbn [bind].
      rewrite usub_ok by lia. cbn [bind]. rewrite mget_unchecked_ok by (fold R C; lia). reflexivity. }
  rewrite do_writes_ok.
  2:{ intros w Hw. apply in_map_iff in Hw. destruct Hw as ([j i] & <- & Hp). apply in_prod_seq in Hp.
      apply in_bounds_iff. cbn. lia. }
  cbn [bind nrows ncols mzeros ent].
  set (w2 := fun p : nat * nat => (snd p + n, fst p, ent x (snd p) (fst p))).
  rewrite (rfold_writes _ w2).
  2:{ intros m [j i] Hp. apply in_prod_seq in Hp. rewrite mget_unchecked_ok by (fold R C; lia). reflexivity. }
  rewrite do_writes_ok.
  2:{ intros w Hw. apply in_map_iff in Hw. destruct Hw as ([j i] & <- & Hp). apply in_prod_seq in Hp.
      apply in_bounds_iff. cbn. lia. }
  cbn [bind nrows ncols mzeros ent]. rewrite usub_ok by lia. cbn [bind].
  set (w3 := fun p : nat * nat => (R + 2 * n - 1 - snd p, fst p,
        nsub (twice (ent x (R - 1) (fst p))) (ent x (R - 1 - n + snd p) (fst p)))).
  rewrite (rfold_writes _ w3).
  2:{ intros m [j i] Hp. apply in_prod_seq in Hp. rewrite mget_ok by (fold R C; lia). cbn [bind].
      rewrite usub_ok by lia. cbn [bind]. rewrite mget_unchecked_ok by (fold R C; lia). cbn [bind].
      rewrite usub_ok by lia. reflexivity. }
  rewrite do_writes_ok.
  2:{ intros w Hw. apply in_map_iff in Hw. destruct Hw as ([j i] & <- & Hp). apply in_prod_seq in Hp.
      apply in_bounds_iff. cbn. lia. }
  eexists. split; [reflexivity|]. cbn [nrows ncols mzeros ent]. split; [reflexivity|]. split; [reflexivity|].
  split; [|split].
  - intros i j Hi Hj. rewrite phase_miss.
    2:{ intros [j' i'] Hp. apply in_prod_seq in Hp. cbn. lia. }
    apply (phase_hit w2 _ _ _ _ _ (j, i)); [apply in_prod_seq; auto|cbn; lia|cbn; lia|].
    intros [j' i'] Hp E1 E2. cbn in E1, E2 |- *. f_equal; lia.
  - intros d j Hd Hj. rewrite phase_miss.
    2:{ intros [j' i'] Hp. apply in_prod_seq in Hp. cbn. lia. }
    rewrite phase_miss.
    2:{ intros [j' i'] Hp. apply in_prod_seq in Hp. cbn. lia. }
    apply (phase_hit w1 _ _ _ _ _ (j, n - d)); [apply in_prod_seq; lia|cbn; lia|cbn; lia|].
    intros [j' i'] Hp E1 E2. cbn in E1, E2 |- *. subst i' j'. replace (n - (n - d)) with d by lia. reflexivity.
  - intros d j Hd Hj.
    apply (phase_hit w3 _ _ _ _ _ (j, n - d)); [apply in_prod_seq; lia|cbn; lia|cbn; lia|].
    intros [j' i'] Hp E1 E2. apply in_prod_seq in Hp. cbn in E1, E2 |- *. subst j'.
    replace (R - 1 - n + i') with (R - 1 - d) by lia. reflexivity.
Qed.

Lemma odd_ext_cols (x : mat F) n : 1 <= n < ncols x ->
  exists m, odd_ext_dyn x n 1 = Ok m /\ nrows m = nrows x /\ ncols m = ncols x + 2 * n /\
  (forall i j, i < nrows x -> j < ncols x -> ent m i (n + j) = ent x i j) /\
  (forall i d, 1 <= d <= n -> i < nrows x -> ent m i (n - d) = nsub (twice (ent x i 0)) (ent x i d)) /\
  (forall i d, 1 <= d <= n -> i < nrows x ->
     ent m i (n + (ncols x - 1) + d) = nsub (twice (ent x i (ncols x - 1))) (ent x i (ncols x - 1 - d))).
Proof.
  intros Hn. unfold odd_ext_dyn. change (Nat.ltb 1 2) with true. cbn [rassert bind].
  destruct (Nat.ltb_spec n 1); [lia|]. destruct (Nat.ltb_spec n (ncols x)); [|lia]. cbn [rassert bind].
  set (R := nrows x) in *. set (C := ncols x) in *.
  set (w1 := fun p : nat * nat => (snd p, fst p, nsub (twice (ent x (snd p) 0)) (ent x (snd p) (n - fst p)))).
  rewrite (rfold_writes _ w1).
  2:{ intros m [j i] Hp. apply in_prod_seq in Hp. rewrite mget_ok by (fold R C; lia). cbn [bind].
      rewrite usub_ok by lia. cbn [bind]. rewrite mget_unchecked_ok by (fold R C; lia). reflexivity. }
  rewrite do_writes_ok.
  2:{ intros w Hw. apply in_map_iff in Hw. destruct Hw as ([j i] & <- & Hp). apply in_prod_seq in Hp.
      apply in_bounds_iff. cbn. lia. }
  cbn [bind nrows ncols mzeros ent].
  set (w2 := fun p : nat * nat => (snd p, fst p + n, ent x (snd p) (fst p))).
  rewrite (rfold_writes _ w2).
  2:{ intros m [j i] Hp. apply in_prod_seq in Hp. rewrite mget_unchecked_ok by (fold R C; lia). reflexivity. }
  rewrite do_writes_ok.
  2:{ intros w Hw. apply in_map_iff in Hw. destruct Hw as ([j i] & <- & Hp). apply in_prod_seq in Hp.
      apply in_bounds_iff. cbn. lia. }
  cbn [bind nrows ncols mzeros ent]. rewrite usub_ok by lia. cbn [bind].
  set (w3 := fun p : nat * nat => (snd p, C + 2 * n - 1 - fst p,
        nsub (twice (ent x (snd p) (C - 1))) (ent x (snd p) (C - 1 - n + fst p)))).
  rewrite (rfold_writes _ w3).
  2:{ intros m [j i] Hp. apply in_prod_seq in Hp. rewrite mget_ok by (fold R C; lia). cbn [bind].
      rewrite usub_ok by lia. cbn [bind]. rewrite mget_unchecked_ok by (fold R C; lia). cbn [bind].
      rewrite usub_ok by lia. reflexivity. }
  rewrite do_writes_ok.
  2:{ intros w Hw. apply in_map_iff in Hw. destruct Hw as ([j i] & <- & Hp). apply in_prod_seq in Hp.
      apply in_bounds_iff. cbn. lia. }
  eexists. split; [reflexivity|]. cbn [nrows ncols mzeros ent]. split; [reflexivity|]. split; [reflexivity|].
  split; [|split].
  - intros i j Hi Hj. rewrite phase_miss.
    2:{ intros [j' i'] Hp. apply in_prod_seq in Hp. cbn. lia. }
    apply (phase_hit w2 _ _ _ _ _ (j, i)); [apply in_prod_seq; auto|cbn; lia|cbn; lia|].
    intros [j' i'] Hp E1 E2. cbn in E1, E2 |- *. f_equal; lia.
  - intros i d Hd Hi. rewrite phase_miss.
    2:{ intros [j' i'] Hp. apply in_prod_seq in Hp. cbn. lia. }
    rewrite phase_miss.
    2:{ intros [j' i'] Hp. apply in_prod_seq in Hp. cbn. lia. }
    apply (phase_hit w1 _ _ _ _ _ (n - d, i)); [apply in_prod_seq; lia|cbn; lia|cbn; lia|].
    intros [j' i'] Hp E1 E2. cbn in E1, E2 |- *. subst i' j'. replace (n - (n - d)) with d by lia. reflexivity.
  - intros i d Hd Hi.
    apply (phase_hit w3 _ _ _ _ _ (n - d, i)); [apply in_prod_seq; lia|cbn; lia|cbn; lia|].
    intros [j' i'] Hp E1 E2. apply in_prod_seq in Hp. cbn in E1, E2 |- *. subst i'.
    replace (C - 1 - n + j') with (C - 1 - d) by lia. reflexivity.
Qed.

Lemma odd_ext_zero (x : mat F) axis : axis < 2 ->
  exists m, odd_ext_dyn x 0 axis = Ok m /\ nrows m = nrows x /\ ncols m = ncols x /\
  forall i j, i < nrows x -> j < ncols x -> ent m i j = ent x i j.
Proof.
  intros H. unfold odd_ext_dyn. destruct (Nat.ltb_spec axis 2); [|lia]. apply copy_list.
Qed.
Lemma odd_ext_panic (x : mat F) n axis : 1 <= n ->
  2 <= axis \/ (axis = 0 /\ nrows x <= n) \/ (axis = 1 /\ ncols x <= n) -> odd_ext_dyn x n axis = Panic.
Proof.
  intros Hn H. unfold odd_ext_dyn. destruct (Nat.ltb_spec axis 2); [|reflexivity]. cbn [rassert bind].
  destruct (Nat.ltb_spec n 1); [lia|]. destruct axis as [|[|axis]]; [| |lia].
  - destruct (Nat.ltb_spec n (nrows x)); [lia|reflexivity].
  - destruct (Nat.ltb_spec n (ncols x)); [lia|reflexivity].
Qed.
Lemma odd_ext_panic_axis (x : mat F) n axis : 2 <= axis -> odd_ext_dyn x n axis = Panic.
Proof. intros H. unfold odd_ext_dyn. destruct (Nat.ltb_spec axis 2); [lia|reflexivity]. Qed.

(** pad *)
Definition pad_edge (t : Pad) (padlen : option nat) (ntaps : nat) : nat :=
  match t with PadNone => 0 | _ => match padlen with Some p => p | None => 3 * ntaps end end.

Lemma pad_unfold t padlen (x : mat F) axis ntaps :
  pad t padlen x axis ntaps =
  let e := pad_edge t padlen ntaps in
  if (axis <? 2) && (e <? match axis with 0 => nrows x | _ => ncols x end) then
    if e =? 0 then let! m := mat_from_list (nrows x) (ncols x) (mat_to_list x) in Ok (e, m)
    else match t with PadOdd => let! m := odd_ext_dyn x e axis in Ok (e, m) | _ => Panic end
  else Panic.
Proof.
  unfold pad, pad_edge. rewrite (Nat.mul_comm 3 ntaps). cbn zeta.
  destruct axis as [|[|axis]]; cbn [Nat.ltb Nat.leb rassert bind andb].
  - destruct t, padlen; cbn [Nat.eqb]; match goal with |- context [rassert ?b] => destruct b end; reflexivity.
  - destruct t, padlen; cbn [Nat.eqb]; match goal with |- context [rassert ?b] => destruct b end; reflexivity.
  - reflexivity.
Qed.
End Ext.
