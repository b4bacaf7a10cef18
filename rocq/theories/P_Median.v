(** Proofs about quickselect and median. *)
From Coq Require Import List Arith ZArith Bool Lia Permutation Sorted SpecFloat.
From Verif Require Import Base Num MachInt M_Stats S_Stats P_MachInt.
Import ListNotations.

Section Qs.
Context {F : Type} (ltb : F -> F -> bool).

Lemma filter_len_le {A} (f : A -> bool) l : length (filter f l) <= length l.
Proof. induction l as [|a l IH]; cbn; [lia|]. destruct (f a); cbn; lia. Qed.

Lemma filter_len_lt {A} (f : A -> bool) l a : In a l -> f a = false -> length (filter f l) < length l.
Proof.
  induction l as [|b l IH]; intros Ha Hf; [destruct Ha|]. cbn.
  destruct Ha as [->|Ha].
  - rewrite Hf. pose proof (filter_len_le f l). lia.
  - specialize (IH Ha Hf). destruct (f b); cbn; lia.
Qed.

Lemma filter_disjoint_len {A} (f g : A -> bool) l :
  (forall x, In x l -> f x = true -> g x = false) ->
  length (filter f l) + length (filter g l) <= length l.
Proof.
  induction l as [|a l IH]; intros H; cbn; [lia|].
  assert (IH' : length (filter f l) + length (filter g l) <= length l)
    by (apply IH; intros; apply H; auto; right; assumption).
  pose proof (H a (or_introl eq_refl)) as Ha.
  destruct (f a), (g a); cbn; try lia; specialize (Ha eq_refl); discriminate.
Qed.

Lemma irrefl_sub y z : (forall x, In x z -> In x y) -> irrefl_on ltb y -> irrefl_on ltb z.
Proof. intros H I a Ha. apply I. auto. Qed.
Lemma asym_sub y z : (forall x, In x z -> In x y) -> asym_on ltb y -> asym_on ltb z.
Proof. intros H I a b Ha Hb. apply I; auto. Qed.

(** Never panics, never runs out of fuel; the result is one of the samples. *)
Lemma quickselect_safe : forall fuel y k, length y <= fuel -> k < length y ->
  irrefl_on ltb y -> asym_on ltb y ->
  exists m, quickselect ltb fuel y k = Ok m /\ In m y.
Proof.
  induction fuel as [|fuel IH]; intros y k Hf Hk Hi Ha; [lia|].
  cbn [quickselect]. destruct (Nat.eqb_spec (length y) 1) as [H1|H1].
  - destruct y as [|m [|? ?]]; cbn in H1; try lia. exists m. split; [reflexivity|left; reflexivity].
  - assert (Hlt : length y / 2 < length y) by (apply Nat.div_lt; lia).
    destruct (nth_error y (length y / 2)) as [p|] eqn:Ep.
    2:{ apply nth_error_None in Ep. lia. }
    cbn [unwrap bind].
    assert (Hp : In p y) by (eapply nth_error_In; eauto).
    set (lower := filter (fun yi => ltb yi p) y). set (upper := filter (fun yi => ltb p yi) y).
    assert (Hl : length lower < length y) by (eapply filter_len_lt; [exact Hp|apply Hi, Hp]).
    assert (Hu : length upper < length y) by (eapply filter_len_lt; [exact Hp|apply Hi, Hp]).
    assert (Hd : length lower + length upper <= length y).
    { apply filter_disjoint_len. intros x Hx Hxp. apply Ha; assumption. }
    assert (SL : forall x, In x lower -> In x y) by (intros x Hx; apply filter_In in Hx; tauto).
    assert (SU : forall x, In x upper -> In x y) by (intros x Hx; apply filter_In in Hx; tauto).
    unfold usub. destruct (Nat.ltb_spec (length y) (length lower)); [lia|]. cbn [bind].
    destruct (Nat.ltb_spec (length y - length lower) (length upper)); [lia|]. cbn [bind].
    destruct (Nat.ltb_spec k (length lower)).
    { destruct (IH lower k) as (m & E & Hm); try lia; [eapply irrefl_sub; eauto|eapply asym_sub; eauto|].
      exists m. split; [exact E|apply SL, Hm]. }
    destruct (Nat.ltb_spec k (length lower + (length y - length lower - length upper))).
    { exists p. split; [reflexivity|exact Hp]. }
    cbn [bind].
    destruct (Nat.ltb_spec (k - length lower) (length y - length lower - length upper)); [lia|]. cbn [bind].
    destruct (IH upper (k - length lower - (length y - length lower - length upper))) as (m & E & Hm);
      try lia; [eapply irrefl_sub; eauto|eapply asym_sub; eauto|].
    exists m. split; [exact E|apply SU, Hm].
Qed.

Lemma weak_asym y : strict_weak_on ltb y -> asym_on ltb y.
Proof.
  intros (Hi & Ht & _) a b Ha Hb H. destruct (ltb b a) eqn:E; [|reflexivity].
  rewrite <- (Hi a Ha). symmetry. apply (Ht a b a); auto.
Qed.

Lemma weak_sub y z : (forall x, In x z -> In x y) -> strict_weak_on ltb y -> strict_weak_on ltb z.
Proof.
  intros H (Hi & Ht & Hn). split; [eapply irrefl_sub; eauto|]. split; intros; eauto.
Qed.

Lemma filter_ext_len {A} (f g : A -> bool) l : (forall x, In x l -> f x = g x) ->
  length (filter f l) = length (filter g l).
Proof. intros H. rewrite (filter_ext_in _ _ _ H). reflexivity. Qed.

Lemma filter_compl_len {A} (f : A -> bool) l :
  length (filter f l) + length (filter (fun x => negb (f x)) l) = length l.
Proof. induction l as [|a l IH]; cbn; [lia|]. destruct (f a); cbn; lia. Qed.

Lemma filter_and {A} (f g : A -> bool) l : filter f (filter g l) = filter (fun x => g x && f x) l.
Proof.
  induction l as [|x l IH]; [reflexivity|]. cbn. destruct (g x); cbn; [|exact IH].
  destruct (f x); rewrite IH; reflexivity.
Qed.

Lemma filter_le_len {A} (f g : A -> bool) l : (forall x, In x l -> f x = true -> g x = true) ->
  length (filter f l) <= length (filter g l).
Proof.
  induction l as [|a l IH]; intros H; cbn; [lia|].
  assert (length (filter f l) <= length (filter g l)) by (apply IH; intros; apply H; auto; right; assumption).
  pose proof (H a (or_introl eq_refl)). destruct (f a), (g a); cbn; try lia;
  specialize (H1 eq_refl); discriminate.
Qed.

(** rank of [m] counted with "not larger" as the complement of "larger" *)
Lemma has_rank_alt y k m : has_rank ltb y k m <->
  In m y /\ length (filter (fun x => ltb x m) y) <= k /\
  k + length (filter (fun x => ltb m x) y) < length y.
Proof.
  unfold has_rank. pose proof (filter_compl_len (fun x => ltb m x) y). intuition lia.
Qed.

Lemma quickselect_rank : forall fuel y k, length y <= fuel -> k < length y ->
  strict_weak_on ltb y ->
  exists m, quickselect ltb fuel y k = Ok m /\ has_rank ltb y k m.
Proof.
  induction fuel as [|fuel IH]; intros y k Hf Hk Hw; [lia|].
  pose proof (weak_asym y Hw) as Ha. destruct Hw as (Hi & Ht & Hn).
  cbn [quickselect]. destruct (Nat.eqb_spec (length y) 1) as [H1|H1].
  - destruct y as [|m [|? ?]]; cbn in H1; try lia. exists m. split; [reflexivity|].
    apply has_rank_alt. cbn [filter length] in *. rewrite (Hi m) by (left; reflexivity). cbn.
    repeat split; try lia. left; reflexivity.
  - assert (Hlt : length y / 2 < length y) by (apply Nat.div_lt; lia).
    destruct (nth_error y (length y / 2)) as [p|] eqn:Ep.
    2:{ apply nth_error_None in Ep. lia. }
    cbn [unwrap bind].
    assert (Hp : In p y) by (eapply nth_error_In; eauto).
    set (lower := filter (fun yi => ltb yi p) y). set (upper := filter (fun yi => ltb p yi) y).
    assert (Hl : length lower < length y) by (eapply filter_len_lt; [exact Hp|apply Hi, Hp]).
    assert (Hu : length upper < length y) by (eapply filter_len_lt; [exact Hp|apply Hi, Hp]).
    assert (Hd : length lower + length upper <= length y).
    { apply filter_disjoint_len. intros x Hx Hxp. apply Ha; assumption. }
    assert (SL : forall x, In x lower -> In x y) by (intros x Hx; apply filter_In in Hx; tauto).
    assert (SU : forall x, In x upper -> In x y) by (intros x Hx; apply filter_In in Hx; tauto).
    unfold usub. destruct (Nat.ltb_spec (length y) (length lower)); [lia|]. cbn [bind].
    destruct (Nat.ltb_spec (length y - length lower) (length upper)); [lia|]. cbn [bind].
    destruct (Nat.ltb_spec k (length lower)) as [Hkl|Hkl].
    { destruct (IH lower k) as (m & E & Hm); try lia.
      { eapply weak_sub; [exact SL|]. split; auto. }
      exists m. split; [exact E|]. apply has_rank_alt in Hm. apply has_rank_alt.
      destruct Hm as (Hm1 & Hm2 & Hm3).
      assert (Hmy : In m y) by auto.
      assert (Hmp : ltb m p = true) by (unfold lower in Hm1; apply filter_In in Hm1; tauto).
      split; [exact Hmy|].
      (* smaller than m: all are in lower *)
      assert (E1 : length (filter (fun x => ltb x m) y) = length (filter (fun x => ltb x m) lower)).
      { unfold lower. rewrite filter_and. apply filter_ext_len. intros x Hx.
        destruct (ltb x m) eqn:Exm; [|rewrite andb_false_r; reflexivity].
        rewrite (Ht x m p) by auto. reflexivity. }
      (* larger than m: those in lower, plus everything outside lower *)
      assert (E2 : length (filter (fun x => ltb m x) y) =
                   length (filter (fun x => ltb m x) lower) + (length y - length lower)).
      { pose proof (filter_compl_len (fun yi => ltb yi p) (filter (fun x => ltb m x) y)) as C.
        rewrite !filter_and in C. rewrite <- C. f_equal.
        - unfold lower. rewrite filter_and. apply filter_ext_len. intros; apply andb_comm.
        - pose proof (filter_compl_len (fun yi => ltb yi p) y) as C2. fold lower in C2.
          replace (length y - length lower) with (length (filter (fun x => negb (ltb x p)) y)) by lia.
          apply filter_ext_len. intros x Hx. destruct (ltb x p) eqn:Exp; cbn.
          + apply andb_false_r.
          + rewrite andb_true_r. destruct (Hn m x p) as [G|G]; auto; congruence. }
      lia. }
    destruct (Nat.ltb_spec k (length lower + (length y - length lower - length upper))) as [Hkm|Hkm].
    { exists p. split; [reflexivity|]. apply has_rank_alt. split; [exact Hp|].
      fold lower upper. lia. }
    cbn [bind].
    destruct (Nat.ltb_spec (k - length lower) (length y - length lower - length upper)); [lia|]. cbn [bind].
    destruct (IH upper (k - length lower - (length y - length lower - length upper))) as (m & E & Hm);
      try lia.
    { eapply weak_sub; [exact SU|]. split; auto. }
    exists m. split; [exact E|]. apply has_rank_alt in Hm. apply has_rank_alt.
    destruct Hm as (Hm1 & Hm2 & Hm3).
    assert (Hmy : In m y) by auto.
    assert (Hmp : ltb p m = true) by (unfold upper in Hm1; apply filter_In in Hm1; tauto).
    split; [exact Hmy|].
    assert (E1 : length (filter (fun x => ltb m x) y) = length (filter (fun x => ltb m x) upper)).
    { unfold upper. rewrite filter_and. apply filter_ext_len. intros x Hx.
      destruct (ltb m x) eqn:Exm; [|rewrite andb_false_r; reflexivity].
      rewrite (Ht p m x) by auto. reflexivity. }
    assert (E2 : length (filter (fun x => ltb x m) y) =
                 length (filter (fun x => ltb x m) upper) + (length y - length upper)).
    { pose proof (filter_compl_len (fun yi => ltb p yi) (filter (fun x => ltb x m) y)) as C.
      rewrite !filter_and in C. rewrite <- C. f_equal.
      - unfold upper. rewrite filter_and. apply filter_ext_len. intros; apply andb_comm.
      - pose proof (filter_compl_len (fun yi => ltb p yi) y) as C2. fold upper in C2.
        replace (length y - length upper) with (length (filter (fun x => negb (ltb p x)) y)) by lia.
        apply filter_ext_len. intros x Hx. destruct (ltb p x) eqn:Exp; cbn.
        + apply andb_false_r.
        + rewrite andb_true_r. destruct (Hn p x m) as [G|G]; auto; congruence. }
    lia.
Qed.

(** Ranks determine the element up to incomparability. *)
Lemma rank_unique y k a b : strict_weak_on ltb y ->
  has_rank ltb y k a -> has_rank ltb y k b -> ltb a b = false.
Proof.
  intros (Hi & Ht & Hn) Ra Rb. apply has_rank_alt in Ra. apply has_rank_alt in Rb.
  destruct Ra as (Ha & Ha1 & Ha2). destruct Rb as (Hb & Hb1 & Hb2).
  destruct (ltb a b) eqn:E; [|reflexivity]. exfalso.
  (* not larger than a => smaller than b *)
  assert (L : length (filter (fun x => negb (ltb a x)) y) <= length (filter (fun x => ltb x b) y)).
  { apply filter_le_len. intros x Hx Hnx. apply negb_true_iff in Hnx.
    destruct (Hn a x b) as [G|G]; auto; congruence. }
  pose proof (filter_compl_len (fun x => ltb a x) y). lia.
Qed.

Lemma filter_perm_len (f : F -> bool) y z : Permutation y z -> length (filter f y) = length (filter f z).
Proof.
  induction 1 as [|x l l' P IH|x x' l|l l' l'' P1 IH1 P2 IH2]; cbn; auto; try lia.
  - destruct (f x); cbn; lia.
  - destruct (f x), (f x'); reflexivity.
Qed.

Lemma rank_perm y z k m : Permutation y z -> has_rank ltb y k m -> has_rank ltb z k m.
Proof.
  intros P [H1 H2]. split; [eapply Permutation_in; eauto|].
  rewrite <- !(filter_perm_len _ y z P). exact H2.
Qed.

(** The k-th element of the sorted sample has rank k. *)
Lemma sorted_rank s k m : strict_weak_on ltb s ->
  StronglySorted (fun a b => ltb b a = false) s -> nth_error s k = Some m -> has_rank ltb s k m.
Proof.
  intros (Hi & Ht & Hn) Hs Hk.
  assert (Hm : In m s) by (eapply nth_error_In; eauto).
  assert (Hlen : k < length s) by (apply nth_error_Some; congruence).
  assert (Split : s = firstn k s ++ m :: skipn (S k) s).
  { clear - Hk. revert k Hk. induction s as [|a s IH]; intros k Hk; destruct k; cbn in *; try discriminate.
    - congruence.
    - f_equal. apply IH. exact Hk. }
  assert (Hle : forall x, In x (firstn k s) -> ltb m x = false).
  { intros x Hx. rewrite Split in Hs.
    clear - Hs Hx. revert Hs Hx. generalize (firstn k s) as l. generalize (skipn (S k) s) as r.
    induction l as [|a l IH]; intros Hs Hx; [destruct Hx|]. cbn in Hs.
    inversion Hs as [|? ? Hs' Hall]; subst. destruct Hx as [->|Hx]; [|apply IH; assumption].
    rewrite Forall_forall in Hall. apply Hall. apply in_or_app. right. left. reflexivity. }
  assert (Hge : forall x, In x (skipn (S k) s) -> ltb x m = false).
  { intros x Hx. rewrite Split in Hs.
    clear - Hs Hx. revert Hs. generalize (firstn k s) as l.
    induction l as [|a l IH]; intros Hs; cbn in Hs; inversion Hs as [|? ? Hs' Hall]; subst.
    - rewrite Forall_forall in Hall. apply Hall. exact Hx.
    - apply IH. exact Hs'. }
  assert (L1 : length (firstn k s) = k) by (rewrite firstn_length; lia).
  assert (L2 : length (skipn (S k) s) = length s - S k) by (rewrite skipn_length; lia).
  apply has_rank_alt. split; [exact Hm|].
  assert (N : forall (f : F -> bool) l, (forall x, In x l -> f x = false) -> filter f l = []).
  { intros f l. induction l as [|a l IH]; intros H; [reflexivity|]. cbn.
    rewrite (H a) by (left; reflexivity). apply IH. intros; apply H; right; assumption. }
  split.
  - rewrite Split at 1. rewrite filter_app, app_length. cbn [filter].
    rewrite (Hi m Hm). rewrite (N _ (skipn (S k) s) Hge).
    pose proof (filter_len_le (fun x => ltb x m) (firstn k s)). cbn [length]. lia.
  - rewrite Split at 1. rewrite filter_app, app_length. cbn [filter].
    rewrite (Hi m Hm). rewrite (N (fun x => ltb m x) (firstn k s) Hle). cbn [length].
    pose proof (filter_len_le (fun x => ltb m x) (skipn (S k) s)). lia.
Qed.

Lemma total_rank_unique y k a b : strict_total_on ltb y ->
  has_rank ltb y k a -> has_rank ltb y k b -> a = b.
Proof.
  intros [Hw Ht] Ra Rb. apply Ht; [apply Ra|apply Rb| |].
  - eapply rank_unique; eauto.
  - eapply rank_unique; eauto.
Qed.

Lemma quickselect_sorted y s k m : strict_total_on ltb y -> sorted_version ltb y s ->
  nth_error s k = Some m -> quickselect ltb (length y) y k = Ok m.
Proof.
  intros Hw [P Hs] Hk.
  assert (Hlen : k < length y).
  { rewrite (Permutation_length P). apply nth_error_Some. congruence. }
  destruct (quickselect_rank (length y) y k (le_n _) Hlen (proj1 Hw)) as (r & E & Hr).
  rewrite E. f_equal. apply (total_rank_unique y k); auto.
  apply (rank_perm s y); [apply Permutation_sym; exact P|].
  apply sorted_rank; auto. eapply weak_sub; [|apply Hw].
  intros x Hx. eapply Permutation_in; [apply Permutation_sym; exact P|exact Hx].
Qed.

(** Insertion sort: sorted versions exist. *)
Fixpoint ins (a : F) (l : list F) : list F :=
  match l with
  | [] => [a]
  | b :: l' => if ltb b a then b :: ins a l' else a :: l
  end.
Definition isort (l : list F) : list F := fold_right ins [] l.

Lemma ins_perm a l : Permutation (a :: l) (ins a l).
Proof.
  induction l as [|b l IH]; cbn; [apply Permutation_refl|]. destruct (ltb b a).
  - eapply Permutation_trans; [apply perm_swap|]. apply perm_skip. exact IH.
  - apply Permutation_refl.
Qed.

Lemma isort_perm l : Permutation l (isort l).
Proof.
  induction l as [|a l IH]; cbn; [apply Permutation_refl|].
  eapply Permutation_trans; [apply perm_skip; exact IH|apply ins_perm].
Qed.

Lemma ins_sorted a l : strict_weak_on ltb (a :: l) ->
  StronglySorted (fun a b => ltb b a = false) l ->
  StronglySorted (fun a b => ltb b a = false) (ins a l).
Proof.
  induction l as [|b l IH]; intros Hw Hs; cbn; [constructor; constructor|].
  inversion Hs as [|? ? Hs' Hall]; subst. destruct (ltb b a) eqn:E.
  - constructor.
    + apply IH; [|exact Hs']. eapply weak_sub; [|exact Hw]. intros x [->|Hx]; cbn; auto.
    + rewrite Forall_forall in *. intros x Hx.
      assert (Hx' : In x (a :: l)) by (eapply Permutation_in; [apply Permutation_sym, ins_perm|exact Hx]).
      destruct Hx' as [<-|Hx']; [|apply Hall; exact Hx'].
      apply (weak_asym _ Hw); cbn; auto.
  - constructor; [exact Hs|]. rewrite Forall_forall in *. intros x [<-|Hx]; [exact E|].
    destruct Hw as (Hi & Ht & Hn). destruct (ltb x a) eqn:E2; [|reflexivity].
    destruct (Hn x b a) as [G|G]; cbn; auto; [|congruence].
    rewrite (Hall x Hx) in G. discriminate.
Qed.

Lemma isort_sorted l : strict_weak_on ltb l -> sorted_version ltb l (isort l).
Proof.
  intros Hw. split; [apply isort_perm|].
  induction l as [|a l IH]; cbn; [constructor|].
  assert (Hw' : strict_weak_on ltb l) by (eapply weak_sub; [|exact Hw]; intros; right; assumption).
  apply ins_sorted; [|apply IH; exact Hw'].
  eapply weak_sub; [|exact Hw]. intros x [->|Hx]; [left; reflexivity|right].
  eapply Permutation_in; [apply Permutation_sym, isort_perm|exact Hx].
Qed.

(** * median_gen *)
Variables (zero : F) (half : F -> F -> res F).

Lemma median_safe y : irrefl_on ltb y -> asym_on ltb y ->
  (forall a b, In a y -> In b y -> exists m, half a b = Ok m) ->
  exists m, median_gen ltb zero half y = Ok (m, length y).
Proof.
  intros Hi Ha Hh. unfold median_gen.
  destruct (Nat.eqb_spec (length y) 0) as [E0|E0]; [exists zero; rewrite E0; reflexivity|].
  destruct (Nat.eqb_spec (length y) 1) as [E1|E1].
  { destruct y as [|m [|? ?]]; cbn in E1; try lia. exists m. reflexivity. }
  assert (Hlt : length y / 2 < length y) by (apply Nat.div_lt; lia).
  destruct (quickselect_safe (length y) y (length y / 2) (le_n _) Hlt Hi Ha) as (b & Eb & Hb).
  destruct (Nat.eqb_spec (length y mod 2) 1) as [Eo|Eo].
  { exists b. rewrite Eb. reflexivity. }
  assert (H2 : 1 <= length y / 2) by (apply Nat.div_le_lower_bound; lia).
  unfold usub. destruct (Nat.ltb_spec (length y / 2) 1); [lia|]. cbn [bind].
  destruct (quickselect_safe (length y) y (length y / 2 - 1) (le_n _) ltac:(lia) Hi Ha) as (a & Ea & Ha').
  rewrite Ea, Eb. cbn [bind]. destruct (Hh a b Ha' Hb) as [m Em]. rewrite Em. exists m. reflexivity.
Qed.

Lemma median_sorted y s : strict_total_on ltb y -> sorted_version ltb y s ->
  (forall m, length y mod 2 = 1 -> nth_error s (length y / 2) = Some m ->
     median_gen ltb zero half y = Ok (m, length y)) /\
  (forall a b, length y mod 2 = 0 -> 0 < length y ->
     nth_error s (length y / 2 - 1) = Some a -> nth_error s (length y / 2) = Some b ->
     median_gen ltb zero half y = let! m := half a b in Ok (m, length y)) /\
  (y = [] -> median_gen ltb zero half y = Ok (zero, 0)).
Proof.
  intros Hw Hs. split; [|split].
  - intros m Ho Hm. unfold median_gen.
    destruct (Nat.eqb_spec (length y) 0) as [E0|E0]; [rewrite E0 in Ho; discriminate|].
    destruct (Nat.eqb_spec (length y) 1) as [E1|E1].
    { destruct y as [|r [|? ?]]; cbn in E1; try lia. cbn in Hm.
      destruct Hs as [P _]. apply Permutation_length_1_inv in P. subst s. cbn in Hm.
      injection Hm as ->. reflexivity. }
    rewrite Ho. cbn [Nat.eqb]. rewrite (quickselect_sorted y s _ m Hw Hs Hm). reflexivity.
  - intros a b He Hpos Ha Hb. unfold median_gen.
    destruct (Nat.eqb_spec (length y) 0) as [E0|E0]; [lia|].
    destruct (Nat.eqb_spec (length y) 1) as [E1|E1]; [rewrite E1 in He; discriminate|].
    rewrite He. cbn [Nat.eqb].
    assert (H2 : 1 <= length y / 2) by (apply Nat.div_le_lower_bound; lia).
    unfold usub. destruct (Nat.ltb_spec (length y / 2) 1); [lia|]. cbn [bind].
    rewrite (quickselect_sorted y s _ a Hw Hs Ha), (quickselect_sorted y s _ b Hw Hs Hb). reflexivity.
  - intros ->. reflexivity.
Qed.

Lemma total_perm y z : Permutation y z -> strict_total_on ltb y -> strict_total_on ltb z.
Proof.
  intros P [Hw Ht]. assert (S : forall x, In x z -> In x y)
    by (intros x; apply Permutation_in, Permutation_sym, P).
  split; [eapply weak_sub; eauto|]. intros; apply Ht; auto.
Qed.

Lemma median_perm y z : strict_total_on ltb y -> Permutation y z ->
  median_gen ltb zero half y = median_gen ltb zero half z.
Proof.
  intros Hw P. pose proof (total_perm y z P Hw) as Hz.
  pose proof (isort_sorted z (proj1 Hz)) as Sz.
  assert (Sy : sorted_version ltb y (isort z)).
  { split; [|apply Sz]. eapply Permutation_trans; [exact P|apply Sz]. }
  pose proof (Permutation_length P) as L.
  destruct (median_sorted y (isort z) Hw Sy) as (A1 & A2 & A3).
  destruct (median_sorted z (isort z) Hz Sz) as (B1 & B2 & B3).
  assert (Ls : length (isort z) = length z) by (symmetry; apply Permutation_length, isort_perm).
  destruct (length z) as [|n] eqn:En.
  { destruct y; [|discriminate]. destruct z; [|discriminate]. reflexivity. }
  assert (Hlt : S n / 2 < S n) by (apply Nat.div_lt; lia).
  destruct (nth_error (isort z) (S n / 2)) as [b|] eqn:Eb; [|apply nth_error_None in Eb; lia].
  destruct (Nat.eq_dec (S n mod 2) 1) as [Ho|Ho].
  - rewrite (A1 b), (B1 b); rewrite ?L; auto.
  - assert (He : S n mod 2 = 0) by (pose proof (Nat.mod_upper_bound (S n) 2); lia).
    destruct (nth_error (isort z) (S n / 2 - 1)) as [a|] eqn:Ea; [|apply nth_error_None in Ea; lia].
    rewrite (A2 a b), (B2 a b); rewrite ?L; auto; lia.
Qed.
End Qs.

(** * Concrete number types *)
Lemma Zltb_total (y : list Z) : strict_total_on Z.ltb y.
Proof.
  split; [split; [|split]|].
  - intros a _. apply Z.ltb_irrefl.
  - intros a b c _ _ _ H1 H2. apply Z.ltb_lt in H1, H2. apply Z.ltb_lt. lia.
  - intros a b c _ _ _ H. apply Z.ltb_lt in H. rewrite !Z.ltb_lt. lia.
  - intros a b _ _ H1 H2. apply Z.ltb_ge in H1, H2. lia.
Qed.

Lemma SFltb_irrefl a : SFltb a a = false.
Proof.
  unfold SFltb. destruct a as [s|s| |s m e]; cbn; try reflexivity; [destruct s; reflexivity|].
  destruct s; rewrite Z.compare_refl, ?Pos.compare_cont_refl; reflexivity.
Qed.

Lemma SFltb_asym a b : SFltb a b = true -> SFltb b a = false.
Proof.
  unfold SFltb.
  destruct a as [sa|sa| |sa ma ea], b as [sb|sb| |sb mb eb]; cbn;
    try (destruct sa); try (destruct sb); cbn; try congruence; auto.
  - rewrite (Z.compare_antisym eb ea). destruct (Z.compare eb ea); cbn; try congruence.
    change (Pos.compare_cont Eq ?x ?y) with (Pos.compare x y).
    rewrite (Pos.compare_antisym mb ma). destruct (Pos.compare mb ma); cbn; congruence.
  - rewrite (Z.compare_antisym eb ea). destruct (Z.compare eb ea); cbn; try congruence.
    change (Pos.compare_cont Eq ?x ?y) with (Pos.compare x y).
    rewrite (Pos.compare_antisym mb ma). destruct (Pos.compare mb ma); cbn; congruence.
Qed.

(** Non-NaN floats are strictly weakly ordered (lexicographic key). *)
Definition sfkey (f : spec_float) : Z * Z * Z :=
  match f with
  | S754_infinity true => (-2, 0, 0)
  | S754_finite true m e => (-1, - e, - Zpos m)
  | S754_zero _ => (0, 0, 0)
  | S754_finite false m e => (1, e, Zpos m)
  | S754_infinity false => (2, 0, 0)
  | S754_nan => (3, 0, 0)
  end%Z.
Definition lex (p q : Z * Z * Z) : Prop :=
  let '(a, b, c) := p in let '(a', b', c') := q in
  (a < a' \/ (a = a' /\ (b < b' \/ (b = b' /\ c < c'))))%Z.

Lemma SFltb_lex a b : a <> S754_nan -> b <> S754_nan -> SFltb a b = true <-> lex (sfkey a) (sfkey b).
Proof.
  intros Ha Hb. unfold SFltb.
  destruct a as [sa|sa| |sa ma ea], b as [sb|sb| |sb mb eb]; try congruence; cbn;
    try (destruct sa); try (destruct sb); cbn;
    try (split; [intros H; try discriminate H; lia | intros H; try reflexivity; exfalso; lia]).
  - destruct (Z.compare_spec ea eb); cbn.
    + subst. change (Pos.compare_cont Eq ma mb) with (Pos.compare ma mb).
      destruct (Pos.compare_spec ma mb); cbn; split; intros H'; try discriminate; try reflexivity; lia.
    + split; intros H'; try discriminate; lia.
    + split; intros H'; [lia|reflexivity].
  - destruct (Z.compare_spec ea eb); cbn.
    + subst. change (Pos.compare_cont Eq ma mb) with (Pos.compare ma mb).
      destruct (Pos.compare_spec ma mb); cbn; split; intros H'; try discriminate; try reflexivity; lia.
    + split; intros H'; [lia|reflexivity].
    + split; intros H'; try discriminate; lia.
Qed.

Lemma SFltb_weak (y : list spec_float) : ~ In S754_nan y -> strict_weak_on SFltb y.
Proof.
  intros Hn. assert (N : forall a, In a y -> a <> S754_nan) by (intros a Ha ->; auto).
  split; [|split].
  - intros a _. apply SFltb_irrefl.
  - intros a b c Ha Hb Hc. rewrite !SFltb_lex by auto.
    destruct (sfkey a) as [[a1 a2] a3], (sfkey b) as [[b1 b2] b3], (sfkey c) as [[c1 c2] c3]. cbn. lia.
  - intros a b c Ha Hb Hc. rewrite !SFltb_lex by auto.
    destruct (sfkey a) as [[a1 a2] a3], (sfkey b) as [[b1 b2] b3], (sfkey c) as [[c1 c2] c3]. cbn. lia.
Qed.

(** Median under a strict weak order: the middle ranks. *)
Lemma median_rank {F} (ltb : F -> F -> bool) (zero : F) half y : strict_weak_on ltb y -> y <> [] ->
  (length y mod 2 = 1 -> exists m, has_rank ltb y (length y / 2) m /\
     median_gen ltb zero half y = Ok (m, length y)) /\
  (length y mod 2 = 0 -> exists a b, has_rank ltb y (length y / 2 - 1) a /\
     has_rank ltb y (length y / 2) b /\
     median_gen ltb zero half y = let! m := half a b in Ok (m, length y)).
Proof.
  intros Hw Hne. assert (Hpos : 0 < length y) by (destruct y; [congruence|cbn; lia]).
  assert (Hlt : length y / 2 < length y) by (apply Nat.div_lt; lia).
  destruct (quickselect_rank ltb (length y) y (length y / 2) (le_n _) Hlt Hw) as (b & Eb & Rb).
  split; intros Hp; unfold median_gen.
  - exists b. split; [exact Rb|].
    destruct (Nat.eqb_spec (length y) 0) as [E0|E0]; [lia|].
    destruct (Nat.eqb_spec (length y) 1) as [E1|E1].
    { destruct y as [|r [|? ?]]; cbn in E1; try lia. cbn. destruct Rb as [[->|[]] _]. reflexivity. }
    rewrite Hp. cbn [Nat.eqb]. rewrite Eb. reflexivity.
  - destruct (Nat.eqb_spec (length y) 0) as [E0|E0]; [lia|].
    destruct (Nat.eqb_spec (length y) 1) as [E1|E1]; [rewrite E1 in Hp; discriminate|].
    assert (H2 : 1 <= length y / 2) by (apply Nat.div_le_lower_bound; lia).
    destruct (quickselect_rank ltb (length y) y (length y / 2 - 1) (le_n _) ltac:(lia) Hw) as (a & Ea & Ra).
    exists a, b. split; [exact Ra|]. split; [exact Rb|].
    rewrite Hp. cbn [Nat.eqb]. unfold usub.
    destruct (Nat.ltb_spec (length y / 2) 1); [lia|]. cbn [bind]. rewrite Ea, Eb. reflexivity.
Qed.

(** Integer medians. *)
Local Open Scope Z_scope.
Lemma median_int_noovf md t y a b : wf_ity t -> (forall x, In x y -> in_range t x = true) ->
  in_range t (a + b) = true ->
  (let! s := iadd md t a b in let! two := from_usize t 2 in idiv t s two) = Ok (Z.quot (a + b) 2).
Proof.
  intros W Hy Hs. apply in_range_iff in Hs. destruct (wf_bounds t W) as (B1 & B2 & _).
  unfold iadd. rewrite arith_ok by lia. cbn [bind]. unfold from_usize. rewrite convert_ok by lia.
  cbn [bind]. unfold idiv. change (2 =? 0) with false. cbn iota.
  replace (in_range t (Z.quot (a + b) 2)) with true; [reflexivity|].
  symmetry. apply in_range_iff.
  pose proof (Z.quot_rem' (a + b) 2) as Q. pose proof (Z.rem_bound_abs (a + b) 2 ltac:(lia)) as Rb.
  destruct (Z_le_gt_dec 0 (a + b)).
  - pose proof (Z.rem_nonneg (a + b) 2 ltac:(lia) ltac:(lia)). lia.
  - pose proof (Z.rem_nonpos (a + b) 2 ltac:(lia) ltac:(lia)). lia.
Qed.

Lemma quot2_between a b : Z.min a b <= Z.quot (a + b) 2 <= Z.max a b.
Proof.
  pose proof (Z.quot_rem' (a + b) 2) as Q. pose proof (Z.rem_bound_abs (a + b) 2 ltac:(lia)) as Rb.
  destruct (Z_le_gt_dec 0 (a + b)).
  - pose proof (Z.rem_nonneg (a + b) 2 ltac:(lia) ltac:(lia)). lia.
  - pose proof (Z.rem_nonpos (a + b) 2 ltac:(lia) ltac:(lia)). lia.
Qed.

Lemma median_int_between md pw t y :
  In pw pointer_widths -> In t (prim_types pw) -> y <> [] ->
  (forall x, In x y -> in_range t x = true) ->
  (Nat.Odd (length y) \/ (forall a b, In a y -> In b y -> in_range t (a + b) = true)) ->
  exists m, median_int md t y = Ok (m, length y) /\
    (exists lo, In lo y /\ lo <= m) /\ (exists hi, In hi y /\ m <= hi).
Proof.
  intros Hp Ht Hne Hr Hs. pose proof (prim_wf pw t Hp Ht) as W.
  destruct (median_rank Z.ltb 0 (fun a b => let! s := iadd md t a b in
     let! two := from_usize t 2 in idiv t s two) y (proj1 (Zltb_total y)) Hne) as [Ho He].
  unfold median_int.
  destruct (Nat.eq_dec (length y mod 2) 1) as [E|E].
  - destruct (Ho E) as (m & Rm & Em). exists m. split; [exact Em|].
    destruct Rm as [Hm _]. split; exists m; split; auto; lia.
  - assert (E' : (length y mod 2 = 0)%nat) by (pose proof (Nat.mod_upper_bound (length y) 2); lia).
    destruct Hs as [Hodd|Hs].
    { destruct Hodd as [q Hq]. rewrite Hq in E'. rewrite Nat.add_comm, Nat.mul_comm, Nat.mod_add in E' by lia.
      discriminate. }
    destruct (He E') as (a & b & Ra & Rb & Em). destruct Ra as [Ha _], Rb as [Hb _].
    rewrite (median_int_noovf md t y a b W Hr (Hs a b Ha Hb)) in Em. cbn [bind] in Em.
    eexists. split; [exact Em|]. pose proof (quot2_between a b).
    split.
    + destruct (Z_le_gt_dec a b); [exists a|exists b]; split; auto; lia.
    + destruct (Z_le_gt_dec a b); [exists b|exists a]; split; auto; lia.
Qed.
