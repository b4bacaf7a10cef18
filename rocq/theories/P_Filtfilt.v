(** sosfiltfilt_dyn and from_scipy_dyn. *)
From Coq Require Import List Arith Bool Lia.
From Verif Require Import Base Num M_Linalg M_Stats M_Filter S_Filter ListUtil P_Linalg P_Ext P_Sosfilt.
Import ListNotations.

Section FF.
Context {F : Type} {NF : Num F}.

Definition some_den (s : Sos F) : bool :=
  negb (neqb (a0 s) nzero) || negb (neqb (a1 s) nzero) || negb (neqb (a2 s) nzero).

Lemma lfilter_zi_section (B0 B1 B2 A0 A1 A2 : F) :
  if negb (neqb A0 nzero) || negb (neqb A1 nzero) || negb (neqb A2 nzero)
  then exists z0 z1, lfilter_zi_dyn [B0; B1; B2] [A0; A1; A2] = Ok [z0; z1]
  else lfilter_zi_dyn [B0; B1; B2] [A0; A1; A2] = Panic.
Proof.
  unfold lfilter_zi_dyn. cbn [length Nat.eqb rassert bind position].
  destruct (negb (neqb A0 nzero)) eqn:E0; cbn [orb].
  { cbn [unwrap bind skipn index nth_error].
    destruct (negb (neqb A0 none)); cbn; eauto. }
  destruct (negb (neqb A1 nzero)) eqn:E1; cbn [orb].
  { cbn [unwrap bind skipn index nth_error option_map].
    destruct (negb (neqb A1 none)); cbn; eauto. }
  destruct (negb (neqb A2 nzero)) eqn:E2; cbn [orb].
  { cbn [unwrap bind skipn index nth_error option_map].
    destruct (negb (neqb A2 none)); cbn; eauto. }
  reflexivity.
Qed.

Lemma sosfilt_zi_loop_total (l : list (Sos F)) : forall sc,
  if forallb some_den l
  then exists l', sosfilt_zi_loop sc l = Ok l' /\ same_coefs l' l
  else sosfilt_zi_loop sc l = Panic.
Proof.
  induction l as [|s l IH]; intros sc; cbn [forallb sosfilt_zi_loop].
  - exists []. split; reflexivity.
  - pose proof (lfilter_zi_section (b0 s) (b1 s) (b2 s) (a0 s) (a1 s) (a2 s)) as H.
    fold (some_den s) in H. destruct (some_den s); cbn [andb].
    + destruct H as (z0 & z1 & ->). cbn [bind index nth_error unwrap].
      match goal with |- context [sosfilt_zi_loop ?sc' l] => specialize (IH sc') end.
      destruct (forallb some_den l).
      * destruct IH as (l' & -> & C). eexists. split; [reflexivity|]. unfold same_coefs in *. cbn [map]. f_equal. exact C.
      * rewrite IH. reflexivity.
    + rewrite H. reflexivity.
Qed.

Lemma coefs_fields (s t : Sos F) : coefs s = coefs t ->
  b0 s = b0 t /\ b1 s = b1 t /\ b2 s = b2 t /\ a0 s = a0 t /\ a1 s = a1 t /\ a2 s = a2 t.
Proof. unfold coefs. intros H. injection H. tauto. Qed.

Lemma sosfilt_zi_loop_coefs (l : list (Sos F)) : forall l' sc, same_coefs l l' ->
  sosfilt_zi_loop sc l = sosfilt_zi_loop sc l'.
Proof.
  induction l as [|s l IH]; intros [|s' l'] sc C; unfold same_coefs in C; cbn [map] in C; try discriminate; [reflexivity|].
  pose proof (f_equal (hd []) C) as C1. pose proof (f_equal (@tl _) C) as C2. cbn [hd tl] in C1, C2.
  apply coefs_fields in C1. destruct C1 as (E0 & E1 & E2 & E3 & E4 & E5).
  cbn [sosfilt_zi_loop]. unfold set_state. rewrite E0, E1, E2, E3, E4, E5.
  destruct (lfilter_zi_dyn _ _); cbn [bind]; try reflexivity.
  destruct (index _ 0); cbn [bind]; try reflexivity. destruct (index _ 1); cbn [bind]; try reflexivity.
  rewrite (IH l' _ C2). reflexivity.
Qed.

Lemma filter_coefs (f : F -> bool) l : forall l' : list (Sos F), same_coefs l l' ->
  length (filter (fun s => f (b2 s)) l) = length (filter (fun s => f (b2 s)) l') /\
  length (filter (fun s => f (a2 s)) l) = length (filter (fun s => f (a2 s)) l') /\ length l = length l'.
Proof.
  induction l as [|s l IH]; intros [|s' l'] C; unfold same_coefs in C; cbn [map] in C; try discriminate; [auto|].
  pose proof (f_equal (hd []) C) as C1. pose proof (f_equal (@tl _) C) as C2. cbn [hd tl] in C1, C2.
  apply coefs_fields in C1. destruct C1 as (E0 & E1 & E2 & E3 & E4 & E5). specialize (IH l' C2).
  cbn [filter]. rewrite E2, E5. destruct (f (b2 s')), (f (a2 s')); cbn [length]; lia.
Qed.

Lemma taps_coefs (l l' : list (Sos F)) : same_coefs l l' -> taps l = taps l'.
Proof.
  intros C. unfold taps. destruct (filter_coefs (fun v => neqb v nzero) l l' C) as (-> & -> & ->). reflexivity.
Qed.

Lemma filtfilt_coefs y (l l' : list (Sos F)) : same_coefs l l' -> sosfiltfilt_dyn y l = sosfiltfilt_dyn y l'.
Proof.
  intros C. unfold sosfiltfilt_dyn, sosfilt_zi_dyn.
  destruct (filter_coefs (fun v => neqb v nzero) l l' C) as (-> & -> & ->).
  rewrite (sosfilt_zi_loop_coefs l l' none C). reflexivity.
Qed.

Lemma map_seq_nth (y : list F) d : map (fun i => nth i y d) (seq 0 (length y)) = y.
Proof.
  induction y as [|a y IH]; [reflexivity|]. cbn [length seq map]. f_equal.
  rewrite <- seq_shift, map_map. exact IH.
Qed.
Lemma nth_map_seq {A} (f : nat -> A) s e i : i < e -> nth_error (map f (seq s e)) i = Some (f (s + i)).
Proof.
  revert s i. induction e as [|e IH]; intros s i H; [lia|]. destruct i; cbn [seq map nth_error].
  - f_equal. f_equal. lia.
  - rewrite IH by lia. do 2 f_equal. lia.
Qed.
Lemma nth_map_rev_seq {A} (f : nat -> A) s e i : i < e -> nth_error (map f (rev (seq s e))) i = Some (f (s + (e - S i))).
Proof.
  intros H. rewrite map_rev. rewrite (nth_error_nth' _ (f 0)) by (rewrite rev_length, map_length, seq_length; lia).
  rewrite rev_nth by (rewrite map_length, seq_length; lia). rewrite map_length, seq_length.
  apply f_equal. apply nth_error_nth. apply nth_map_seq. lia.
Qed.
Lemma odd_ext_list (y : list F) e : 1 <= e < length y ->
  exists m, odd_ext_dyn (dvector y) e 0 = Ok m /\ mat_to_list m = odd_extension e y.
Proof.
  intros He. destruct (odd_ext_rows (dvector y) e He) as (m & E & R & C & Mid & L & Rt).
  exists m. split; [exact E|]. unfold mat_to_list. rewrite R, C. cbn [dvector ncols nrows seq flat_map] in *.
  rewrite app_nil_r. unfold odd_extension. cbn zeta.
  replace (length y + 2 * e) with (e + (length y + e)) by lia.
  rewrite !seq_app, !map_app. f_equal; [|f_equal].
  - apply nth_error_ext. intros i. destruct (Nat.lt_ge_cases i e) as [Hi|Hi].
    + rewrite nth_map_seq, nth_map_rev_seq by exact Hi. f_equal.
      specialize (L (e - i) 0 ltac:(lia) ltac:(lia)). cbn [ent] in L.
      replace (e - (e - i)) with (0 + i) in L by lia. rewrite L. unfold twice. replace (1 + (e - S i)) with (e - i) by lia.
      reflexivity.
    + rewrite !(proj2 (nth_error_None _ _)); [reflexivity| |]; rewrite map_length, ?rev_length, seq_length; lia.
  - rewrite <- (map_seq_nth y nzero) at 2. apply nth_error_ext. intros i.
    destruct (Nat.lt_ge_cases i (length y)) as [Hi|Hi].
    + rewrite !nth_map_seq by exact Hi. f_equal. rewrite !Nat.add_0_l. rewrite (Mid i 0) by lia. reflexivity.
    + rewrite !(proj2 (nth_error_None _ _)); [reflexivity| |]; rewrite map_length, seq_length; lia.
  - apply nth_error_ext. intros i. destruct (Nat.lt_ge_cases i e) as [Hi|Hi].
    + rewrite !nth_map_seq by exact Hi. f_equal. specialize (Rt (1 + i) 0 ltac:(lia) ltac:(lia)). cbn [ent] in Rt.
      replace (e + (length y - 1) + (1 + i)) with (0 + e + length y + i) in Rt by lia. rewrite Rt. reflexivity.
    + rewrite !(proj2 (nth_error_None _ _)); [reflexivity| |]; rewrite map_length, seq_length; lia.
Qed.

Lemma odd_extension_length e (y : list F) : length (odd_extension e y) = length y + 2 * e.
Proof.
  unfold odd_extension. cbn zeta. rewrite !app_length, !map_length, rev_length, seq_length. lia.
Qed.

(** The whole function, without panics. *)
Definition filtfilt (y : list F) (sos init : list (Sos F)) : list F :=
  let e := 3 * taps sos in
  let ext := odd_extension e y in
  let fwd := fst (filt ext (scale_state (nth 0 ext nzero) init)) in
  let bwd := fst (filt (rev fwd) (scale_state (nth 0 (rev fwd) nzero) init)) in
  rev (firstn (length y) (skipn e bwd)).

Lemma filter_len {A} (f : A -> bool) l : length (filter f l) <= length l.
Proof. induction l as [|a l IH]; cbn; [lia|]. destruct (f a); cbn; lia. Qed.
Lemma taps_pos (l : list (Sos F)) : 1 <= taps l.
Proof.
  unfold taps. pose proof (filter_len (fun s : Sos F => neqb (b2 s) nzero) l). lia.
Qed.

Lemma sosfiltfilt_eq y (sos : list (Sos F)) :
  sosfiltfilt_dyn y sos =
  if length y <=? 3 * taps sos then Panic
  else let! init := sosfilt_zi_dyn sos in Ok (filtfilt y sos init).
Proof.
  unfold sosfiltfilt_dyn. cbn zeta.
  rewrite usub_ok by (pose proof (filter_len (fun s : Sos F => neqb (b2 s) nzero) sos); lia).
  cbn [bind]. change (2 * length sos + 1 - _) with (taps sos) at 1.
  rewrite pad_unfold. cbn [pad_edge]. cbn zeta. change (0 <? 2) with true. cbn [andb].
  change (nrows (dvector y)) with (length y).
  destruct (Nat.leb_spec (length y) (3 * taps sos)) as [H|H];
    destruct (Nat.ltb_spec (3 * taps sos) (length y)) as [H'|H']; try lia; [reflexivity|].
  pose proof (taps_pos sos) as T. destruct (Nat.eqb_spec (3 * taps sos) 0); [lia|].
  destruct (odd_ext_list y (3 * taps sos) ltac:(lia)) as (m & -> & E). cbn [bind]. rewrite E.
  destruct (sosfilt_zi_dyn sos) as [init| | |]; cbn [bind]; try reflexivity.
  pose proof (odd_extension_length (3 * taps sos) y) as L.
  unfold filtfilt. cbn zeta. set (ext := odd_extension _ y) in *.
  unfold index. rewrite (nth_error_nth' ext nzero) by lia. cbn [unwrap bind]. rewrite sosfilt_dyn_pure.
  pose proof (filt_length_out ext (scale_state (nth 0 ext nzero) init)) as L2.
  destruct (filt ext _) as [fwd s1]. cbn [fst bind] in *.
  rewrite (nth_error_nth' (rev fwd) nzero) by (rewrite rev_length; lia). cbn [unwrap bind].
  rewrite sosfilt_dyn_pure. destruct (filt (rev fwd) _) as [bwd s2]. reflexivity.
Qed.

Lemma filtfilt_length y sos init : length (filtfilt y sos init) = length y.
Proof.
  unfold filtfilt. cbn zeta. rewrite rev_length, firstn_length, skipn_length, filt_length_out, rev_length, filt_length_out, odd_extension_length.
  lia.
Qed.

(** from_scipy_dyn *)
Lemma tuples6_spec n : forall l : list F, length l = n * 6 ->
  exists ts, tuples6 l = ts /\ length ts = n /\
  concat (map (fun t => let '(x0, x1, x2, x3, x4, x5) := t in [x0; x1; x2; x3; x4; x5]) ts) = l.
Proof.
  induction n as [|n IH]; intros l L.
  - destruct l; [|discriminate]. exists []. auto.
  - destruct l as [|x0 [|x1 [|x2 [|x3 [|x4 [|x5 l]]]]]]; cbn [length Nat.mul Nat.add] in L; try lia.
    destruct (IH l ltac:(lia)) as (ts & E & Lt & Ct). exists ((x0, x1, x2, x3, x4, x5) :: ts).
    cbn [tuples6]. rewrite E. cbn [length map concat app]. rewrite Ct. auto.
Qed.
Lemma from_scipy_ok n (v : list F) : length v = 6 * n ->
  exists l, from_scipy_dyn n v = Ok l /\ length l = n /\ concat (map coefs l) = v /\
    Forall (fun s => delays s = (nzero, nzero)) l.
Proof.
  intros L. destruct (tuples6_spec n v ltac:(lia)) as (ts & E & Lt & Ct).
  unfold from_scipy_dyn. rewrite L, E. destruct (Nat.eqb_spec (n * 6) (6 * n)); [|lia]. cbn [rassert bind].
  rewrite <- Lt, firstn_all. eexists. split; [reflexivity|]. rewrite map_length. split; [reflexivity|]. split.
  - rewrite map_map. rewrite <- Ct. f_equal. apply map_ext. intros (((((?,?),?),?),?),?). reflexivity.
  - apply Forall_forall. intros s Hs. apply in_map_iff in Hs. destruct Hs as ((((((?,?),?),?),?),?) & <- & _). reflexivity.
Qed.
Lemma from_scipy_panic n (v : list F) : length v <> 6 * n -> from_scipy_dyn n v = Panic.
Proof. intros L. unfold from_scipy_dyn. destruct (Nat.eqb_spec (n * 6) (length v)); [lia|reflexivity]. Qed.
End FF.

From Coq Require Import Reals Lra.
From Verif Require Import S_Stats P_Stats RSum P_Zi.
Local Open Scope R_scope.

Lemma same_coefs_sym {F} (l m : list (Sos F)) : same_coefs l m -> same_coefs m l.
Proof. unfold same_coefs. congruence. Qed.

Lemma odd_ext_const (c : R) e n : (1 <= n)%nat -> (e < n)%nat -> odd_extension e (repeat c n) = repeat c (n + 2 * e).
Proof.
  intros Hn He. assert (N : forall k, (k < n)%nat -> nth k (repeat c n) 0 = c).
  { intros k Hk. rewrite (nth_indep _ _ c) by (rewrite repeat_length; lia). apply nth_repeat. }
  unfold odd_extension. cbn zeta. cbn [nzero RNum nsub nmul nadd none]. rewrite repeat_length.
  replace (n + 2 * e)%nat with (e + (n + e))%nat by lia. rewrite !repeat_app.
  assert (M : forall (f : nat -> R) l, (forall x, In x l -> f x = c) -> map f l = repeat c (length l)).
  { intros f l. induction l as [|a l IH]; intros H; [reflexivity|]. cbn. rewrite H, IH; [reflexivity| |left; reflexivity].
    intros x Hx. apply H. right. exact Hx. }
  f_equal; [|f_equal].
  - rewrite M; [rewrite rev_length, seq_length; reflexivity|]. intros d Hd. rewrite <- in_rev in Hd. apply in_seq in Hd.
    rewrite !N by lia. ring.
  - rewrite M; [rewrite seq_length; reflexivity|]. intros d Hd. apply in_seq in Hd. rewrite !N by lia. ring.
Qed.

Lemma rev_repeat {A} (c : A) n : rev (repeat c n) = repeat c n.
Proof.
  induction n as [|n IH]; [reflexivity|]. cbn [repeat rev]. rewrite IH.
  change [c] with (repeat c 1). rewrite <- repeat_app, Nat.add_comm. reflexivity.
Qed.
Lemma firstn_repeat' {A} (c : A) k n : (k <= n)%nat -> firstn k (repeat c n) = repeat c k.
Proof. revert n. induction k as [|k IH]; intros [|n] H; try lia; try reflexivity. cbn. rewrite IH by lia. reflexivity. Qed.
Lemma skipn_repeat' {A} (c : A) k n : skipn k (repeat c n) = repeat c (n - k).
Proof. revert n. induction k as [|k IH]; intros [|n]; try reflexivity. cbn. apply IH. Qed.

Lemma filtfilt_const (l : list (Sos R)) c n : Forall stable_section l -> (3 * taps l < n)%nat ->
  sosfiltfilt_dyn (repeat c n) l = Ok (repeat (c * (dc_gains l * dc_gains l)) n).
Proof.
  intros S H. rewrite sosfiltfilt_eq, repeat_length. destruct (Nat.leb_spec n (3 * taps l)); [lia|].
  unfold sosfilt_zi_dyn. change (@none R RNum) with 1. destruct (sosfilt_zi_loop_ok l 1 S) as (l' & -> & C & I). cbn [bind]. f_equal.
  unfold filtfilt. cbn zeta. rewrite odd_ext_const by lia. rewrite repeat_length.
  set (N := (n + 2 * (3 * taps l))%nat).
  assert (P : forall d, nth 0 (repeat d N) nzero = d).
  { intros d. destruct N eqn:E; [unfold N in E; lia|]. reflexivity. }
  assert (Q : forall d, filt (repeat d N) (scale_state d l') = (repeat (d * dc_gains l) N, scale_state d l')).
  { intros d. apply filt_const. specialize (I d). rewrite Rmult_1_r in I. exact I. }
  rewrite P, Q. cbn [fst]. rewrite rev_repeat, P, Q. cbn [fst]. rewrite skipn_repeat', firstn_repeat' by (unfold N; lia).
  rewrite rev_repeat, Rmult_assoc. reflexivity.
Qed.

(** lincomb and list operations *)
Lemma lincomb_length c d x y : length x = length y -> length (lincomb c d x y) = length x.
Proof. intros H. unfold lincomb. rewrite map_length, combine_length. lia. Qed.
Lemma lincomb_nth c d x : forall y k, length x = length y -> nth k (lincomb c d x y) 0 = c * nth k x 0 + d * nth k y 0.
Proof.
  induction x as [|a x IH]; intros [|b y] k H; try discriminate.
  - destruct k; cbn; ring.
  - destruct k; [reflexivity|]. cbn [nth]. change (lincomb c d (a :: x) (b :: y)) with ((c * a + d * b) :: lincomb c d x y).
    apply IH. cbn in H. lia.
Qed.
Lemma lincomb_app c d x : forall y x' y', length x = length y ->
  lincomb c d (x ++ x') (y ++ y') = lincomb c d x y ++ lincomb c d x' y'.
Proof.
  induction x as [|a x IH]; intros [|b y] x' y' H; try discriminate; [reflexivity|].
  cbn [app]. change (lincomb c d (a :: x ++ x') (b :: y ++ y')) with ((c * a + d * b) :: lincomb c d (x ++ x') (y ++ y')).
  rewrite IH by (cbn in H; lia). reflexivity.
Qed.
Lemma lincomb_rev c d x : forall y, length x = length y -> lincomb c d (rev x) (rev y) = rev (lincomb c d x y).
Proof.
  induction x as [|a x IH]; intros [|b y] H; try discriminate; [reflexivity|].
  cbn [rev]. rewrite lincomb_app by (rewrite !rev_length; cbn in H; lia). rewrite IH by (cbn in H; lia). reflexivity.
Qed.
Lemma lincomb_firstn c d k : forall x y, lincomb c d (firstn k x) (firstn k y) = firstn k (lincomb c d x y).
Proof. intros x y. unfold lincomb. rewrite <- combine_firstn, map_firstn. reflexivity. Qed.
Lemma lincomb_skipn c d k : forall x y, length x = length y ->
  lincomb c d (skipn k x) (skipn k y) = skipn k (lincomb c d x y).
Proof.
  induction k as [|k IH]; intros x y H; [reflexivity|]. destruct x, y; try discriminate; [reflexivity|].
  cbn [skipn]. rewrite IH by (cbn in H; lia). reflexivity.
Qed.
Lemma lincomb_map {A} c d (f g : A -> R) l : lincomb c d (map f l) (map g l) = map (fun a => c * f a + d * g a) l.
Proof.
  induction l as [|a l IH]; [reflexivity|]. cbn [map].
  change (lincomb c d (f a :: map f l) (g a :: map g l)) with ((c * f a + d * g a) :: lincomb c d (map f l) (map g l)).
  rewrite IH. reflexivity.
Qed.

Lemma odd_ext_lin c d e x y : length x = length y ->
  odd_extension e (lincomb c d x y) = lincomb c d (odd_extension e x) (odd_extension e y).
Proof.
  intros H. unfold odd_extension. cbn zeta. rewrite lincomb_length, <- H by exact H.
  rewrite !lincomb_app by (rewrite ?map_length; congruence).
  rewrite !lincomb_map. cbn [nzero RNum nsub nmul nadd none].
  f_equal; [|f_equal]; apply map_ext; intros k; rewrite !lincomb_nth by exact H; ring.
Qed.
Lemma scale_state_lin c d x y (l : list (Sos R)) :
  scale_state (c * x + d * y) l = lincomb_state c d (scale_state x l) (scale_state y l).
Proof.
  unfold scale_state, lincomb_state. induction l as [|s l IH]; [reflexivity|]. cbn [map combine].
  f_equal; [|exact IH]. cbn [fst snd]. unfold set_state. cbn. f_equal; ring.
Qed.
Lemma scale_state_coefs {F} {NF : Num F} c d (l : list (Sos F)) : same_coefs (scale_state c l) (scale_state d l).
Proof. unfold same_coefs, scale_state. rewrite !map_map. reflexivity. Qed.

Lemma filt_scale_lin c d p q x y (l : list (Sos R)) : length x = length y ->
  fst (filt (lincomb c d x y) (scale_state (c * p + d * q) l)) =
  lincomb c d (fst (filt x (scale_state p l))) (fst (filt y (scale_state q l))).
Proof. intros H. rewrite scale_state_lin, filt_lin; [reflexivity|apply scale_state_coefs|exact H]. Qed.

Lemma filtfilt_linear (l init : list (Sos R)) c d x y : length x = length y ->
  filtfilt (lincomb c d x y) l init = lincomb c d (filtfilt x l init) (filtfilt y l init).
Proof.
  intros H. unfold filtfilt. cbn zeta. set (e := (3 * taps l)%nat).
  rewrite odd_ext_lin by exact H. change nzero with 0.
  assert (L : length (odd_extension e x) = length (odd_extension e y)) by (rewrite !odd_extension_length; lia).
  rewrite lincomb_nth by exact L. rewrite filt_scale_lin by exact L.
  set (fx := fst (filt (odd_extension e x) _)). set (fy := fst (filt (odd_extension e y) _)).
  assert (L2 : length fx = length fy) by (unfold fx, fy; rewrite !filt_length_out; exact L).
  rewrite <- lincomb_rev by exact L2.
  assert (L3 : length (rev fx) = length (rev fy)) by (rewrite !rev_length; exact L2).
  rewrite lincomb_nth by exact L3. rewrite filt_scale_lin by exact L3.
  set (gx := fst (filt (rev fx) _)). set (gy := fst (filt (rev fy) _)).
  assert (L4 : length gx = length gy) by (unfold gx, gy; rewrite !filt_length_out; exact L3).
  rewrite lincomb_length, <- H by exact H. rewrite lincomb_rev, lincomb_firstn, lincomb_skipn by
    (rewrite ?firstn_length, ?skipn_length; congruence). reflexivity.
Qed.
