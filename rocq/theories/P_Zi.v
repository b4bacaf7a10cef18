(** lfilter_zi_dyn and sosfilt_zi_dyn give the steady state of the step response. *)
From Coq Require Import List Arith Bool Lia Reals Lra.
From Verif Require Import Base Num M_Linalg M_Stats M_Filter S_Stats S_Filter ListUtil P_Linalg P_Stats RSum P_Sosfilt.
Import ListNotations.
Local Open Scope R_scope.

Lemma Reqb_true a b : Reqb a b = true <-> a = b.
Proof. unfold Reqb. destruct (Req_EM_T a b); split; congruence. Qed.
Lemma Reqb_false a b : Reqb a b = false <-> a <> b.
Proof. unfold Reqb. destruct (Req_EM_T a b); split; congruence. Qed.

Lemma zip_map {A B C D} (f : A -> C) (g : B -> D) l m :
  zip (map f l) (map g m) = map (fun p => (f (fst p), g (snd p))) (zip l m).
Proof. revert m. induction l as [|a l IH]; intros [|b m]; cbn; auto. f_equal. apply IH. Qed.

Lemma zip_nth_map {C} (h : R -> R -> C) l m : length l = length m ->
  map (fun p : R * R => h (fst p) (snd p)) (zip l m) =
  map (fun j => h (nth j l 0) (nth j m 0)) (seq 0 (length l)).
Proof.
  revert m. induction l as [|a l IH]; intros m Hm; [reflexivity|].
  destruct m as [|b m]; [discriminate|]. cbn [zip map length seq fst snd nth]. f_equal.
  rewrite <- seq_shift, map_map. apply IH. injection Hm. auto.
Qed.

Lemma set_unchecked_app {A} (l r : list A) x v : set_unchecked (l ++ x :: r) (length l) v = Ok (l ++ v :: r).
Proof.
  unfold set_unchecked. rewrite app_length. cbn [length].
  destruct (Nat.ltb_spec (length l) (length l + S (length r))); [|lia].
  rewrite firstn_app, firstn_all, Nat.sub_diag. cbn [firstn]. rewrite app_nil_r.
  rewrite skipn_app, skipn_all2 by lia. replace (S (length l) - length l)%nat with 1%nat by lia. reflexivity.
Qed.

Section Zi.
Variables (B A : list R) (m : nat) (z0 B0 : R).
Hypothesis LB : length B = m.
Hypothesis LA : length A = m.
Definition As (k : nat) : R := 1 + rsum k (fun j => nth (S j) A 0).
Definition Cs (k : nat) : R := rsum k (fun j => nth (S j) B 0 - nth (S j) A 0 * B0).
Definition zk (k : nat) : R := As k * z0 - Cs k.

Lemma zi_loop : forall n s, (1 <= s)%nat -> (s + n = m - 1)%nat ->
  rfold (fun (st : R * R * list R) k =>
        let '(asum, csum, zi) := st in
        let! ak := get_unchecked A k in
        let asum := nadd asum ak in
        let! bk := get_unchecked B k in
        let csum := nadd csum (nsub bk (nmul ak B0)) in
        let! zi := set_unchecked zi k (nsub (nmul asum z0) csum) in
        Ok (asum, csum, zi))
      (seq s n) (As (s - 1), Cs (s - 1), map zk (seq 0 s) ++ repeat 0 n) =
  Ok (As (s + n - 1), Cs (s + n - 1), map zk (seq 0 (s + n))).
Proof.
  induction n as [|n IH]; intros s Hs Hm.
  - cbn [seq rfold repeat]. rewrite app_nil_r, Nat.add_0_r. reflexivity.
  - cbn [seq rfold]. unfold get_unchecked at 1 2.
    destruct (nth_error A s) as [ak|] eqn:Ea; [|apply nth_error_None in Ea; lia]. cbn [bind].
    destruct (nth_error B s) as [bk|] eqn:Eb; [|apply nth_error_None in Eb; lia]. cbn [bind].
    assert (EA : nadd (As (s - 1)) ak = As s).
    { unfold As. replace s with (S (s - 1)) at 2 by lia. cbn [rsum nadd RNum].
      replace (S (s - 1)) with s by lia. rewrite (nth_error_nth A s 0 Ea). ring. }
    assert (EC : nadd (Cs (s - 1)) (nsub bk (nmul ak B0)) = Cs s).
    { unfold Cs. replace s with (S (s - 1)) at 2 by lia. cbn [rsum nadd nsub nmul RNum].
      replace (S (s - 1)) with s by lia.
      rewrite (nth_error_nth A s 0 Ea), (nth_error_nth B s 0 Eb). ring. }
    rewrite EA, EC. change (nsub (nmul (As s) z0) (Cs s)) with (zk s). cbn [repeat].
    assert (Ls : length (map zk (seq 0 s)) = s) by (rewrite map_length, seq_length; reflexivity).
    pose proof (set_unchecked_app (map zk (seq 0 s)) (repeat 0 n) 0 (zk s)) as SU. rewrite Ls in SU.
    rewrite SU. cbn [bind].
    specialize (IH (S s) ltac:(lia) ltac:(lia)).
    replace (map zk (seq 0 (S s)) ++ repeat 0 n) with (map zk (seq 0 s) ++ zk s :: repeat 0 n) in IH.
    2:{ rewrite seq_S, map_app, <- app_assoc. reflexivity. }
    replace (S s - 1)%nat with s in IH by lia. replace (S s + n)%nat with (s + S n)%nat in IH by lia.
    exact IH.
Qed.
End Zi.

Definition norm (a0 : R) (l : list R) : list R := map (fun x => x / a0) l.

Lemma norm_nth a0 l i : nth i (norm a0 l) 0 = nth i l 0 / a0.
Proof.
  unfold norm. destruct (Nat.lt_ge_cases i (length l)).
  - rewrite (nth_indep _ 0 (0 / a0)) by (rewrite map_length; lia). rewrite (map_nth (fun x => x / a0)). reflexivity.
  - rewrite !nth_overflow by (rewrite ?map_length; lia). unfold Rdiv. ring.
Qed.

Lemma norm_norm1 (A0 : R) (l : list R) : A0 = 1 -> norm A0 l = l.
Proof. intros ->. unfold norm. rewrite <- (map_id l) at 2. apply map_ext. intros; field. Qed.

(** The value of lfilter_zi_dyn. *)
Lemma lfilter_zi_value (b a : list R) m : length b = m -> length a = m -> (2 <= m)%nat ->
  nth 0 a 0 <> 0 -> rsum m (fun i => nth i a 0) <> 0 ->
  let A0 := nth 0 a 0 in
  let B := norm A0 b in let A := norm A0 a in
  let z0 := Cs B A (nth 0 B 0) (m - 1) / As A (m - 1) in
  lfilter_zi_dyn b a = Ok (map (zk B A z0 (nth 0 B 0)) (seq 0 (m - 1))).
Proof.
  intros Lb La Hm Ha0 Hs A0 B A z0. unfold lfilter_zi_dyn.
  rewrite Lb, La, Nat.eqb_refl. cbn [rassert bind].
  destruct a as [|a0' a']; [cbn in La; lia|]. cbn in A0, Ha0. subst A0.
  cbn [position neqb RNum]. change (@nzero R RNum) with 0.
  rewrite (proj2 (Reqb_false a0' 0) Ha0). cbn [negb unwrap bind].
  change (skipn 0 (a0' :: a')) with (a0' :: a').
  unfold index at 1. cbn [nth_error unwrap bind].
  assert (N : (if negb (Reqb a0' (@none R RNum))
               then (map (fun xi => ndiv xi a0') (a0' :: a'), map (fun xi => ndiv xi a0') b)
               else (a0' :: a', b)) = (A, B)).
  { change (@none R RNum) with 1. destruct (Reqb a0' 1) eqn:E; cbn [negb].
    - apply Reqb_true in E. unfold A, B. rewrite !norm_norm1 by exact E. reflexivity.
    - reflexivity. }
  rewrite N. clear N.
  assert (LA : length A = m) by (unfold A, norm; rewrite map_length; exact La).
  assert (LB : length B = m) by (unfold B, norm; rewrite map_length; exact Lb).
  rewrite LA, Nat.sub_diag. cbn [repeat]. rewrite app_nil_r.
  assert (HA : A = 1 :: norm a0' a').
  { unfold A, norm. cbn [map]. f_equal. field. exact Ha0. }
  destruct (companion_ok 1 (norm a0' a') m Hm ltac:(rewrite HA in LA; cbn in LA; lia)) as (M & EM & Nr & Nc & R0 & _).
  rewrite HA at 1. rewrite EM. cbn [bind].
  unfold usub. destruct (Nat.ltb_spec m 1); [lia|]. cbn [bind].
  unfold msub. cbn [nrows ncols mdiag mtranspose]. rewrite Nr, Nc, !Nat.eqb_refl. cbn [andb bind].
  assert (EB0 : index B 0 = Ok (nth 0 B 0)).
  { unfold index. destruct B as [|x B']; [cbn in LB; lia|]. reflexivity. }
  rewrite EB0. cbn [bind].
  unfold mcol_sum. cbn [ncols nrows ent mdiag mtranspose].
  destruct (Nat.ltb_spec 0 (m - 1)); [|lia]. cbn [bind].
  assert (CS : fold_left nadd (map (fun i => nsub (if (i =? 0)%nat then 1 else 0) (ent M 0 i)) (seq 0 (m - 1))) 0 = As A (m - 1)).
  { change (@nadd R RNum) with Rplus. rewrite fold_left_Rplus, Rplus_0_l, Rsum_seq. cbn [Nat.add nsub RNum].
    rewrite (rsum_ext _ _ (fun i => (if (i =? 0)%nat then 1 else 0) + nth (S i) A 0)).
    - rewrite rsum_plus. unfold As. f_equal. rewrite (rsum_single _ 0); [reflexivity|lia|].
      intros i _ Hi. destruct (Nat.eqb_spec i 0); [contradiction|reflexivity].
    - intros i Hi. rewrite R0 by exact Hi. rewrite HA. cbn [nth].
      destruct (nth_error (norm a0' a') i) as [x|] eqn:E.
      + rewrite (nth_error_nth _ i 0 E). cbn. field.
      + apply nth_error_None in E. rewrite HA in LA. cbn in LA. lia. }
  cbn [nzero none RNum] in *. rewrite CS.
  assert (BS : nsum (map (fun p : R * R => nsub (fst p) (nmul (snd p) (nth 0 B 0))) (zip (skipn 1 B) (skipn 1 A)))
               = Cs B A (nth 0 B 0) (m - 1)).
  { rewrite nsum_Rsum. rewrite (zip_nth_map (fun x y => x - y * nth 0 B 0)) by (rewrite !skipn_length; lia).
    rewrite Rsum_seq, skipn_length, LB. apply rsum_ext. intros i _. cbn [Nat.add].
    rewrite !nth_skipn. reflexivity. }
  cbn [nsub nmul RNum] in BS. cbn [nsub nmul RNum]. rewrite BS.
  change (ndiv (Cs B A (nth 0 B 0) (m - 1)) (As A (m - 1))) with z0.
  assert (S0 : set_index (repeat 0 (m - 1)) 0 z0 = Ok (map (zk B A z0 (nth 0 B 0)) (seq 0 1) ++ repeat 0 (m - 1 - 1))).
  { destruct (m - 1)%nat as [|n] eqn:En; [lia|]. cbn. rewrite Nat.sub_0_r. unfold zk, As, Cs. cbn.
    f_equal. f_equal. ring. }
  rewrite S0. cbn [bind].
  pose proof (zi_loop B A m z0 (nth 0 B 0) LB LA (m - 1 - 1) 1 ltac:(lia) ltac:(lia)) as L.
  replace (1 - 1)%nat with 0%nat in L by lia. unfold As at 1 in L. unfold Cs at 1 in L. cbn [rsum] in L.
  rewrite Rplus_0_r in L. replace (1 + (m - 1 - 1))%nat with (m - 1)%nat in L by lia.
  cbn [nadd nsub nmul RNum] in L |- *. rewrite L. cbn [bind]. reflexivity.
Qed.

Lemma lfilter_zi_steady (b a : list R) m : length b = m -> length a = m -> (2 <= m)%nat ->
  nth 0 a 0 <> 0 -> rsum m (fun i => nth i a 0) <> 0 ->
  exists zi, lfilter_zi_dyn b a = Ok zi /\ length zi = (m - 1)%nat /\
    df2t_out b a zi 1 = rsum m (fun i => nth i b 0) / rsum m (fun i => nth i a 0) /\
    df2t_next b a zi 1 = zi.
Proof.
  intros Lb La Hm Ha0 Hs. pose proof (lfilter_zi_value b a m Lb La Hm Ha0 Hs) as V. cbn zeta in V.
  set (A0 := nth 0 a 0) in *. set (B := norm A0 b) in *. set (A := norm A0 a) in *.
  set (z0 := Cs B A (nth 0 B 0) (m - 1) / As A (m - 1)) in *.
  eexists. split; [exact V|]. split; [rewrite map_length, seq_length; reflexivity|].
  assert (SA : As A (m - 1) = rsum m (fun i => nth i a 0) / A0).
  { unfold As. replace m with (S (m - 1)) at 2 by lia. rewrite rsum_first. unfold A.
    rewrite (rsum_ext _ _ (fun j => nth (S j) a 0 * / A0)) by (intros; rewrite norm_nth; reflexivity).
    rewrite rsum_scale_r. fold A0. field. exact Ha0. }
  assert (SB : Cs B A (nth 0 B 0) (m - 1) =
               rsum m (fun i => nth i b 0) / A0 - nth 0 b 0 / A0 * (rsum m (fun i => nth i a 0) / A0)).
  { unfold Cs. rewrite rsum_minus, rsum_scale_r. unfold A, B.
    rewrite (rsum_ext (m - 1) (fun i => nth (S i) (norm A0 b) 0) (fun j => nth (S j) b 0 * / A0))
      by (intros; rewrite norm_nth; reflexivity).
    rewrite (rsum_ext (m - 1) (fun i => nth (S i) (norm A0 a) 0) (fun j => nth (S j) a 0 * / A0))
      by (intros; rewrite norm_nth; reflexivity).
    rewrite !rsum_scale_r, norm_nth. replace m with (S (m - 1)) at 3 4 by lia. rewrite !rsum_first. fold A0.
    field. exact Ha0. }
  assert (Z0 : nth 0 (map (zk B A z0 (nth 0 B 0)) (seq 0 (m - 1))) 0 = z0).
  { destruct (m - 1)%nat eqn:E; [lia|]. cbn. unfold zk, As, Cs. cbn. ring. }
  assert (Out : df2t_out b a (map (zk B A z0 (nth 0 B 0)) (seq 0 (m - 1))) 1 =
                rsum m (fun i => nth i b 0) / rsum m (fun i => nth i a 0)).
  { unfold df2t_out. rewrite Z0. unfold z0. rewrite SA, SB. fold A0. field. split; assumption. }
  split; [exact Out|].
  unfold df2t_next. rewrite Out, Lb. apply map_ext_in. intros k Hk. apply in_seq in Hk.
  assert (ZS : nth (S k) (map (zk B A z0 (nth 0 B 0)) (seq 0 (m - 1))) 0 = zk B A z0 (nth 0 B 0) (S k)).
  { destruct (Nat.eq_dec (S k) (m - 1)) as [E|E].
    - rewrite nth_overflow by (rewrite map_length, seq_length; lia). unfold zk. rewrite E.
      unfold z0. field. rewrite SA. unfold Rdiv. apply Rmult_integral_contrapositive_currified; [exact Hs|].
      apply Rinv_neq_0_compat. exact Ha0.
    - rewrite (nth_indep _ 0 (zk B A z0 (nth 0 B 0) 0)) by (rewrite map_length, seq_length; lia).
      rewrite map_nth, seq_nth by lia. reflexivity. }
  rewrite ZS. unfold zk at 1. unfold As at 1. unfold Cs at 1. cbn [rsum]. 
  fold (As A k). fold (Cs B A (nth 0 B 0) k). unfold zk.
  change (nth (S k) B 0) with (nth (S k) (norm A0 b) 0). change (nth (S k) A 0) with (nth (S k) (norm A0 a) 0).
  rewrite !norm_nth. fold A0.
  replace (rsum m (fun i => nth i b 0) / rsum m (fun i => nth i a 0)) with (nth 0 B 0 + z0).
  2:{ rewrite <- Out. unfold df2t_out. rewrite Z0. unfold B. rewrite norm_nth. fold A0. ring. }
  unfold As. ring.
Qed.

Lemma lfilter_zi_run (b a : list R) m : length b = m -> length a = m -> (2 <= m)%nat ->
  nth 0 a 0 <> 0 -> Rsum a <> 0 ->
  exists zi, lfilter_zi_dyn b a = Ok zi /\ length zi = (m - 1)%nat /\
    forall n, df2t_run b a zi (repeat 1 n) = (repeat (Rsum b / Rsum a) n, zi).
Proof.
  intros Lb La Hm Ha0 Hs. rewrite Rsum_nth, La in Hs.
  destruct (lfilter_zi_steady b a m Lb La Hm Ha0 Hs) as (zi & E & L & O & N).
  exists zi. split; [exact E|]. split; [exact L|]. rewrite !Rsum_nth, Lb, La.
  induction n as [|n IH]; [reflexivity|]. cbn [repeat df2t_run]. rewrite N, IH, O. reflexivity.
Qed.

(** One section *)
Lemma section_zi (s : Sos R) : a0 s = 1 -> a0 s + a1 s + a2 s <> 0 ->
  exists z0 z1, lfilter_zi_dyn [b0 s; b1 s; b2 s] [a0 s; a1 s; a2 s] = Ok [z0; z1] /\
    b0 s + z0 = dc_gain s /\ b1 s - a1 s * dc_gain s + z1 = z0 /\ b2 s - a2 s * dc_gain s = z1.
Proof.
  intros A0 S0.
  destruct (lfilter_zi_steady [b0 s; b1 s; b2 s] [a0 s; a1 s; a2 s] 3 eq_refl eq_refl ltac:(lia)) as (zi & E & L & O & N).
  - cbn. lra.
  - cbn. lra.
  - destruct zi as [|z0 [|z1 [|]]]; try discriminate L. exists z0, z1. split; [exact E|].
    assert (G : rsum 3 (fun i => nth i [b0 s; b1 s; b2 s] 0) / rsum 3 (fun i => nth i [a0 s; a1 s; a2 s] 0) = dc_gain s).
    { unfold dc_gain. cbn. rewrite !Rplus_0_l. reflexivity. }
    rewrite G in O. unfold df2t_next in N. rewrite O in N. unfold df2t_out in O. cbn in O, N.
    rewrite A0 in O, N. injection N as N0 N1. repeat split; lra.
Qed.

Definition stable_section (s : Sos R) : Prop := a0 s = 1 /\ a0 s + a1 s + a2 s <> 0.

Lemma sosfilt_zi_loop_ok (l : list (Sos R)) : forall sc, Forall stable_section l ->
  exists l', sosfilt_zi_loop sc l = Ok l' /\ same_coefs l' l /\
    forall c, sosfilt_item (c * sc) (scale_state c l') = (c * sc * dc_gains l, scale_state c l').
Proof.
  induction l as [|s l IH]; intros sc H.
  - exists []. split; [reflexivity|]. split; [reflexivity|]. intros c. cbn. f_equal. unfold dc_gains. cbn. ring.
  - inversion H as [|? ? [A0 S0] Hl]; subst.
    destruct (section_zi s A0 S0) as (z0 & z1 & E & G0 & G1 & G2).
    cbn [sosfilt_zi_loop]. rewrite E. unfold index. cbn [nth_error unwrap bind].
    assert (DG : nmul sc (ndiv (nsum [b0 s; b1 s; b2 s]) (nsum [a0 s; a1 s; a2 s])) = sc * dc_gain s).
    { rewrite !nsum_Rsum. unfold dc_gain. cbn.
      replace (b0 s + (b1 s + (b2 s + 0))) with (b0 s + b1 s + b2 s) by ring.
      replace (a0 s + (a1 s + (a2 s + 0))) with (a0 s + a1 s + a2 s) by ring. reflexivity. }
    rewrite DG. destruct (IH (sc * dc_gain s) Hl) as (l' & El & Cl & Il). rewrite El. cbn [bind].
    eexists. split; [reflexivity|]. split.
    + unfold same_coefs in *. cbn [map]. rewrite Cl. reflexivity.
    + intros c. cbn [scale_state map sosfilt_item]. 
      match goal with |- context [biquad_fold _ ?s1] => assert (BF : biquad_fold (c * sc) s1 = (c * (sc * dc_gain s), s1)) end.
      { unfold biquad_fold, set_state. cbn. 
        replace (b0 s * (c * sc) + sc * z0 * c) with (c * (sc * dc_gain s)) by (rewrite <- G0; ring).
        f_equal. f_equal; [rewrite <- G1; ring|rewrite <- G2; ring]. }
      rewrite BF. fold (scale_state c l'). rewrite Il. f_equal.
      unfold dc_gains. cbn [map fold_right]. ring.
Qed.

Lemma filt_const (s : list (Sos R)) c g : sosfilt_item c s = (g, s) ->
  forall n, filt (repeat c n) s = (repeat g n, s).
Proof. intros E n. induction n as [|n IH]; [reflexivity|]. cbn [repeat filt]. rewrite E, IH. reflexivity. Qed.

Lemma sosfilt_zi_steady (l : list (Sos R)) : Forall stable_section l ->
  exists l', sosfilt_zi_dyn l = Ok l' /\ same_coefs l' l /\
    forall c n, sosfilt_dyn (repeat c n) (with_delays_times c l') =
                Ok (repeat (c * dc_gains l) n, with_delays_times c l').
Proof.
  intros H. destruct (sosfilt_zi_loop_ok l 1 H) as (l' & E & C & I).
  exists l'. split; [exact E|]. split; [exact C|]. intros c n. rewrite sosfilt_dyn_pure. f_equal.
  apply filt_const. specialize (I c). rewrite Rmult_1_r in I. exact I.
Qed.
