(** C100: splitting a list of roots into conjugate pairs and reals ([cplxreal_dyn]).
    C101: sorting of roots, and exactly real coefficients at every float format. *)
From Coq Require Import List Arith ZArith Reals SpecFloat Permutation Sorted Lra Lia Bool.
From Verif Require Import Base Num Trans M_Complex M_Fourier M_Filter M_Design Cx S_Design S_Float S_FloatFft S_CplxReal
  P_Bessel P_Zi P_Poly P_Lp P_Proto P_Iir P_Sos P_Sort P_Float P_FloatMed P_FloatI0 P_FloatZi P_FloatPoly T_FloatPoly.
Import ListNotations.
Local Open Scope R_scope.

(** ** Runs of equal real parts *)
Definition in_run (off : nat) (l : list bool) (s e : nat) : Prop :=
  (off <= s <= e)%nat /\ forall k, (s <= k < e)%nat -> nth (k - off) l false = true.
Lemma in_run_S off b l s e : in_run (S off) l s e -> in_run off (b :: l) s e.
Proof.
  intros [H1 H2]. split; [lia|]. intros k Hk. specialize (H2 k Hk). replace (k - off)%nat with (S (k - S off)) by lia. exact H2.
Qed.
Lemma runs_flags l : forall off prev, last (prev :: l) false = false ->
  let st := same_real_steps (prev :: l) in
  let starts := pos_from off (fun s => Z.ltb 0 s) st in
  let stops := pos_from off (fun s => Z.ltb s 0) st in
  if prev then exists e stops', stops = e :: stops' /\ in_run off l off e /\ Forall2 (in_run off l) starts stops'
  else Forall2 (in_run off l) starts stops.
Proof.
  induction l as [|b l IH]; intros off prev Hl; cbv zeta.
  - cbn in Hl. subst prev. constructor.
  - rewrite steps_cons. rewrite !pos_from_cons.
    assert (Hl' : last (b :: l) false = false) by (cbn [last] in Hl; destruct l; exact Hl).
    specialize (IH (S off) b Hl'). cbv zeta in IH.
    set (st := same_real_steps (b :: l)) in *.
    set (sa := pos_from (S off) (fun s => Z.ltb 0 s) st) in *. set (so := pos_from (S off) (fun s => Z.ltb s 0) st) in *.
    assert (FM : forall x y, Forall2 (in_run (S off) l) x y -> Forall2 (in_run off (b :: l)) x y).
    { intros x y. induction 1; constructor; [apply in_run_S|]; assumption. }
    assert (RX : forall e, in_run (S off) l (S off) e -> b = true -> in_run off (b :: l) off e).
    { intros e [H1 H2] ->. split; [lia|]. intros k Hk. destruct (Nat.eq_dec k off) as [->|N]; [rewrite Nat.sub_diag; reflexivity|].
      replace (k - off)%nat with (S (k - S off)) by lia. apply H2. lia. }
    destruct prev, b; cbn [stepz Z.ltb Z.compare app].
    + destruct IH as [e [so' [-> [He H2]]]]. exists e, so'. split; [reflexivity|]. split; [apply RX; [exact He|reflexivity]|apply FM; exact H2].
    + exists off, so. split; [reflexivity|]. split; [split; [lia|intros; lia]|apply FM; exact IH].
    + destruct IH as [e [so' [-> [He H2]]]]. constructor; [apply RX; [exact He|reflexivity]|apply FM; exact H2].
    + apply FM; exact IH.
Qed.

Lemma near_real_spec tol (r : C) : near_real tol r = true <-> nearly_real tol r.
Proof.
  unfold near_real, nearly_real. rewrite csqrt_square_re. cbn [nabs nleb nmul RNum]. destruct (Rleb_spec (Rabs (cim r)) (tol * Rabs (cre r))); split; intros; try assumption; try reflexivity; [discriminate|contradiction].
Qed.
Lemma le_pair_iff (a b : C * C) : le_pair a b = true <->
  Rabs (cim (snd a)) < Rabs (cim (snd b)) \/ (Rabs (cim (snd a)) = Rabs (cim (snd b)) /\ cim (fst a) <= cim (fst b)).
Proof.
  unfold le_pair. cbn [nltb nleb nabs RNum]. destruct (Rltb_spec (Rabs (cim (snd a))) (Rabs (cim (snd b)))) as [L|L]; [split; [left; exact L|reflexivity]|].
  destruct (Rltb_spec (Rabs (cim (snd b))) (Rabs (cim (snd a)))) as [L'|L']; [split; [discriminate|intros [Q|[Q _]]; lra]|].
  destruct (Rleb_spec (cim (fst a)) (cim (fst b))) as [Q|Q]; split; intros H; try discriminate; try reflexivity.
  - right. split; [lra|exact Q].
  - exfalso. destruct H as [H|[_ H]]; lra.
Qed.
Lemma le_pair_total (a b : C * C) : le_pair a b = true \/ le_pair b a = true.
Proof.
  rewrite !le_pair_iff. destruct (Rtotal_order (Rabs (cim (snd a))) (Rabs (cim (snd b)))) as [L|[L|L]]; [left; left; exact L| |right; left; exact L].
  destruct (Rle_dec (cim (fst a)) (cim (fst b))); [left|right]; right; lra.
Qed.
Lemma le_pair_trans (a b c : C * C) : le_pair a b = true -> le_pair b c = true -> le_pair a c = true.
Proof. rewrite !le_pair_iff. intros [Q|[Q Q']] [W|[W W']]; try (left; lra). right. lra. Qed.
Lemma leA_lex a b : le_cplx_abs a b = true <-> lex_abs_le a b.
Proof. apply leA_iff. Qed.

Lemma sorted_app_mid {A} (R : A -> A -> Prop) l m : StronglySorted R (l ++ m) -> StronglySorted R l /\ StronglySorted R m.
Proof.
  induction l as [|x l IH]; intros H; [split; [constructor|exact H]|]. cbn in H. inversion H as [|? ? S' F']; subst. destruct (IH S') as [I1 I2].
  split; [|exact I2]. constructor; [exact I1|]. apply Forall_app in F'. tauto.
Qed.
Lemma sorted_nth {A} (R : A -> A -> Prop) d l : StronglySorted R l -> forall i j, (i < j < length l)%nat -> R (nth i l d) (nth j l d).
Proof.
  induction 1 as [|x l S' IH F']; intros i j Hij; [cbn in Hij; lia|]. destruct j as [|j]; [lia|]. cbn [length] in Hij. destruct i as [|i]; cbn [nth].
  - rewrite Forall_forall in F'. apply F', nth_In. lia.
  - apply IH. lia.
Qed.

Section Split.
Variable sort : forall A : Type, (A -> A -> bool) -> list A -> list A.
Hypothesis Hsort : is_sort sort.

(** Sorting a run of equal real parts of an already sorted list changes nothing. *)
Lemma sort_run_id zp s e : (s <= e)%nat -> (e < length zp)%nat ->
  StronglySorted leA zp -> Forall (fun r => 0 < cim r) zp ->
  (forall k, (s <= k <= e)%nat -> cre (nth k zp C0) = cre (nth s zp C0)) ->
  sort_run sort (zp, map cconj zp) (s, e) = Ok (zp, map cconj zp).
Proof.
  intros Hse Hel HS Hpos HR. unfold sort_run. cbn [fst snd]. unfold slice. rewrite map_length.
  destruct (Nat.leb_spec s (e + 1)); [|lia]. destruct (Nat.leb_spec (e + 1) (length zp)); [|lia]. cbn [andb bind].
  rewrite skipn_map, firstn_map, zip_pairc. set (ch := firstn (e + 1 - s) (skipn s zp)).
  assert (D : zp = firstn s zp ++ ch ++ skipn (e + 1) zp).
  { rewrite <- (firstn_skipn s zp) at 1. f_equal. rewrite <- (firstn_skipn (e + 1 - s) (skipn s zp)) at 1. fold ch. f_equal.
    rewrite skipn_skipn'. f_equal. lia. }
  assert (Lch : length ch = (e + 1 - s)%nat) by (unfold ch; rewrite firstn_length, skipn_length; lia).
  assert (Rch : forall r, In r ch -> cre r = cre (nth s zp C0) /\ 0 < cim r).
  { intros r Hr. split.
    - destruct (In_nth ch r C0 Hr) as [i [Hi <-]]. rewrite <- (HR (s + i)%nat) by lia. f_equal. rewrite D at 1.
      assert (Lf : length (firstn s zp) = s) by (rewrite firstn_length; lia).
      rewrite app_nth2 by lia. rewrite app_nth1 by lia. f_equal. lia.
    - rewrite Forall_forall in Hpos. apply Hpos. rewrite D. apply in_or_app. right. apply in_or_app. left. exact Hr. }
  assert (Sch : StronglySorted leA ch). { rewrite D in HS. apply sorted_app_mid in HS. destruct HS as [_ HS]. apply sorted_app_mid in HS. tauto. }
  destruct (Hsort _ le_pair (map pairc ch)) as [HP HQ]. specialize (HQ le_pair_total le_pair_trans).
  destruct (Permutation_map_inv pairc _ (Permutation_sym HP)) as [ch' [E' HP']]. rewrite E' in *. rewrite !map_map. unfold pairc at 1 2. cbn [fst snd]. rewrite map_id.
  assert (Ec : ch = ch').
  { apply (sorted_perm_eq leA); [exact Sch| |exact HP'| |].
    - assert (I' : forall r, In r ch' -> In r ch) by (intros r; apply Permutation_in, Permutation_sym, HP').
      clear - HQ I' Rch. induction ch' as [|a l IH]; [constructor|]. cbn [map] in HQ. inversion HQ as [|? ? S' F']; subst.
      constructor; [apply IH; [exact S'|intros r Hr; apply I'; right; exact Hr]|]. rewrite Forall_forall in *. intros b Hb.
      specialize (F' (pairc b) (in_map _ _ _ Hb)). apply le_pair_iff in F'. cbn [pairc fst snd] in F'.
      change (cim (cconj a)) with (- cim a) in F'. change (cim (cconj b)) with (- cim b) in F'. rewrite !Rabs_Ropp in F'.
      destruct (Rch a (I' a (or_introl eq_refl))) as [Ra Pa]. destruct (Rch b (I' b (or_intror Hb))) as [Rb Pb].
      apply leA_iff. right. split; [rewrite Ra, Rb; reflexivity|]. destruct F' as [F'|[F' _]]; lra.
    - intros a. destruct (leA_total a a); assumption.
    - intros a b Ia Ib. destruct (Rch a Ia) as [Ra Pa]. destruct (Rch b Ib) as [Rb Pb]. rewrite !leA_iff, !(Rabs_right _) by lra.
      intros [Q|[Q Q']] [W|[W W']]; try lra. destruct a as [a1 a2], b as [b1 b2]. cbn in *. apply C_ext; cbn; lra. }
  rewrite <- Ec. f_equal. rewrite firstn_map, skipn_map, <- !map_app, <- D. reflexivity.
Qed.

Lemma flags_nth (f : C * C -> bool) zp : forall k, nth k (map f (zip zp (tl zp)) ++ [false]) false = true ->
  (S k < length zp)%nat /\ f (nth k zp C0, nth (S k) zp C0) = true.
Proof.
  induction zp as [|x zp IH]; intros k; cbn [tl zip map app].
  - destruct k as [|[|k]]; discriminate.
  - destruct zp as [|y zp].
    + cbn. destruct k as [|[|k]]; discriminate.
    + cbn [zip map app]. destruct k as [|k].
      * cbn [nth length]. intros E. split; [lia|exact E].
      * intros E. destruct (IH k E) as [I1 I2]. cbn [length] in *. split; [lia|exact I2].
Qed.
Lemma sort_runs_id zp starts stops (l : list bool) :
  StronglySorted leA zp -> Forall (fun r => 0 < cim r) zp ->
  (forall k, nth k l false = true -> (S k < length zp)%nat /\ cre (nth (S k) zp C0) = cre (nth k zp C0)) ->
  Forall2 (in_run 0 l) starts stops -> Forall (fun e => (e < length zp)%nat) stops ->
  rfold (sort_run sort) (zip starts stops) (zp, map cconj zp) = Ok (zp, map cconj zp).
Proof.
  intros HS Hpos Hfl. induction 1 as [|s e starts stops [H1 H2] HF IH]; intros HB; [reflexivity|].
  inversion HB as [|? ? HB1 HB2]; subst. cbn [zip rfold]. rewrite sort_run_id; [cbn [bind]; apply IH; exact HB2|lia|exact HB1|exact HS|exact Hpos|].
  intros k Hk. replace k with (s + (k - s))%nat by lia. assert (Hj : (k - s <= e - s)%nat) by lia. revert Hj. generalize (k - s)%nat. clear k Hk. intros j.
  induction j as [|j IHj]; intros Hj; [rewrite Nat.add_0_r; reflexivity|]. rewrite Nat.add_succ_r. specialize (H2 (s + j)%nat ltac:(lia)). rewrite Nat.sub_0_r in H2.
  destruct (Hfl _ H2) as [_ ->]. apply IHj. lia.
Qed.
Lemma existsb_pairc_tol tol (l : list C) : 0 <= tol ->
  existsb (fun pn : C * C => nltb (nmul tol (cnorm (snd pn))) (cnorm (csub (fst pn) (cconj (snd pn))))) (map pairc l) = false.
Proof.
  intros Ht. induction l as [|x l IH]; [reflexivity|]. cbn [map existsb]. rewrite IH, orb_false_r. cbn [pairc fst snd].
  rewrite cconj_conj. replace (cnorm (csub x x)) with 0.
  2:{ destruct x as [a b]. rewrite ?cnorm_def; unfold cnorm_sqr. cbn. replace ((a - a) * (a - a) + (b - b) * (b - b)) with 0 by ring. symmetry. apply sqrt_0. }
  cbn [nltb nmul RNum]. destruct (Rltb_spec (tol * cnorm (cconj x)) 0) as [Q|Q]; [|reflexivity].
  exfalso. assert (0 <= cnorm (cconj x)) by apply sqrt_pos. nra.
Qed.

Lemma split_core epsilon z tol : conj_closed z -> 0 <= tol ->
  exists zc zr, cplxreal_dyn epsilon sort z (Some tol) = Ok (zc, zr) /\
    Permutation z (zc ++ map cconj zc ++ zr) /\
    Forall (fun r => 0 < cim r /\ ~ nearly_real tol r) zc /\ Forall (nearly_real tol) zr /\
    StronglySorted (fun a b => cre a <= cre b) zr /\
    (real_parts_apart tol z -> StronglySorted lex_abs_le zc).
Proof.
  intros Hc Ht. destruct z as [|z0 z'].
  { exists [], []. split; [reflexivity|]. split; [constructor|]. split; [constructor|]. split; [constructor|]. split; [constructor|]. intros _. constructor. }
  unfold cplxreal_dyn. cbn [unwrap_or]. set (z := z0 :: z') in *. clearbody z. clear z0 z'. cbv zeta.
  destruct (Hsort _ le_cplx_abs z) as [HP HS]. specialize (HS leA_total leA_trans). set (zs := sort _ le_cplx_abs z) in *. clearbody zs.
  assert (Hcs : conj_closed zs) by exact (conj_closed_perm _ _ HP Hc).
  set (nr := near_real tol).
  assert (Hnc : forall r, nr (cconj r) = nr r).
  { intros r. destruct (nr r) eqn:E.
    - apply near_real_spec. apply near_real_spec in E. unfold nearly_real in *. change (cim (cconj r)) with (- cim r). rewrite Rabs_Ropp. exact E.
    - destruct (nr (cconj r)) eqn:E2; [|reflexivity]. apply near_real_spec in E2. rewrite <- E. symmetry. apply near_real_spec.
      unfold nearly_real in *. change (cim (cconj r)) with (- cim r) in E2. rewrite Rabs_Ropp in E2. exact E2. }
  assert (Hn0 : forall r, nr r = false -> cim r <> 0).
  { intros r E E0. assert (nr r = true); [|congruence]. apply near_real_spec. unfold nearly_real. rewrite E0, Rabs_R0. apply Rmult_le_pos; [exact Ht|apply Rabs_pos]. }
  assert (Hzr : Forall (nearly_real tol) (filter nr zs)).
  { apply Forall_forall. intros r Hr. apply filter_In in Hr. apply near_real_spec, Hr. }
  assert (Szr : StronglySorted (fun a b => cre a <= cre b) (filter nr zs)).
  { rewrite <- (map_id (filter nr zs)). apply (map_sorted (fun x => x) leA); [|apply filter_sorted; exact HS].
    intros x y Q. apply leA_iff in Q. destruct Q as [Q|[Q _]]; lra. }
  destruct (Nat.eqb_spec (length (filter nr zs)) (length zs)) as [E'|E'].
  { exists [], (filter nr zs). split; [reflexivity|]. split; [cbn [map app]; rewrite filter_all_length by exact E'; exact HP|]. split; [constructor|]. split; [exact Hzr|]. split; [exact Szr|]. intros _. constructor. }
  clear E'. rewrite !filter_filter'.
  set (zp := filter _ zs). set (zn := filter _ zs). assert (Ep0 := eq_refl zp). unfold zp at 2 in Ep0. assert (En0 := eq_refl zn). unfold zn at 2 in En0.
  cbn [nltb nzero RNum] in Ep0, En0. clearbody zp zn.
  assert (Hperm : Permutation (map cconj zn) zp).
  { rewrite Ep0, En0. eapply Permutation_trans; [|apply (filter_perm _ _ _ Hcs)]. rewrite filter_map_comm.
    rewrite (filter_ext (fun x => Rltb 0 (cim (cconj x)) && negb (nr (cconj x))) (fun zi => Rltb (cim zi) 0 && negb (nr zi))); [apply Permutation_refl|].
    intros r. rewrite Hnc. f_equal. change (cim (cconj r)) with (- cim r). destruct (Rltb_spec 0 (- cim r)), (Rltb_spec (cim r) 0); try reflexivity; lra. }
  assert (Hpos : forall r, In r zp -> 0 < cim r /\ nr r = false).
  { intros r Hr. rewrite Ep0 in Hr. apply filter_In in Hr. destruct Hr as [_ Hr]. apply andb_true_iff in Hr. destruct Hr as [Hr Hr2].
    split; [destruct (Rltb_spec 0 (cim r)); [assumption|discriminate]|apply negb_true_iff; exact Hr2]. }
  assert (Szp : StronglySorted leA zp) by (rewrite Ep0; apply filter_sorted, HS).
  assert (Eq : map cconj zn = zp).
  { apply (sorted_perm_eq leA).
    - apply (map_sorted cconj leA leA); [|rewrite En0; apply filter_sorted, HS]. intros x y. rewrite !leA_iff.
      change (cim (cconj x)) with (- cim x). change (cim (cconj y)) with (- cim y). change (cre (cconj x)) with (cre x). change (cre (cconj y)) with (cre y).
      rewrite !Rabs_Ropp. tauto.
    - exact Szp.
    - exact Hperm.
    - intros a. destruct (leA_total a a); assumption.
    - intros a b Ia Ib. apply (Permutation_in _ Hperm) in Ia, Ib. apply Hpos in Ia, Ib. rewrite !leA_iff, !(Rabs_right _) by lra.
      intros [Q|[Q Q']] [W|[W W']]; try lra. destruct a as [a1 a2], b as [b1 b2]. cbn in *. apply C_ext; cbn; lra. }
  assert (Ezn : zn = map cconj zp).
  { rewrite <- Eq, map_map. rewrite <- (map_id zn) at 1. apply map_ext. intros r. symmetry. apply cconj_conj. }
  clear Hperm Eq. rewrite Ezn. rewrite map_length, Nat.eqb_refl. cbn [negb].
  unfold same_real_flags. cbn [app]. set (ff := fun ab : C * C => nleb (nsub (cre (snd ab)) (cre (fst ab))) (nmul tol (cnorm (fst ab)))).
  set (l := map ff (zip zp (tl zp)) ++ [false]).
  assert (Hlast : last (false :: l) false = false).
  { unfold l. change (false :: ?m ++ [false]) with ((false :: m) ++ [false]). apply last_last. }
  assert (Hlen : zp <> [] -> length l = length zp).
  { intros Hne. unfold l. rewrite app_length, map_length. cbn [length].
    assert (Hz : forall (l : list C), length (zip l (tl l)) = (length l - 1)%nat).
    { intros l'. destruct l' as [|x l']; [reflexivity|]. cbn [tl length]. rewrite Nat.sub_succ, Nat.sub_0_r. revert x. induction l' as [|y l' IH]; intros x; [reflexivity|]. cbn [zip length]. f_equal. apply IH. }
    rewrite Hz. destruct zp; [contradiction|cbn [length]; lia]. }
  pose proof (runs_spec l 0 false Hlast) as RS. cbv zeta in RS. destruct RS as [RB RF].
  pose proof (runs_flags l 0 false Hlast) as RG. cbv zeta iota in RG.
  unfold positions. fold (@pos_from Z 0 (fun s => Z.ltb 0 s) (same_real_steps (false :: l))). fold (@pos_from Z 0 (fun s => Z.ltb s 0) (same_real_steps (false :: l))).
  assert (RB' : Forall (fun e => (e < length zp)%nat) (pos_from 0 (fun s => Z.ltb s 0) (same_real_steps (false :: l)))).
  { destruct zp as [|x zp0] eqn:Ez; [unfold l; cbn; constructor|]. rewrite <- Hlen by discriminate. exact RB. }
  clear RB. set (starts := pos_from 0 _ _) in *. set (stops := pos_from 0 (fun s => Z.ltb s 0) _) in *. clearbody starts stops.
  rewrite (Forall2_len _ _ _ RF), Nat.eqb_refl. cbn [rassert bind].
  destruct (sort_runs_ok sort Hsort starts stops zp RF RB') as [zp' [ER HP']]. rewrite ER. cbn [bind]. rewrite zip_pairc.
  rewrite (existsb_pairc_tol tol zp' Ht). rewrite map_map. cbn [fst snd pairc].
  assert (Hzc : map (fun x : C => cdivr (cadd x (cconj (cconj x))) two) zp' = zp').
  { rewrite <- (map_id zp') at 2. apply map_ext. intros [x y]. apply C_ext; cbn; field. }
  exists zp', (filter nr zs). split; [rewrite Hzc; reflexivity|]. split; [|split; [|split; [exact Hzr|split; [exact Szr|]]]].
  - eapply Permutation_trans; [exact HP|].
    eapply Permutation_trans; [|apply Permutation_app; [exact HP'|apply Permutation_app_tail, Permutation_map, HP']].
    rewrite <- Ezn, Ep0, En0.
    eapply Permutation_trans; [apply (filter_split (fun zi => negb (nr zi)) nr)|]. { intros r _. reflexivity. }
    rewrite app_assoc. apply Permutation_app_tail.
    eapply Permutation_trans; [apply (filter_split (fun zi => Rltb 0 (cim zi)) (fun zi => Rltb (cim zi) 0))|].
    { intros r Hr. apply filter_In in Hr. destruct Hr as [_ Hr]. apply negb_true_iff, Hn0 in Hr.
      destruct (Rltb_spec 0 (cim r)), (Rltb_spec (cim r) 0); try reflexivity; lra. }
    rewrite !filter_filter'. apply Permutation_refl.
  - apply Forall_forall. intros r Hr. apply (Permutation_in _ (Permutation_sym HP')), Hpos in Hr. destruct Hr as [Hr Hr2]. split; [exact Hr|].
    intros Q. apply near_real_spec in Q. unfold nr in Hr2. congruence.
  - intros Hap. assert (EI : rfold (sort_run sort) (zip starts stops) (zp, map cconj zp) = Ok (zp, map cconj zp)).
    { apply (sort_runs_id zp starts stops l); [exact Szp| | |exact RG|exact RB'].
      - apply Forall_forall. intros r Hr. apply (Hpos r Hr).
      - intros k Hk. unfold l in Hk. apply flags_nth in Hk. destruct Hk as [Hk Hf]. split; [exact Hk|]. unfold ff in Hf. cbn [fst snd nleb nsub nmul RNum] in Hf.
        destruct (Rleb_spec (cre (nth (S k) zp C0) - cre (nth k zp C0)) (tol * cnorm (nth k zp C0))) as [Q|Q]; [|discriminate].
        pose proof (sorted_nth leA C0 zp Szp k (S k) ltac:(lia)) as SN. cbv beta in SN. apply leA_iff in SN.
        assert (Iz : forall i, (i < length zp)%nat -> In (nth i zp C0) z).
        { intros i Hi. apply (Permutation_in _ (Permutation_sym HP)). assert (In (nth i zp C0) zp) as I0 by (apply nth_In; exact Hi).
          rewrite Ep0 in I0 at 2. apply filter_In in I0. apply I0. }
        specialize (Hap (nth k zp C0) (nth (S k) zp C0) (Iz k ltac:(lia)) (Iz (S k) Hk)).
        destruct SN as [SN|[SN _]]; [specialize (Hap SN); lra|lra]. }
    rewrite EI in ER. injection ER as Ez _. rewrite <- Ez. rewrite <- (map_id zp). apply (map_sorted (fun x => x) leA); [|exact Szp]. intros x y. apply leA_lex.
Qed.
End Split.

(** * C100 *)
(** For exact conjugate pairs: the elements counted as real in increasing order, and one
    representative, with positive imaginary part, of every other pair; sorted by real part
    and then by imaginary part if different real parts differ by more than the tolerance. *)
Theorem C100_split_partial epsilon sort z (t : option R) :
  let tol := match t with Some v => v | None => epsilon * 100 end in
  is_sort sort -> conj_closed z -> 0 <= tol ->
  exists zc zr, cplxreal_dyn epsilon sort z t = Ok (zc, zr) /\
    Permutation z (zc ++ map cconj zc ++ zr) /\
    Forall (fun r => 0 < cim r /\ ~ nearly_real tol r) zc /\ Forall (nearly_real tol) zr /\
    StronglySorted (fun a b => cre a <= cre b) zr /\
    (real_parts_apart tol z -> StronglySorted lex_abs_le zc).
Proof.
  intros tol Hs Hc Ht. destruct (split_core sort Hs epsilon z tol Hc Ht) as [zc [zr [E Q]]]. exists zc, zr. split; [|exact Q].
  rewrite <- E. destruct t; reflexivity.
Qed.
Print Assumptions C100_split_partial.

(** The documentation also promises to pair elements whose conjugates agree up to the
    tolerance.  The code panics on some lists of that kind, for every tolerance: it sorts the
    positive half together with its tentative partners instead of each half by itself. *)
Theorem C100_tolerance_refuted epsilon sort tol : is_sort sort -> 0 < tol < 1 / 2 ->
  exists z, pairs_within tol z /\ cplxreal_dyn epsilon sort z (Some tol) = Panic.
Proof.
  intros Hs Ht. set (p1 := (1, 2) : C). set (n1 := (1 + tol, -2) : C). set (p2 := (1 + tol, 1) : C). set (n2 := (1, -1) : C).
  exists [p1; p2; n1; n2]. split.
  - assert (Q : forall x y, 1 <= x -> x <= 1 + tol -> 1 <= Rabs y -> ~ nearly_real tol (x, y)).
    { intros x y H1 H2 H3 H. unfold nearly_real in H. cbn in H. rewrite (Rabs_right x) in H by lra. nra. }
    assert (N : forall x y, 1 <= Rabs y -> 1 <= cnorm ((x, y) : C)).
    { intros x y H. rewrite ?cnorm_def; unfold cnorm_sqr. cbn. rewrite <- sqrt_1. apply sqrt_le_1_alt. assert (1 <= y * y); [|nra]. destruct (Rcase_abs y); [rewrite Rabs_left in H by lra|rewrite Rabs_right in H by lra]; nra. }
    assert (D : forall x x' y y', Rabs (x - x') = tol -> y' = - y -> cnorm (csub ((x, y) : C) (cconj ((x', y') : C))) = tol).
    { intros x x' y y' H ->. rewrite ?cnorm_def; unfold cnorm_sqr. cbn. replace ((x - x') * (x - x') + (y - - - y) * (y - - - y)) with (Rsqr (x - x')) by (unfold Rsqr; ring). rewrite sqrt_Rsqr_abs. exact H. }
    exists [p1; p2], [n1; n2], []. split; [apply Permutation_refl|]. split; [constructor|]. unfold p1, p2, n1, n2.
    assert (A2 : Rabs 2 = 2) by (apply Rabs_right; lra). assert (A2' : Rabs (-2) = 2) by (rewrite Rabs_left; lra).
    assert (A1 : Rabs 1 = 1) by (apply Rabs_right; lra). assert (A1' : Rabs (-1) = 1) by (rewrite Rabs_left; lra).
    constructor; [|constructor; [|constructor]].
    + split; [cbn; lra|]. split; [cbn; lra|]. split; [apply Q; lra|]. split; [apply Q; lra|].
      rewrite (D 1 (1 + tol) 2 (-2)); [|rewrite Rabs_left; lra|lra]. assert (1 <= cnorm ((1 + tol, -2) : C)) by (apply N; lra). nra.
    + split; [cbn; lra|]. split; [cbn; lra|]. split; [apply Q; lra|]. split; [apply Q; lra|].
      rewrite (D (1 + tol) 1 1 (-1)); [|rewrite Rabs_right; lra|lra]. assert (1 <= cnorm ((1, -1) : C)) by (apply N; lra). nra.
  - assert (Es : sort _ le_cplx_abs [p1; p2; n1; n2] = [n2; p1; p2; n1]).
    { destruct (Hs _ le_cplx_abs [p1; p2; n1; n2]) as [HP HS]. specialize (HS leA_total leA_trans). symmetry.
      apply (sorted_perm_eq leA).
      - assert (L : forall a b : C, lex_abs_le a b -> le_cplx_abs a b = true) by (intros; apply leA_lex; assumption).
        unfold p1, p2, n1, n2. repeat (constructor; [|repeat (apply Forall_cons; [apply L; unfold lex_abs_le; cbn;
          rewrite ?(Rabs_right 2), ?(Rabs_right 1), ?(Rabs_left (-1)), ?(Rabs_left (-2)) by lra; lra|]); apply Forall_nil]). constructor.
      - exact HS.
      - rewrite <- HP. apply (Permutation_app_comm [n2] [p1; p2; n1]).
      - intros a. destruct (leA_total a a); assumption.
      - assert (Dis : forall a b : C, le_cplx_abs a b = true -> le_cplx_abs b a = true -> cre a = cre b /\ Rabs (cim a) = Rabs (cim b)).
        { intros a b. rewrite !leA_iff. intros [Q|[Q Q']] [W|[W W']]; lra. }
        intros a b Ia Ib Q W. destruct (Dis a b Q W) as [D1 D2]. clear - Ia Ib D1 D2 Ht. unfold p1, p2, n1, n2 in *. cbn in Ia, Ib.
        destruct Ia as [<-|[<-|[<-|[<-|[]]]]], Ib as [<-|[<-|[<-|[<-|[]]]]]; cbn in D1, D2;
        rewrite ?(Rabs_right 2), ?(Rabs_right 1), ?(Rabs_left (-1)), ?(Rabs_left (-2)) in D2 by lra; try reflexivity; exfalso; lra. }
    unfold cplxreal_dyn. cbn [unwrap_or]. rewrite Es.
    assert (NR : forall x y, 1 <= x -> x <= 1 + tol -> 1 <= Rabs y -> near_real tol ((x, y) : C) = false).
    { intros x y H1 H2 H3. destruct (near_real tol _) eqn:E; [|reflexivity]. apply near_real_spec in E. unfold nearly_real in E. cbn in E. rewrite (Rabs_right x) in E by lra. nra. }
    assert (A2 : Rabs 2 = 2) by (apply Rabs_right; lra). assert (A2' : Rabs (-2) = 2) by (rewrite Rabs_left; lra).
    assert (A1 : Rabs 1 = 1) by (apply Rabs_right; lra). assert (A1' : Rabs (-1) = 1) by (rewrite Rabs_left; lra).
    assert (R1 : near_real tol p1 = false) by (apply NR; lra). assert (R2 : near_real tol p2 = false) by (apply NR; lra).
    assert (R3 : near_real tol n1 = false) by (apply NR; lra). assert (R4 : near_real tol n2 = false) by (apply NR; lra).
    cbv zeta. cbn [filter]. rewrite R1, R2, R3, R4. cbn [negb length Nat.eqb filter].
    assert (P1 : nltb nzero (cim p1) = true) by (cbn; destruct (Rltb_spec 0 2); [reflexivity|lra]).
    assert (P2 : nltb nzero (cim p2) = true) by (cbn; destruct (Rltb_spec 0 1); [reflexivity|lra]).
    assert (P3 : nltb nzero (cim n1) = false) by (cbn; destruct (Rltb_spec 0 (-2)); [lra|reflexivity]).
    assert (P4 : nltb nzero (cim n2) = false) by (cbn; destruct (Rltb_spec 0 (-1)); [lra|reflexivity]).
    assert (M1 : nltb (cim p1) nzero = false) by (cbn; destruct (Rltb_spec 2 0); [lra|reflexivity]).
    assert (M2 : nltb (cim p2) nzero = false) by (cbn; destruct (Rltb_spec 1 0); [lra|reflexivity]).
    assert (M3 : nltb (cim n1) nzero = true) by (cbn; destruct (Rltb_spec (-2) 0); [reflexivity|lra]).
    assert (M4 : nltb (cim n2) nzero = true) by (cbn; destruct (Rltb_spec (-1) 0); [reflexivity|lra]).
    rewrite P1, P2, P3, P4, M1, M2, M3, M4. cbn [length Nat.eqb negb].
    unfold same_real_flags. cbn [zip tl map fst snd app].
    assert (F1 : nleb (nsub (cre p2) (cre p1)) (nmul tol (cnorm p1)) = true).
    { cbn [nleb nsub nmul RNum]. destruct (Rleb_spec (cre p2 - cre p1) (tol * cnorm p1)) as [Q|Q]; [reflexivity|]. exfalso. apply Q. unfold p1, p2. cbn [cre fst].
      assert (N1 : 1 <= cnorm ((1, 2) : C)) by (rewrite ?cnorm_def; unfold cnorm_sqr; cbn; rewrite <- sqrt_1 at 1; apply sqrt_le_1_alt; lra). unfold cre. cbn [fst].
      apply Rle_trans with (tol * 1); [lra|]. apply Rmult_le_compat_l; [lra|exact N1]. }
    rewrite F1. cbn [same_real_steps zip tl map positions seq length filter snd fst Z.ltb Z.compare Nat.eqb rassert bind rfold].
    unfold sort_run. cbn [fst snd slice Nat.add Nat.leb length andb bind skipn firstn zip Nat.sub].
    assert (Er : sort _ le_pair [(p1, n2); (p2, n1)] = [(p1, n2); (p2, n1)]).
    { destruct (Hs _ le_pair [(p1, n2); (p2, n1)]) as [HP HS]. specialize (HS le_pair_total le_pair_trans). symmetry.
      assert (Lt : le_pair (p1, n2) (p2, n1) = true) by (apply le_pair_iff; left; unfold n1, n2; cbn; lra).
      assert (Gt : ~ le_pair (p2, n1) (p1, n2) = true) by (rewrite le_pair_iff; unfold n1, n2; cbn; lra).
      apply (sorted_perm_eq (fun a b => le_pair a b = true)); [|exact HS|exact HP|intros a; destruct (le_pair_total a a); assumption|].
      - repeat constructor. exact Lt.
      - intros a b [<-|[<-|[]]] [<-|[<-|[]]] Q W; try reflexivity; contradiction. }
    unfold slice. cbn [Nat.leb length andb bind skipn firstn zip Nat.sub Nat.add]. rewrite Er. cbn [map fst snd app firstn skipn bind existsb zip].
    assert (B : nltb (nmul tol (cnorm n2)) (cnorm (csub p1 (cconj n2))) = true).
    { cbn [nltb nmul RNum]. destruct (Rltb_spec (tol * cnorm n2) (cnorm (csub p1 (cconj n2)))) as [Q|Q]; [reflexivity|]. exfalso. apply Q. clear Q. unfold p1, n2.
      assert (cnorm ((1, -1) : C) < 2).
      { rewrite ?cnorm_def; unfold cnorm_sqr. cbn. rewrite <- (sqrt_Rsqr 2) by lra. apply sqrt_lt_1_alt. unfold Rsqr. lra. }
      assert (1 <= cnorm (csub ((1, 2) : C) (cconj ((1, -1) : C)))) by (rewrite ?cnorm_def; unfold cnorm_sqr; cbn; rewrite <- sqrt_1 at 1; apply sqrt_le_1_alt; lra). nra. }
    rewrite B. reflexivity.
Qed.
Print Assumptions C100_tolerance_refuted.

Example C100_ex : conj_closed [(1, 2); (3, 0); (1, -2)] /\ real_parts_apart (1/100) [(1, 2); (3, 0); (1, -2)] /\ is_sort isort.
Proof.
  split; [|split; [|exact isort_is_sort]].
  - unfold conj_closed. replace (map cconj [(1, 2); (3, 0); (1, -2)]) with (rev [(1, 2); (3, 0); (1, -2)] : list C); [apply Permutation_sym, Permutation_rev|].
    cbn [rev app map]. apply (f_equal2 cons); [apply C_ext; cbn; lra|]. apply (f_equal2 cons); [apply C_ext; cbn; lra|]. apply (f_equal2 cons); [apply C_ext; cbn; lra|reflexivity].
  - assert (N : cnorm ((1, 2) : C) < 3 /\ cnorm ((1, -2) : C) < 3).
    { split; rewrite ?cnorm_def; unfold cnorm_sqr; cbn; rewrite <- (sqrt_Rsqr 3) by lra; apply sqrt_lt_1_alt; unfold Rsqr; lra. }
    intros a b Ia Ib. cbn in Ia, Ib. destruct Ia as [<-|[<-|[<-|[]]]], Ib as [<-|[<-|[<-|[]]]]; cbn [cre fst]; unfold cre; cbn [fst]; intros; lra.
Qed.

(** * C101 *)
Lemma isort_locally : sorts_locally isort.
Proof.
  intros A le l. split; [apply isort_is_sort|]. intros T Tr.
  assert (P : forall l', Permutation l' (isort A le l')) by (intros l'; apply isort_is_sort).
  induction l as [|x l IH]; [constructor|]. cbn [isort fold_right]. fold (isort A le l).
  assert (S' : StronglySorted (fun a b => le a b = true) (isort A le l)) by (apply IH; intros; [apply T|eapply Tr; try eassumption]; right; assumption).
  assert (I' : forall r, In r (isort A le l) -> In r l) by (intros r; apply Permutation_in, Permutation_sym, P).
  clear IH. revert S' I'. generalize (isort A le l). intros m. induction 1 as [|y m Hm IH Hy]; intros I'; cbn; [repeat constructor|].
  assert (Iy : In y l) by (apply I'; left; reflexivity). destruct (le x y) eqn:L.
  - constructor; [constructor; assumption|]. constructor; [exact L|].
    apply Forall_forall. intros z Hz. rewrite Forall_forall in Hy. apply (Tr x y z); [left; reflexivity|right; exact Iy|right; apply I'; right; exact Hz|exact L|apply Hy, Hz].
  - constructor; [apply IH; intros r Hr; apply I'; right; exact Hr|]. apply Forall_forall. intros z Hz.
    apply (Permutation_in _ (Permutation_sym (insert_perm le x m))) in Hz. destruct Hz as [<-|Hz].
    + destruct (T x y (or_introl eq_refl) (or_intror Iy)); congruence.
    + rewrite Forall_forall in Hy. apply Hy, Hz.
Qed.

Lemma leC_iff (a b : C) : le_cplx a b = true <-> lex_le a b.
Proof.
  unfold le_cplx, lex_le. cbn [nltb nleb RNum]. destruct (Rltb_spec (cre a) (cre b)) as [L|L]; [split; [left; exact L|reflexivity]|].
  destruct (Rltb_spec (cre b) (cre a)) as [L'|L']; [split; [discriminate|intros [Q|[Q _]]; lra]|].
  destruct (Rleb_spec (cim a) (cim b)) as [Q|Q]; split; intros H; try discriminate; try reflexivity.
  - right. split; [lra|exact Q].
  - exfalso. destruct H as [H|[_ H]]; lra.
Qed.
Lemma lex_total a b : lex_le a b \/ lex_le b a.
Proof. unfold lex_le. destruct (Rtotal_order (cre a) (cre b)) as [L|[L|L]]; [left; left; exact L| |right; left; exact L]. destruct (Rle_dec (cim a) (cim b)); [left|right]; right; lra. Qed.
Lemma lex_trans a b c : lex_le a b -> lex_le b c -> lex_le a c.
Proof. unfold lex_le. intros [Q|[Q Q']] [W|[W W']]; try (left; lra). right. lra. Qed.

Section Float.
Variables prec emax : Z.
Variable szero : bool.
Hypothesis Hpe : (1 < prec < emax)%Z.
Local Instance SFN : Num spec_float := SFNum prec emax szero.
Variable sort : forall A : Type, (A -> A -> bool) -> list A -> list A.
Hypothesis Hsort : sorts_locally sort.

Lemma leF_iff (a b : cplx spec_float) : cfinite prec emax a -> cfinite prec emax b -> (le_cplx a b = true <-> lex_le (cval a) (cval b)).
Proof.
  intros [Fa Fa'] [Fb Fb']. rewrite <- leC_iff. unfold le_cplx. cbn [nltb nleb SFN SFNum RNum]. unfold cval. cbn [cre cim fst snd].
  rewrite !(ltb_fval prec emax), (leb_fval prec emax) by assumption. reflexivity.
Qed.
Lemma sortF_ok (x : list (cplx spec_float)) : Forall (cfinite prec emax) x ->
  Permutation x (sort_cplx_dyn sort x) /\ StronglySorted lex_le (map cval (sort_cplx_dyn sort x)).
Proof.
  intros Fx. rewrite Forall_forall in Fx. unfold sort_cplx_dyn. destruct (Hsort _ le_cplx x) as [HP HS]. split; [exact HP|].
  assert (S' : StronglySorted (fun a b => le_cplx a b = true) (sort _ le_cplx x)).
  { apply HS.
    - intros a b Ia Ib. rewrite !leF_iff by auto. apply lex_total.
    - intros a b c Ia Ib Ic. rewrite !leF_iff by auto. apply lex_trans. }
  assert (I' : forall r, In r (sort _ le_cplx x) -> cfinite prec emax r) by (intros r Hr; apply Fx, (Permutation_in _ (Permutation_sym HP)), Hr).
  revert S' I'. generalize (sort _ le_cplx x). induction 1 as [|a l S' IH F']; intros I'; [constructor|]. cbn [map]. constructor; [apply IH; intros; apply I'; right; assumption|].
  rewrite Forall_forall in *. intros b Hb. apply in_map_iff in Hb. destruct Hb as [b' [<- Hb]]. apply leF_iff; [apply I'; left; reflexivity|apply I'; right; exact Hb|apply F', Hb].
Qed.
Lemma cconjF (a : cplx spec_float) : cfinite prec emax a -> cfinite prec emax (cconj a) /\ cval (cconj a) = cconj (cval a).
Proof.
  intros [F1 [V F2]]. unfold cconj, cfinite, cval. cbn [cre cim fst snd nneg SFN SFNum RNum].
  destruct (cim a) as [s|s| |s m e] eqn:E; try contradiction; cbn [SFopp].
  - split; [split; [exact F1|split; [exact V|exact I]]|]. apply C_ext; cbn; [reflexivity|lra].
  - split; [split; [exact F1|split; [exact V|exact I]]|]. apply C_ext; cbn; [reflexivity|]. destruct s; cbn [negb]; ring.
Qed.
Lemma all_eqF x : forall y, Forall (cfinite prec emax) x -> Forall (cfinite prec emax) y -> map cval x = map cval y -> all_eq x y = true.
Proof.
  induction x as [|a x IH]; intros [|b y] Fx Fy E; try discriminate; [reflexivity|]. cbn [map] in E. injection E as E1 E2 E3.
  inversion Fx as [|? ? [Fa Fa'] Fx']; subst. inversion Fy as [|? ? [Fb Fb'] Fy']; subst. unfold all_eq. cbn [zip forallb fst snd]. fold (all_eq x y). rewrite IH by assumption. rewrite andb_true_r.
  unfold ceqb. cbn [neqb SFN SFNum]. rewrite !(SFeqb_fval prec emax) by assumption. rewrite E1, E2. unfold Reqb. destruct (Req_EM_T _ _); [|contradiction]. destruct (Req_EM_T _ _); [reflexivity|contradiction].
Qed.
End Float.

(** sort_cplx_dyn returns its finite arguments ordered by real part and then by imaginary
    part, at every float format and for reals. *)
Theorem C101_sorted prec emax szero sort (x : list (cplx spec_float)) : (1 < prec < emax)%Z -> sorts_locally sort ->
  Forall (cfinite prec emax) x ->
  Permutation x (@sort_cplx_dyn _ (SFNum prec emax szero) sort x) /\
  StronglySorted lex_le (map cval (@sort_cplx_dyn _ (SFNum prec emax szero) sort x)).
Proof. intros. apply sortF_ok; assumption. Qed.
Print Assumptions C101_sorted.
Theorem C101_sorted_real sort (x : list C) : is_sort sort ->
  Permutation x (sort_cplx_dyn sort x) /\ StronglySorted lex_le (sort_cplx_dyn sort x).
Proof.
  intros Hs. unfold sort_cplx_dyn. destruct (Hs _ le_cplx x) as [HP HS]. split; [exact HP|]. rewrite <- (map_id (sort _ le_cplx x)).
  apply (map_sorted (fun x => x) (fun a b => le_cplx a b = true)); [intros a b; apply leC_iff|]. apply HS.
  - intros a b. rewrite !leC_iff. apply lex_total.
  - intros a b c. rewrite !leC_iff. apply lex_trans.
Qed.
Print Assumptions C101_sorted_real.

(** Roots closed under conjugation give coefficients whose imaginary parts are exactly +0,
    whatever the rounding errors of the products. *)
Theorem C101_real_coefficients prec emax szero sort (z : list (cplx spec_float)) : (1 < prec < emax)%Z -> sorts_locally sort ->
  Forall (cfinite prec emax) z -> conj_closed (map cval z) ->
  exists a, @poly_dyn _ (SFNum prec emax szero) sort z = Ok a /\ length a = S (length z) /\ Forall (fun c => snd c = S754_zero false) a.
Proof.
  intros Hpe Hs Fz Hc.
  assert (Fc : Forall (cfinite prec emax) (map (@cconj _ (SFNum prec emax szero)) z)).
  { apply Forall_forall. intros r Hr. apply in_map_iff in Hr. destruct Hr as [q [<- Hq]]. rewrite Forall_forall in Fz. apply (cconjF prec emax szero), Fz, Hq. }
  assert (Vc : map cval (map (@cconj _ (SFNum prec emax szero)) z) = map cconj (map cval z)).
  { rewrite !map_map. apply map_ext_in. intros r Hr. rewrite Forall_forall in Fz. apply (cconjF prec emax szero), Fz, Hr. }
  destruct (sortF_ok prec emax szero sort Hs z Fz) as [P1 S1]. destruct (sortF_ok prec emax szero sort Hs _ Fc) as [P2 S2].
  assert (AE : @all_eq _ (SFNum prec emax szero) (@sort_cplx_dyn _ (SFNum prec emax szero) sort z) (@sort_cplx_dyn _ (SFNum prec emax szero) sort (map (@cconj _ (SFNum prec emax szero)) z)) = true).
  { apply (all_eqF prec emax szero Hpe).
    - apply Forall_forall. intros r Hr. rewrite Forall_forall in Fz. apply Fz, (Permutation_in _ (Permutation_sym P1)), Hr.
    - apply Forall_forall. intros r Hr. rewrite Forall_forall in Fc. apply Fc, (Permutation_in _ (Permutation_sym P2)), Hr.
    - apply (sorted_perm_eq lex_le); [exact S1|exact S2| | |].
      + rewrite <- (Permutation_map cval P1), <- (Permutation_map cval P2), Vc. symmetry. exact Hc.
      + intros a. right. lra.
      + intros a b _ _ [Q|[Q Q']] [W|[W W']]; try lra. apply C_ext; unfold cre, cim in *; lra. }
  unfold poly_dyn. rewrite gpoly_fold by (cbn; lia). cbn [bind]. rewrite AE. eexists. split; [reflexivity|]. split.
  - rewrite map_length. rewrite fold_gpstep_length. cbn [length]. lia.
  - apply Forall_forall. intros c Hc'. apply in_map_iff in Hc'. destruct Hc' as [q [<- _]]. reflexivity.
Qed.
Print Assumptions C101_real_coefficients.
Example C101_ex : let z := [(S754_finite false 3 (-1), S754_finite false 1 0); (S754_finite false 1 1, S754_zero false); (S754_finite false 3 (-1), S754_finite true 1 0)] in
  sorts_locally isort /\ conj_closed (map cval z).
Proof.
  split; [exact isort_locally|]. unfold conj_closed. cbn [map]. match goal with |- Permutation ?x ?y => replace x with (rev y); [apply Permutation_sym, Permutation_rev|] end.
  cbn [rev app]. unfold cval. cbn [cre cim fst snd fval]. apply (f_equal2 cons); [apply C_ext; cbn; lra|]. apply (f_equal2 cons); [apply C_ext; cbn; lra|]. apply (f_equal2 cons); [apply C_ext; cbn; lra|reflexivity].
Qed.
