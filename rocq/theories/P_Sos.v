(** [cplxreal_dyn] and [zpk2sos_dyn]. *)
From Coq Require Import List Arith ZArith Reals Permutation Sorted Lra Lia Bool.
From Verif Require Import Base P_Sqrt Num Trans M_Complex M_Fourier M_Filter M_Design Cx S_Design P_Bessel P_Zi P_Poly P_Lp P_Proto P_Iir.
Import ListNotations.
Local Open Scope R_scope.

(** ** Generic list facts *)
Lemma filter_perm {A} (f : A -> bool) l m : Permutation l m -> Permutation (filter f l) (filter f m).
Proof.
  induction 1 as [|x l m HP IH|x y l|l m k H1 IH1 H2 IH2]; cbn [filter].
  - constructor.
  - destruct (f x); [constructor|]; exact IH.
  - destruct (f x), (f y); try apply Permutation_refl. constructor.
  - eapply Permutation_trans; eassumption.
Qed.
Lemma filter_map_comm {A B} (g : A -> B) (f : B -> bool) l : filter f (map g l) = map g (filter (fun x => f (g x)) l).
Proof. induction l as [|x l IH]; [reflexivity|]. cbn [map filter]. destruct (f (g x)); cbn [map]; rewrite IH; reflexivity. Qed.
Lemma filter_filter' {A} (f g : A -> bool) l : filter f (filter g l) = filter (fun x => f x && g x) l.
Proof. induction l as [|x l IH]; [reflexivity|]. cbn [filter]. destruct (g x); cbn [filter]; destruct (f x); cbn [andb]; rewrite IH; reflexivity. Qed.
Lemma filter_sorted {A} (R : A -> A -> Prop) f l : StronglySorted R l -> StronglySorted R (filter f l).
Proof.
  induction 1 as [|x l Hs IH Hf]; [constructor|]. cbn [filter]. destruct (f x); [|exact IH]. constructor; [exact IH|].
  apply Forall_forall. intros y Hy. apply filter_In in Hy. rewrite Forall_forall in Hf. apply Hf, Hy.
Qed.
Lemma map_sorted {A B} (g : A -> B) (R : A -> A -> Prop) (S : B -> B -> Prop) l : (forall x y, R x y -> S (g x) (g y)) -> StronglySorted R l -> StronglySorted S (map g l).
Proof.
  intros Hg. induction 1 as [|x l Hs IH Hf]; [constructor|]. cbn [map]. constructor; [exact IH|].
  apply Forall_forall. intros y Hy. apply in_map_iff in Hy. destruct Hy as [z [<- Hz]]. rewrite Forall_forall in Hf. apply Hg, Hf, Hz.
Qed.
Lemma sorted_perm_eq {A} (R : A -> A -> Prop) l : forall m, StronglySorted R l -> StronglySorted R m -> Permutation l m ->
  (forall a, R a a) -> (forall a b, In a l -> In b l -> R a b -> R b a -> a = b) -> l = m.
Proof.
  induction l as [|x l IH]; intros m Hl Hm HP Hr Ha; [symmetry; apply Permutation_nil; exact HP|].
  destruct m as [|y m]; [apply Permutation_sym, Permutation_nil in HP; discriminate HP|].
  inversion Hl as [|? ? Sl Fl]; subst. inversion Hm as [|? ? Sm Fm]; subst. rewrite Forall_forall in Fl, Fm.
  assert (Exy : x = y).
  { assert (Iy : In y (x :: l)) by (apply (Permutation_in _ (Permutation_sym HP)); left; reflexivity).
    assert (Ix : In x (y :: m)) by (apply (Permutation_in _ HP); left; reflexivity).
    apply Ha; [left; reflexivity|exact Iy| |].
    - destruct Iy as [->|Iy]; [apply Hr|apply Fl, Iy].
    - destruct Ix as [->|Ix]; [apply Hr|apply Fm, Ix]. }
  subst y. f_equal. apply IH; [exact Sl|exact Sm|exact (Permutation_cons_inv HP)|exact Hr|].
  intros a b Ia Ib. apply Ha; right; assumption.
Qed.
Lemma filter_all_length {A} (f : A -> bool) l : length (filter f l) = length l -> filter f l = l.
Proof.
  induction l as [|x l IH]; [reflexivity|]. cbn [filter]. destruct (f x); cbn [length]; intros E'.
  - f_equal. apply IH. lia.
  - exfalso. assert (length (filter f l) <= length l)%nat by (clear; induction l as [|x l IH]; cbn; [lia|destruct (f x); cbn; lia]). lia.
Qed.
Lemma filter_split {A} (f g : A -> bool) l : (forall x, In x l -> f x = negb (g x)) -> Permutation l (filter f l ++ filter g l).
Proof.
  induction l as [|x l IH]; intros Hn; [constructor|]. cbn [filter]. rewrite (Hn x) by (left; reflexivity).
  assert (IH' := IH (fun y Hy => Hn y (or_intror Hy))). destruct (g x); cbn [negb].
  - apply Permutation_cons_app. exact IH'.
  - cbn [app]. constructor. exact IH'.
Qed.

Lemma skipn_skipn' {A} a b (l : list A) : skipn a (skipn b l) = skipn (b + a) l.
Proof. revert l. induction b as [|b IH]; intros [|x l]; cbn [skipn Nat.add]; try reflexivity; [apply skipn_nil|apply IH]. Qed.

Lemma Forall2_len {A B} (R : A -> B -> Prop) l m : Forall2 R l m -> length l = length m.
Proof. induction 1; cbn; congruence. Qed.

(** ** What counts as real *)
Lemma csqrt_square_re (z : C) : cre (csqrt (cmul z z)) = Rabs (cre z).
Proof.
  destruct z as [a b]. rewrite csqrt_alg. rewrite ?cnorm_def; unfold cnorm_sqr. cbn.
  replace ((a * a - b * b) * (a * a - b * b) + (a * b + b * a) * (a * b + b * a)) with (Rsqr (a * a + b * b)) by (unfold Rsqr; ring).
  rewrite sqrt_Rsqr by nra. replace ((a * a + b * b + (a * a - b * b)) / (1 + 1)) with (Rsqr a) by (unfold Rsqr; field). apply sqrt_Rsqr_abs.
Qed.
Definition isr (r : C) : bool := is_zero (cim r).
Lemma isr_true r : isr r = true <-> cim r = 0.
Proof. unfold isr, is_zero. apply Reqb_true. Qed.
Lemma isr_false r : isr r = false <-> cim r <> 0.
Proof. unfold isr, is_zero. apply Reqb_false. Qed.
Lemma near_real_isr eps r : 0 <= eps -> (cim r = 0 \/ 100 * eps * Rabs (cre r) < Rabs (cim r)) ->
  near_real (eps * IZR 100) r = isr r.
Proof.
  intros He Hr. unfold near_real. rewrite csqrt_square_re. cbn [nabs nleb nmul RNum]. pose proof (Rabs_pos (cre r)) as Hp.
  destruct (Rleb_spec (Rabs (cim r)) (eps * 100 * Rabs (cre r))) as [Q|Q]; symmetry.
  - apply isr_true. destruct Hr as [Hr|Hr]; [exact Hr|]. nra.
  - apply isr_false. intros Z. apply Q. rewrite Z, Rabs_R0. nra.
Qed.

(** ** The order *)
Notation leA := (fun a b : C => le_cplx_abs a b = true).
Lemma leA_iff (a b : C) : le_cplx_abs a b = true <-> cre a < cre b \/ (cre a = cre b /\ Rabs (cim a) <= Rabs (cim b)).
Proof.
  unfold le_cplx_abs. cbn [nltb nleb nabs RNum]. destruct (Rltb_spec (cre a) (cre b)) as [L|L]; [split; [left; exact L|reflexivity]|].
  destruct (Rltb_spec (cre b) (cre a)) as [L'|L']; [split; [discriminate|intros [Q|[Q _]]; lra]|].
  destruct (Rleb_spec (Rabs (cim a)) (Rabs (cim b))) as [Q|Q]; split; intros; try discriminate; try reflexivity.
  - right. split; [lra|exact Q].
  - exfalso. destruct H as [H|[_ H]]; lra.
Qed.
Lemma leA_total (a b : C) : le_cplx_abs a b = true \/ le_cplx_abs b a = true.
Proof.
  rewrite !leA_iff. destruct (Rtotal_order (cre a) (cre b)) as [L|[L|L]].
  - left. left. exact L.
  - destruct (Rle_dec (Rabs (cim a)) (Rabs (cim b))) as [Q|Q]; [left|right]; right; split; lra.
  - right. left. exact L.
Qed.
Lemma leA_trans (a b c : C) : le_cplx_abs a b = true -> le_cplx_abs b c = true -> le_cplx_abs a c = true.
Proof. rewrite !leA_iff. intros [Q|[Q Q']] [W|[W W']]; try (left; lra). right. lra. Qed.

Lemma conj_closed_perm l m : Permutation l m -> conj_closed l -> conj_closed m.
Proof.
  unfold conj_closed. intros HP Hc. eapply Permutation_trans; [apply Permutation_map, Permutation_sym, HP|]. eapply Permutation_trans; [exact Hc|exact HP].
Qed.

(** ** Runs *)
Definition pos_from {A} (off : nat) (f : A -> bool) (l : list A) : list nat :=
  map fst (filter (fun p => f (snd p)) (zip (seq off (length l)) l)).
Lemma pos_from_cons {A} off (f : A -> bool) x l : pos_from off f (x :: l) = (if f x then [off] else []) ++ pos_from (S off) f l.
Proof. unfold pos_from. cbn [length seq zip filter snd]. destruct (f x); reflexivity. Qed.
Definition stepz (ab : bool * bool) : Z := match ab with (true, true) => 0%Z | (true, false) => (-1)%Z | (false, true) => 1%Z | (false, false) => 0%Z end.
Lemma steps_cons a b l : same_real_steps (a :: b :: l) = stepz (a, b) :: same_real_steps (b :: l).
Proof. reflexivity. Qed.
Lemma runs_spec l : forall off prev, last (prev :: l) false = false ->
  let st := same_real_steps (prev :: l) in
  let starts := pos_from off (fun s => Z.ltb 0 s) st in
  let stops := pos_from off (fun s => Z.ltb s 0) st in
  Forall (fun e => (e < off + length l)%nat) stops /\
  if prev then exists e stops', stops = e :: stops' /\ (off <= e)%nat /\ Forall2 le starts stops'
  else Forall2 le starts stops.
Proof.
  induction l as [|b l IH]; intros off prev Hl; cbv zeta.
  - cbn in Hl. subst prev. split; constructor.
  - rewrite steps_cons. rewrite !pos_from_cons.
    assert (Hl' : last (b :: l) false = false) by (cbn [last] in Hl; destruct l; exact Hl).
    specialize (IH (S off) b Hl'). cbv zeta in IH. destruct IH as [IB IH].
    set (st := same_real_steps (b :: l)) in *.
    set (sa := pos_from (S off) (fun s => Z.ltb 0 s) st) in *. set (so := pos_from (S off) (fun s => Z.ltb s 0) st) in *.
    cbn [length].
    assert (IB' : Forall (fun e => (e < off + S (length l))%nat) so) by (revert IB; apply Forall_impl; intros; lia).
    destruct prev, b; cbn [stepz Z.ltb Z.compare app].
    + split; [exact IB'|]. destruct IH as [e [so' [-> [He H2]]]]. exists e, so'. split; [reflexivity|]. split; [lia|exact H2].
    + split; [constructor; [lia|exact IB']|]. exists off, so. split; [reflexivity|]. split; [lia|exact IH].
    + split; [exact IB'|]. destruct IH as [e [so' [-> [He H2]]]]. constructor; [lia|exact H2].
    + split; [exact IB'|exact IH].
Qed.

Section Sorting.
Variable epsilon : R.
Hypothesis He : 0 <= epsilon.
Variable sort : forall A : Type, (A -> A -> bool) -> list A -> list A.
Hypothesis Hsort : is_sort sort.

Definition pairc (a : C) : C * C := (a, cconj a).
Lemma zip_pairc (l : list C) : zip l (map cconj l) = map pairc l.
Proof. induction l as [|x l IH]; [reflexivity|]. cbn [map zip]. rewrite IH. reflexivity. Qed.

Lemma sort_run_ok zp s e : (s <= e)%nat -> (e < length zp)%nat ->
  exists zp', sort_run sort (zp, map cconj zp) (s, e) = Ok (zp', map cconj zp') /\ Permutation zp zp'.
Proof.
  intros Hse Hel. unfold sort_run. cbn [fst snd]. unfold slice. rewrite map_length.
  destruct (Nat.leb_spec s (e + 1)); [|lia]. destruct (Nat.leb_spec (e + 1) (length zp)); [|lia]. cbn [andb bind].
  rewrite skipn_map, firstn_map, zip_pairc. set (ch := firstn (e + 1 - s) (skipn s zp)).
  destruct (Hsort _ le_pair (map pairc ch)) as [HP _].
  destruct (Permutation_map_inv pairc _ (Permutation_sym HP)) as [ch' [E' HP']]. rewrite E', !map_map. unfold pairc at 1 2. cbn [fst snd]. rewrite map_id.
  exists (firstn s zp ++ ch' ++ skipn (e + 1) zp). split.
  - rewrite !map_app, firstn_map, skipn_map. reflexivity.
  - assert (D : zp = firstn s zp ++ ch ++ skipn (e + 1) zp).
    { rewrite <- (firstn_skipn s zp) at 1. f_equal. rewrite <- (firstn_skipn (e + 1 - s) (skipn s zp)) at 1. fold ch. f_equal.
      rewrite skipn_skipn'. f_equal. lia. }
    rewrite D at 1. apply Permutation_app_head, Permutation_app_tail. exact HP'.
Qed.
Lemma sort_runs_ok starts : forall stops zp, Forall2 le starts stops -> Forall (fun e => (e < length zp)%nat) stops ->
  exists zp', rfold (sort_run sort) (zip starts stops) (zp, map cconj zp) = Ok (zp', map cconj zp') /\ Permutation zp zp'.
Proof.
  induction starts as [|s starts IH]; intros stops zp H2 Hf; inversion H2 as [|? e ? stops' Hse H2']; subst.
  - exists zp. split; [reflexivity|apply Permutation_refl].
  - inversion Hf as [|? ? Hel Hf']; subst. cbn [zip rfold]. destruct (sort_run_ok zp s e Hse Hel) as [zp1 [-> HP1]]. cbn [bind].
    destruct (IH stops' zp1 H2') as [zp' [-> HP']].
    { rewrite <- (Permutation_length HP1). exact Hf'. }
    exists zp'. split; [reflexivity|]. eapply Permutation_trans; eassumption.
Qed.

Lemma existsb_pairc (l : list C) :
  existsb (fun pn : C * C => nltb (nmul (epsilon * 100) (cnorm (snd pn))) (cnorm (csub (fst pn) (cconj (snd pn))))) (map pairc l) = false.
Proof.
  induction l as [|x l IH]; [reflexivity|]. cbn [map existsb]. rewrite IH, orb_false_r. cbn [pairc fst snd].
  rewrite cconj_conj. replace (cnorm (csub x x)) with 0.
  2:{ destruct x as [a b]. rewrite ?cnorm_def; unfold cnorm_sqr. cbn. replace ((a - a) * (a - a) + (b - b) * (b - b)) with 0 by ring. symmetry. apply sqrt_0. }
  cbn [nltb nmul RNum]. destruct (Rltb_spec (epsilon * 100 * cnorm (cconj x)) 0) as [Q|Q]; [|reflexivity].
  exfalso. assert (0 <= cnorm (cconj x)) by apply sqrt_pos. nra.
Qed.

Theorem cplxreal_ok z : conj_closed z -> separated epsilon z ->
  exists zc zr, cplxreal_dyn epsilon sort z None = Ok (zc, zr) /\
    Forall (fun r => 0 < cim r) zc /\ Forall (fun r => cim r = 0) zr /\ Permutation z (zc ++ map cconj zc ++ zr).
Proof.
  intros Hc Hsp. destruct z as [|z0 z'].
  { exists [], []. split; [reflexivity|]. split; [constructor|]. split; constructor. }
  unfold cplxreal_dyn. cbn [unwrap_or]. set (z := z0 :: z') in *. clearbody z. clear z0 z'.
  change (nmul epsilon (nofZ 100)) with (epsilon * 100). cbv zeta.
  destruct (Hsort _ le_cplx_abs z) as [HP HS]. specialize (HS leA_total leA_trans). set (zs := sort _ le_cplx_abs z) in *. clearbody zs.
  assert (Hcs : conj_closed zs) by exact (conj_closed_perm _ _ HP Hc).
  assert (Hss : separated epsilon zs) by (unfold separated in *; rewrite Forall_forall in *; intros r Hr; apply Hsp, (Permutation_in _ (Permutation_sym HP)), Hr).
  assert (Hnr : forall r, In r zs -> near_real (epsilon * 100) r = isr r).
  { intros r Hr. apply near_real_isr; [exact He|]. unfold separated in Hss. rewrite Forall_forall in Hss. apply Hss, Hr. }
  rewrite (filter_ext_in _ _ _ Hnr).
  rewrite (filter_ext_in (fun zi => negb (near_real (epsilon * 100) zi)) (fun zi => negb (isr zi))) by (intros r Hr; rewrite Hnr by exact Hr; reflexivity).
  assert (Hzr : Forall (fun r => cim r = 0) (filter isr zs)).
  { apply Forall_forall. intros r Hr. apply filter_In in Hr. apply isr_true, Hr. }
  destruct (Nat.eqb_spec (length (filter isr zs)) (length zs)) as [E'|E'].
  { exists [], (filter isr zs). split; [reflexivity|]. split; [constructor|]. split; [exact Hzr|]. cbn [map app]. rewrite filter_all_length by exact E'. exact HP. }
  clear E'. rewrite !filter_filter'.
  set (zp := filter _ zs). set (zn := filter _ zs). assert (Ep0 := eq_refl zp). unfold zp at 2 in Ep0. assert (En0 := eq_refl zn). unfold zn at 2 in En0.
  assert (Ep : zp = filter (fun zi => Rltb 0 (cim zi)) zs).
  { unfold zp. apply filter_ext. intros r. cbn [nltb nzero RNum]. destruct (Rltb_spec 0 (cim r)) as [Q|Q]; [|reflexivity]. cbn [andb].
    replace (isr r) with false; [reflexivity|]. symmetry. apply isr_false. lra. }
  assert (En : zn = filter (fun zi => Rltb (cim zi) 0) zs).
  { unfold zn. apply filter_ext. intros r. cbn [nltb nzero RNum]. destruct (Rltb_spec (cim r) 0) as [Q|Q]; [|reflexivity]. cbn [andb].
    replace (isr r) with false; [reflexivity|]. symmetry. apply isr_false. lra. }
  clearbody zp zn.
  assert (Hperm : Permutation (map cconj zn) zp).
  { rewrite Ep, En. eapply Permutation_trans; [|apply (filter_perm _ _ _ Hcs)]. rewrite filter_map_comm.
    rewrite (filter_ext (fun x => Rltb 0 (cim (cconj x))) (fun zi => Rltb (cim zi) 0)); [apply Permutation_refl|].
    intros r. change (cim (cconj r)) with (- cim r). destruct (Rltb_spec 0 (- cim r)), (Rltb_spec (cim r) 0); try reflexivity; lra. }
  assert (Hpos : forall r, In r zp -> 0 < cim r).
  { intros r Hr. rewrite Ep in Hr. apply filter_In in Hr. destruct Hr as [_ Hr]. destruct (Rltb_spec 0 (cim r)); [assumption|discriminate]. }
  assert (Eq : map cconj zn = zp).
  { apply (sorted_perm_eq leA).
    - apply (map_sorted cconj leA leA); [|rewrite En; apply filter_sorted, HS]. intros x y. rewrite !leA_iff.
      change (cim (cconj x)) with (- cim x). change (cim (cconj y)) with (- cim y). change (cre (cconj x)) with (cre x). change (cre (cconj y)) with (cre y).
      rewrite !Rabs_Ropp. tauto.
    - rewrite Ep. apply filter_sorted, HS.
    - exact Hperm.
    - intros a. destruct (leA_total a a); assumption.
    - intros a b Ia Ib. apply (Permutation_in _ Hperm) in Ia, Ib. apply Hpos in Ia, Ib. rewrite !leA_iff, !(Rabs_right _) by lra.
      intros [Q|[Q Q']] [W|[W W']]; try lra. destruct a as [a1 a2], b as [b1 b2]. cbn in *. apply C_ext; cbn; lra. }
  assert (Ezn : zn = map cconj zp).
  { rewrite <- Eq, map_map. rewrite <- (map_id zn) at 1. apply map_ext. intros r. symmetry. apply cconj_conj. }
  clear Hperm Eq En. rewrite Ezn. rewrite map_length, Nat.eqb_refl. cbn [negb].
  set (fl := same_real_flags (epsilon * 100) zp).
  assert (Efl : exists l, fl = false :: l /\ last (false :: l) false = false /\ (zp <> [] -> length l = length zp) /\ (zp = [] -> l = [false])).
  { unfold fl, same_real_flags. cbn [app]. eexists. split; [reflexivity|]. split.
    - change (false :: ?m ++ [false]) with ((false :: m) ++ [false]). apply last_last.
    - split; [|intros ->; reflexivity]. intros Hne. rewrite app_length, map_length. cbn [length].
      assert (Hz : forall (l : list C), length (zip l (tl l)) = (length l - 1)%nat).
      { intros l. destruct l as [|x l]; [reflexivity|]. cbn [tl length]. rewrite Nat.sub_succ, Nat.sub_0_r. revert x. induction l as [|y l IH]; intros x; [reflexivity|]. cbn [zip length]. f_equal. apply IH. }
      rewrite Hz. destruct zp; [contradiction|cbn [length]; lia]. }
  destruct Efl as [l [-> [Hlast [Hlen Hnil]]]].
  pose proof (runs_spec l 0 false Hlast) as RS. cbv zeta in RS. destruct RS as [RB RF].
  unfold positions. fold (@pos_from Z 0 (fun s => Z.ltb 0 s) (same_real_steps (false :: l))). fold (@pos_from Z 0 (fun s => Z.ltb s 0) (same_real_steps (false :: l))).
  assert (RB' : Forall (fun e => (e < length zp)%nat) (pos_from 0 (fun s => Z.ltb s 0) (same_real_steps (false :: l)))).
  { destruct zp as [|x zp0] eqn:Ez; [rewrite Hnil by reflexivity; constructor|]. rewrite <- Hlen by discriminate. exact RB. }
  clear RB. set (starts := pos_from 0 _ _) in *. set (stops := pos_from 0 (fun s => Z.ltb s 0) _) in *. clearbody starts stops.
  rewrite (Forall2_len _ _ _ RF), Nat.eqb_refl. cbn [rassert bind].
  destruct (sort_runs_ok starts stops zp RF RB') as [zp' [-> HP']]. cbn [bind]. rewrite zip_pairc.
  rewrite (existsb_pairc zp'). rewrite map_map. cbn [fst snd pairc].
  assert (Hzc : map (fun x : C => cdivr (cadd x (cconj (cconj x))) two) zp' = zp').
  { rewrite <- (map_id zp') at 2. apply map_ext. intros [x y]. apply C_ext; cbn; field. }
  exists zp', (filter isr zs). split; [rewrite Hzc; reflexivity|]. split.
  { apply Forall_forall. intros r Hr. apply Hpos, (Permutation_in _ (Permutation_sym HP')), Hr. }
  split; [exact Hzr|]. eapply Permutation_trans; [exact HP|].
  eapply Permutation_trans; [|apply Permutation_app; [exact HP'|apply Permutation_app_tail, Permutation_map, HP']].
  rewrite <- Ezn, Ep0, En0.
  eapply Permutation_trans; [apply (filter_split (fun zi => negb (isr zi)) isr)|]. { intros r _. reflexivity. }
  rewrite app_assoc. apply Permutation_app_tail.
  eapply Permutation_trans; [apply (filter_split (fun zi => Rltb 0 (cim zi)) (fun zi => Rltb (cim zi) 0))|].
  { intros r Hr. apply filter_In in Hr. destruct Hr as [_ Hr]. apply negb_true_iff, isr_false in Hr.
    destruct (Rltb_spec 0 (cim r)), (Rltb_spec (cim r) 0); try reflexivity; lra. }
  rewrite !filter_filter'. apply Permutation_refl.
Qed.
End Sorting.

(** ** One representative per conjugate pair *)
Definition full (l : list C) : list C := flat_map (fun r => if isr r then [r] else [r; cconj r]) l.
Lemma full_cons r l : full (r :: l) = (if isr r then [r] else [r; cconj r]) ++ full l.
Proof. reflexivity. Qed.
Lemma full_app l m : full (l ++ m) = full l ++ full m.
Proof. apply flat_map_app. Qed.
Lemma full_perm l m : Permutation l m -> Permutation (full l) (full m).
Proof. intros HP. apply Permutation_flat_map. exact HP. Qed.
Lemma full_nil l : length (full l) = 0%nat -> l = [].
Proof. destruct l as [|r l]; [reflexivity|]. rewrite full_cons. destruct (isr r); discriminate. Qed.
Lemma full_real l : Forall (fun r => cim r = 0) l -> full l = l.
Proof. induction 1 as [|r l Hr Hl IH]; [reflexivity|]. rewrite full_cons, IH. apply isr_true in Hr. rewrite Hr. reflexivity. Qed.
Lemma full_pos l : Forall (fun r => 0 < cim r) l -> Permutation (full l) (l ++ map cconj l).
Proof.
  intros Hl. assert (E' : full l = flat_map (fun r => [r; cconj r]) l).
  { induction Hl as [|r l Hr Hl IH]; [reflexivity|]. rewrite full_cons, IH. cbn [flat_map]. replace (isr r) with false; [reflexivity|].
    symmetry. apply isr_false. lra. }
  rewrite E'. apply Permutation_sym. rewrite <- (map_id l) at 1. apply (pairs_perm (fun r => r) cconj).
Qed.
Lemma full_count l : exists c, length (full l) = (count_real l + 2 * c)%nat.
Proof.
  induction l as [|r l [c IH]]; [exists 0%nat; reflexivity|]. rewrite full_cons, app_length. unfold count_real. cbn [filter].
  change (is_zero (cim r)) with (isr r). fold (count_real l). destruct (isr r); cbn [length]; fold (count_real l).
  - exists c. rewrite IH. lia.
  - exists (S c). rewrite IH. lia.
Qed.
Lemma count_real_perm l m : Permutation l m -> count_real l = count_real m.
Proof. intros HP. apply Permutation_length, filter_perm, HP. Qed.
Lemma count_real_cons r l : count_real (r :: l) = ((if isr r then 1 else 0) + count_real l)%nat.
Proof. unfold count_real. cbn [filter]. change (is_zero (cim r)) with (isr r). destruct (isr r); reflexivity. Qed.
Lemma count_real_pos l : count_real l <> 0%nat -> exists r, In r l /\ isr r = true.
Proof.
  induction l as [|r l IH]; [intros Hn; contradiction Hn; reflexivity|]. rewrite count_real_cons. destruct (isr r) eqn:Er.
  - intros _. exists r. split; [left; reflexivity|exact Er].
  - intros Hn. destruct IH as [s [Hs1 Hs2]]; [lia|]. exists s. split; [right; exact Hs1|exact Hs2].
Qed.

(** ** Selections *)
Lemma remove_at_ok {A} (l : list A) i a : nth_error l i = Some a ->
  exists l', remove_at l i = Ok (a, l') /\ Permutation l (a :: l').
Proof.
  intros Hi. unfold remove_at, index. rewrite Hi. cbn [unwrap bind]. eexists. split; [reflexivity|].
  revert i Hi. induction l as [|x l IH]; intros [|i] Hi; try discriminate Hi; cbn [nth_error] in Hi.
  - injection Hi as ->. apply Permutation_refl.
  - cbn [firstn skipn]. cbn [app]. eapply Permutation_trans; [apply perm_skip, IH, Hi|apply perm_swap].
Qed.
Lemma min_by_from_in (l : list (nat * R)) : forall b, In (min_by_from b l) (b :: l).
Proof.
  induction l as [|y l IH]; intros b; cbn [min_by_from]; [left; reflexivity|].
  specialize (IH (if nltb (snd y) (snd b) then y else b)). destruct (nltb _ _).
  - right. exact IH.
  - destruct IH as [IH|IH]; [left; exact IH|right; right; exact IH].
Qed.
Lemma min_by_idx_ok (l : list (nat * R)) : l <> [] -> exists i k, min_by_idx l = Ok i /\ In (i, k) l.
Proof.
  destruct l as [|x l]; [intros Hn; contradiction|]. intros _. cbn [min_by_idx].
  exists (fst (min_by_from x l)), (snd (min_by_from x l)). split; [reflexivity|]. rewrite <- surjective_pairing. apply min_by_from_in.
Qed.
Lemma enumerate_in {A} (l : list A) i a : In (i, a) (enumerate l) -> nth_error l i = Some a.
Proof.
  unfold enumerate. assert (G : forall off, In (i, a) (zip (seq off (length l)) l) -> (off <= i)%nat /\ nth_error l (i - off) = Some a).
  { induction l as [|x l IH]; intros off Hin; [contradiction|]. cbn [length seq zip] in Hin. destruct Hin as [E'|Hin].
    - injection E' as <- <-. rewrite Nat.sub_diag. split; [lia|reflexivity].
    - apply IH in Hin. destruct Hin as [Ho Hn]. split; [lia|]. replace (i - off)%nat with (S (i - S off)) by lia. exact Hn. }
  intros Hin. apply G in Hin. rewrite Nat.sub_0_r in Hin. apply Hin.
Qed.
Lemma enumerate_mem {A} (l : list A) a : In a l -> exists i, In (i, a) (enumerate l).
Proof.
  unfold enumerate. generalize 0%nat. induction l as [|x l IH]; intros off Hin; [contradiction|]. cbn [length seq zip]. destruct Hin as [->|Hin].
  - exists off. left. reflexivity.
  - destruct (IH (S off) Hin) as [i Hi]. exists i. right. exact Hi.
Qed.
Lemma map_enumerate_snd {A} (l : list A) : map snd (enumerate l) = l.
Proof. unfold enumerate. generalize 0%nat. induction l as [|x l IH]; intros off; [reflexivity|]. cbn [length seq zip map snd]. rewrite IH. reflexivity. Qed.

Lemma idx_worst_ok analog (p : list C) : p <> [] -> exists i a, idx_worst analog p = Ok i /\ nth_error p i = Some a.
Proof.
  intros Hn. unfold idx_worst. match goal with |- context [min_by_idx ?l] => destruct (min_by_idx_ok l) as [i [k [E' Hin]]] end.
  { destruct p; [contradiction|]. discriminate. }
  apply in_map_iff in Hin. destruct Hin as [[j a] [Ej Hin]]. injection Ej as Ej _. cbn [fst] in Ej. subst j.
  exists i, a. split; [exact E'|]. apply enumerate_in. exact Hin.
Qed.
Definition sel (w : WhichNearestComplex) (r : C) : bool := match w with WReal => isr r | WComplex => negb (isr r) | WAny => true end.
Lemma nearest_ok (l : list C) to w : (exists r, In r l /\ sel w r = true) ->
  exists i a, nearest_real_complex_idx_dyn l to w = Ok i /\ nth_error l i = Some a /\ sel w a = true.
Proof.
  intros [r [Hr Hs]]. unfold nearest_real_complex_idx_dyn. set (keep := match w with WReal => _ | WComplex => _ | WAny => _ end).
  assert (Ek : forall ia, In ia keep <-> In ia (enumerate l) /\ sel w (snd ia) = true).
  { intros ia. unfold keep. destruct w; cbn [sel]; [apply filter_In|apply filter_In|]. tauto. }
  match goal with |- context [min_by_idx ?l] => destruct (min_by_idx_ok l) as [i [k [E' Hin]]] end.
  { destruct (enumerate_mem l r Hr) as [i Hi]. assert (Hk : In (i, r) keep) by (apply Ek; split; assumption).
    destruct keep; [contradiction|discriminate]. }
  apply in_map_iff in Hin. destruct Hin as [[j a] [Ej Hin]]. injection Ej as Ej _. cbn [fst] in Ej. subst j.
  apply Ek in Hin. destruct Hin as [Hin Hsa]. exists i, a. split; [exact E'|]. split; [apply enumerate_in, Hin|exact Hsa].
Qed.
Lemma pick_worst analog (p : list C) : p <> [] ->
  exists i a p', idx_worst analog p = Ok i /\ remove_at p i = Ok (a, p') /\ Permutation p (a :: p').
Proof.
  intros Hn. destruct (idx_worst_ok analog p Hn) as [i [a [E' Hi]]]. destruct (remove_at_ok p i a Hi) as [p' [Er HP]].
  exists i, a, p'. auto.
Qed.
Lemma pick_nearest (l : list C) to w : (exists r, In r l /\ sel w r = true) ->
  exists i a l', nearest_real_complex_idx_dyn l to w = Ok i /\ remove_at l i = Ok (a, l') /\ Permutation l (a :: l') /\ sel w a = true.
Proof.
  intros Hex. destruct (nearest_ok l to w Hex) as [i [a [E' [Hi Hs]]]]. destruct (remove_at_ok l i a Hi) as [l' [Er HP]].
  exists i, a, l'. auto.
Qed.
Lemma pick_worst_real analog (p : list C) : count_real p <> 0%nat ->
  let preal := filter (fun ip => is_zero (cim (snd ip))) (enumerate p) in
  exists i ip a p', idx_worst analog (map snd preal) = Ok i /\ index preal i = Ok ip /\ remove_at p (fst ip) = Ok (a, p') /\
    Permutation p (a :: p') /\ isr a = true.
Proof.
  intros Hc preal. destruct (count_real_pos p Hc) as [r [Hr Er]]. destruct (enumerate_mem p r Hr) as [j Hj].
  assert (Hin : In (j, r) preal) by (apply filter_In; split; [exact Hj|exact Er]).
  destruct (idx_worst_ok analog (map snd preal)) as [i [a [E' Hi]]].
  { destruct preal; [contradiction|discriminate]. }
  rewrite nth_error_map in Hi. destruct (nth_error preal i) as [[j' a']|] eqn:En; [|discriminate]. cbn in Hi. injection Hi as ->.
  assert (Hin' := nth_error_In _ _ En). apply filter_In in Hin'. destruct Hin' as [Hin' Ha]. apply enumerate_in in Hin'.
  destruct (remove_at_ok p j' a Hin') as [p' [Erm HP]].
  exists i, (j', a), a, p'. split; [exact E'|]. split; [unfold index; rewrite En; reflexivity|]. split; [exact Erm|]. split; [exact HP|exact Ha].
Qed.

(** ** One section *)
Definition section_of (s : Sos R) (pp zz : list C) : Prop :=
  a0 s = 1 /\ zi0 s = 0 /\ zi1 s = 0 /\ forall x,
    rpoly_at [b0 s; b1 s; b2 s] x = (root_product zz x * cpow x (2 - length zz))%C /\
    rpoly_at [a0 s; a1 s; a2 s] x = (root_product pp x * cpow x (2 - length pp))%C.
Section One.
Variable epsilon : R.
Variable sort : forall A : Type, (A -> A -> bool) -> list A -> list A.
Hypothesis Hsort : is_sort sort.
Lemma single_ok z p : conj_closed z -> conj_closed p -> (length z <= 2)%nat -> (length p <= 2)%nat ->
  exists s, single_zpksos_dyn sort z p none = Ok s /\ section_of s p z.
Proof.
  intros Hz Hp Lz Lp. change none with 1. unfold single_zpksos_dyn. rewrite (zpk2tf_ok sort Hsort). cbn [bind ba_b ba_a].
  pose proof (padded_eval 2 1 z) as Ez. pose proof (padded_eval 2 1 p) as Epp.
  assert (A0 : nth 0 (padded_coef 2 1 p) 0 = 1).
  { unfold padded_coef. cbn [Nat.add seq map nth]. rewrite pcoef_head. cbn. ring. }
  unfold padded_coef in *. cbn [Nat.add seq map nth] in *. eexists. split; [reflexivity|].
  unfold section_of, Sos_new. cbn [M_Filter.b0 M_Filter.b1 M_Filter.b2 M_Filter.a0 M_Filter.a1 M_Filter.a2 zi0 zi1].
  split; [exact A0|]. split; [reflexivity|]. split; [reflexivity|]. intros x. rewrite (Ez x Hz Lz), (Epp x Hp Lp).
  change (RtoC 1) with C1. split; ring.
Qed.
Lemma conj_closed_pair r : conj_closed [r; cconj r].
Proof. unfold conj_closed. cbn [map]. rewrite cconj_conj. apply perm_swap. Qed.
Lemma conj_closed_reals l : Forall (fun r => isr r = true) l -> conj_closed l.
Proof.
  intros Hl. unfold conj_closed. replace (map cconj l) with l; [apply Permutation_refl|].
  induction Hl as [|r l Hr Hl IH]; [reflexivity|]. cbn [map]. rewrite <- IH. f_equal. apply isr_true in Hr. destruct r as [a b]. cbn in Hr. subst b.
  apply C_ext; cbn; [reflexivity|]. ring.
Qed.

Lemma step_even pairing analog p z sos n m : length (full p) = (2 * S n)%nat -> length (full z) = (2 * m)%nat ->
  exists pp p' zz z' s, pair_step sort pairing analog (p, z, sos) = Ok (p', z', sos ++ [s]) /\
    Permutation (full p) (pp ++ full p') /\ length pp = 2%nat /\
    Permutation (full z) (zz ++ full z') /\ length zz = (if (m =? 0)%nat then 0 else 2)%nat /\ section_of s pp zz.
Proof.
  intros Hp Hz. destruct (full_count p) as [cp Ecp]. destruct (full_count z) as [cz Ecz].
  assert (Hpn : p <> []) by (intros ->; discriminate Hp).
  destruct (pick_worst analog p Hpn) as [i1 [p1 [p' [E1 [E2 HP]]]]]. unfold pair_step. rewrite E1. cbn [bind]. rewrite E2. cbn [bind].
  pose proof (count_real_perm _ _ HP) as Cp. rewrite count_real_cons in Cp.
  change (is_zero (cim p1)) with (isr p1).
  (* the second pole *)
  assert (P2 : exists p2 p'', (if isr p1 then
        let! i := idx_worst analog (map snd (filter (fun ip => is_zero (cim (snd ip))) (enumerate p'))) in
        let! ip := index (filter (fun ip => is_zero (cim (snd ip))) (enumerate p')) i in remove_at p' (fst ip)
      else Ok (cconj p1, p')) = Ok (p2, p'') /\ Permutation (full p) ([p1; p2] ++ full p'') /\ conj_closed [p1; p2]).
  { destruct (isr p1) eqn:Er.
    - assert (Hc : count_real p' <> 0%nat) by (cbn in Cp; lia).
      destruct (pick_worst_real analog p' Hc) as [i [ip [p2 [p'' [F1 [F2 [F3 [HP' Er']]]]]]]]. exists p2, p''. rewrite F1. cbn [bind]. rewrite F2. cbn [bind].
      split; [exact F3|]. split.
      + eapply Permutation_trans; [apply full_perm; eapply Permutation_trans; [exact HP|apply perm_skip, HP']|]. rewrite !full_cons, Er, Er'. apply Permutation_refl.
      + apply conj_closed_reals. repeat constructor; assumption.
    - exists (cconj p1), p'. split; [reflexivity|]. split; [|apply conj_closed_pair].
      eapply Permutation_trans; [apply full_perm, HP|]. rewrite full_cons, Er. apply Permutation_refl. }
  destruct P2 as [p2 [p'' [EP2 [PP2 CC2]]]].
  replace (isr p1 && (count_real p' =? 0)%nat) with false.
  2:{ symmetry. apply andb_false_iff. destruct (isr p1); [right|left; reflexivity]. apply Nat.eqb_neq. cbn in Cp. lia. }
  replace ((length p' + 1 =? length z)%nat && negb (isr p1) && (count_real p' =? 1)%nat && (count_real z =? 1)%nat) with false.
  2:{ symmetry. destruct (isr p1); [rewrite andb_false_r; reflexivity|]. cbn in Cp.
      replace (count_real p' =? 1)%nat with false by (symmetry; apply Nat.eqb_neq; lia). rewrite !andb_false_r. reflexivity. }
  cbv zeta. rewrite EP2. cbn [bind].
  destruct (Nat.eqb_spec (length z) 0) as [Ez|Ez]; cbn [negb].
  - destruct z; [|discriminate]. destruct (single_ok [] [p1; p2]) as [s [Es Hs]]; try (cbn; lia); [apply Permutation_refl|exact CC2|].
    rewrite Es. cbn [bind]. exists [p1; p2], p'', [], [], s. repeat (split; [first [reflexivity|exact PP2|apply Permutation_refl]|]).
    split; [destruct m; [reflexivity|discriminate Hz]|exact Hs].
  - assert (Hm : (m =? 0)%nat = false).
    { apply Nat.eqb_neq. intros ->. apply Ez. rewrite (full_nil z) by exact Hz. reflexivity. }
    rewrite Hm. destruct (pick_nearest z p1 WAny) as [j1 [z1 [z' [G1 [G2 [HZ _]]]]]].
    { destruct z as [|r z0]; [contradiction Ez; reflexivity|]. exists r. split; reflexivity || (left; reflexivity). }
    rewrite G1. cbn [bind]. rewrite G2. cbn [bind]. change (is_zero (cim z1)) with (isr z1).
    pose proof (count_real_perm _ _ HZ) as Cz. rewrite count_real_cons in Cz. destruct (isr z1) eqn:Ez1; cbn [negb].
    + assert (Hc : count_real z' <> 0%nat) by lia. destruct (Nat.eqb_spec (length z') 0) as [Q|Q]; cbn [negb].
      { destruct z'; [|discriminate]. exact (False_ind _ (Hc eq_refl)). }
      destruct (pick_nearest z' p1 WReal (count_real_pos z' Hc)) as [j2 [z2 [z'' [K1 [K2 [HZ' Ez2]]]]]]. cbn [sel] in Ez2.
      rewrite K1. cbn [bind]. rewrite K2. cbn [bind]. change (is_zero (cim z2)) with (isr z2). rewrite Ez2. cbn [rassert bind].
      destruct (single_ok [z1; z2] [p1; p2]) as [s [Es Hs]]; try (cbn; lia); [apply conj_closed_reals; repeat constructor; assumption|exact CC2|].
      rewrite Es. cbn [bind]. exists [p1; p2], p'', [z1; z2], z'', s. repeat (split; [first [reflexivity|exact PP2]|]). split; [|split; [reflexivity|exact Hs]].
      eapply Permutation_trans; [apply full_perm; eapply Permutation_trans; [exact HZ|apply perm_skip, HZ']|]. rewrite !full_cons, Ez1, Ez2. apply Permutation_refl.
    + destruct (single_ok [z1; cconj z1] [p1; p2]) as [s [Es Hs]]; try (cbn; lia); [apply conj_closed_pair|exact CC2|].
      rewrite Es. cbn [bind]. exists [p1; p2], p'', [z1; cconj z1], z', s. repeat (split; [first [reflexivity|exact PP2]|]). split; [|split; [reflexivity|exact Hs]].
      eapply Permutation_trans; [apply full_perm, HZ|]. rewrite full_cons, Ez1. apply Permutation_refl.
Qed.

Lemma rp_perm l m x : Permutation l m -> root_product l x = root_product m x.
Proof. intros HP. rewrite <- !hom_1. apply hom_perm, HP. Qed.
Lemma rp_app l m x : root_product (l ++ m) x = (root_product l x * root_product m x)%C.
Proof. rewrite <- !hom_1. apply hom_app. Qed.
Definition fresh (s : Sos R) : Prop := a0 s = 1 /\ zi0 s = 0 /\ zi1 s = 0.

Lemma loop_even pairing analog n : forall m p z sos (idx : list nat), length (full p) = (2 * n)%nat -> length (full z) = (2 * m)%nat -> (m <= n)%nat -> length idx = n ->
  exists ss, rfold (fun st (_ : nat) => pair_step sort pairing analog st) idx (p, z, sos) = Ok ([], [], sos ++ ss) /\ length ss = n /\
    Forall fresh ss /\ forall x, sos_num ss x = (root_product (full z) x * cpow x (2 * (n - m)))%C /\ sos_den ss x = root_product (full p) x.
Proof.
  induction n as [|n IH]; intros m p z sos idx Hp Hz Hm Hi.
  - destruct idx; [|discriminate]. assert (m = 0)%nat by lia. subst m. rewrite (full_nil p Hp), (full_nil z Hz). exists []. rewrite app_nil_r.
    split; [reflexivity|]. split; [reflexivity|]. split; [constructor|]. intros x. cbn. split; cx.
  - destruct idx as [|i0 idx]; [discriminate|]. injection Hi as Hi. cbn [rfold].
    destruct (step_even pairing analog p z sos n m Hp Hz) as [pp [p' [zz [z' [s [E' [PP [Lp [ZZ [Lz Hs]]]]]]]]]]. rewrite E'. cbn [bind].
    pose proof (Permutation_length PP) as LP. pose proof (Permutation_length ZZ) as LZ. rewrite app_length in LP, LZ.
    destruct (IH (m - 1)%nat p' z' (sos ++ [s]) idx) as [ss [Er [Ls [Fs Hx]]]]; try lia.
    { destruct (Nat.eqb_spec m 0); lia. }
    exists (s :: ss). rewrite Er, <- app_assoc. split; [reflexivity|]. split; [cbn; lia|].
    destruct Hs as [S1 [S2 [S3 Sx]]]. split; [constructor; [split; [exact S1|split; assumption]|exact Fs]|]. intros x.
    specialize (Sx x). specialize (Hx x). destruct Sx as [Sn Sd]. destruct Hx as [Hn Hd].
    cbn [sos_num sos_den fold_right]. fold (sos_num ss x). fold (sos_den ss x). rewrite Sn, Sd, Hn, Hd, (rp_perm _ _ x PP), (rp_perm _ _ x ZZ), !rp_app, Lp, Lz.
    destruct (Nat.eqb_spec m 0) as [->|Q].
    + replace (2 * (S n - 0))%nat with ((2 - 0) + 2 * (n - (0 - 1)))%nat by lia. rewrite cpow_add. cbn [Nat.sub cpow]. split; ring.
    + replace (n - (m - 1))%nat with (S n - m)%nat by lia. cbn [Nat.sub cpow]. split; ring.
Qed.

(** *** An odd number, with one real pole: the two special cases *)
Lemma full_count' l : exists c, length (full l) = (count_real l + 2 * c)%nat /\ length l = (count_real l + c)%nat.
Proof.
  induction l as [|r l [c [IH IL]]]; [exists 0%nat; split; reflexivity|]. rewrite full_cons, app_length, count_real_cons. cbn [length].
  destruct (isr r); cbn [length].
  - exists c. lia.
  - exists (S c). lia.
Qed.
Lemma loop_one_real analog n : forall p z sos (idx : list nat), length (full p) = (2 * n + 1)%nat -> length (full z) = (2 * n + 1)%nat ->
  count_real p = 1%nat -> length idx = S n ->
  exists ss, rfold (fun st (_ : nat) => pair_step sort Minimal analog st) idx (p, z, sos) = Ok ([], [], sos ++ ss) /\ length ss = S n /\
    Forall fresh ss /\ forall x, sos_num ss x = (root_product (full z) x * x)%C /\ sos_den ss x = (root_product (full p) x * x)%C.
Proof.
  induction n as [n IH] using lt_wf_ind. intros p z sos idx Hp Hz Cp Hi.
  destruct idx as [|i0 idx]; [discriminate|]. injection Hi as Hi. cbn [rfold].
  destruct (full_count' p) as [cp [Ecp Lcp]]. destruct (full_count' z) as [cz [Ecz Lcz]].
  assert (Hpn : p <> []) by (intros ->; cbn in Hp; lia).
  destruct (pick_worst analog p Hpn) as [i1 [p1 [p' [E1 [E2 HP]]]]].
  pose proof (count_real_perm _ _ HP) as Cp'. rewrite count_real_cons in Cp'.
  pose proof (Permutation_length (full_perm _ _ HP)) as LP. rewrite full_cons, app_length in LP. pose proof (Permutation_length HP) as LP1. cbn [length] in LP1.
  assert (Step : exists pp zz z' s, pair_step sort Minimal analog (p, z, sos) = Ok (p', z', sos ++ [s]) /\
    Permutation (full p) (pp ++ full p') /\ Permutation (full z) (zz ++ full z') /\ length zz = length pp /\ (length pp = if isr p1 then 1 else 2)%nat /\
    fresh s /\ forall x, rpoly_at [b0 s; b1 s; b2 s] x = (root_product zz x * cpow x (2 - length pp))%C /\ rpoly_at [a0 s; a1 s; a2 s] x = (root_product pp x * cpow x (2 - length pp))%C).
  { unfold pair_step. rewrite E1. cbn [bind]. rewrite E2. cbn [bind]. change (is_zero (cim p1)) with (isr p1).
    destruct (isr p1) eqn:Er; cbn [length] in LP.
    - replace (count_real p' =? 0)%nat with true by (symmetry; apply Nat.eqb_eq; lia). cbn [andb is_minimal].
      destruct (pick_nearest z p1 WReal) as [j1 [z1 [z' [G1 [G2 [HZ Ez]]]]]]; [apply count_real_pos; lia|]. cbn [sel] in Ez.
      rewrite G1. cbn [bind]. rewrite G2. cbn [bind].
      assert (I0 : isr (@czero R RNum) = true) by (apply isr_true; reflexivity).
      destruct (single_ok [z1; czero] [p1; czero]) as [s [Es Hs]]; try (cbn; lia); [apply conj_closed_reals; repeat constructor; assumption|apply conj_closed_reals; repeat constructor; assumption|].
      rewrite Es. cbn [bind]. exists [p1], [z1], z', s. split; [reflexivity|]. split; [eapply Permutation_trans; [apply full_perm, HP|rewrite full_cons, Er; apply Permutation_refl]|].
      split; [eapply Permutation_trans; [apply full_perm, HZ|rewrite full_cons, Ez; apply Permutation_refl]|]. split; [reflexivity|]. split; [reflexivity|].
      destruct Hs as [S1 [S2 [S3 Sx]]]. split; [split; [exact S1|split; assumption]|]. intros x. destruct (Sx x) as [-> ->].
      cbn [length Nat.sub cpow root_product fold_right]. change (@czero R RNum) with C0. split; ring.
    - cbn [andb negb].
      assert (PPp : Permutation (full p) ([p1; cconj p1] ++ full p')) by (eapply Permutation_trans; [apply full_perm, HP|rewrite full_cons, Er; apply Permutation_refl]).
      assert (Out : forall zz z' , conj_closed zz -> length zz = 2%nat -> Permutation (full z) (zz ++ full z') ->
        exists pp zz0 z'0 s, (let! s := single_zpksos_dyn sort zz [p1; cconj p1] none in Ok (p', z', sos ++ [s])) = Ok (p', z'0, sos ++ [s]) /\
          Permutation (full p) (pp ++ full p') /\ Permutation (full z) (zz0 ++ full z'0) /\ length zz0 = length pp /\ length pp = 2%nat /\ fresh s /\
          forall x, rpoly_at [b0 s; b1 s; b2 s] x = (root_product zz0 x * cpow x (2 - length pp))%C /\ rpoly_at [a0 s; a1 s; a2 s] x = (root_product pp x * cpow x (2 - length pp))%C).
      { intros zz z' Hcz Lz HPz. destruct (single_ok zz [p1; cconj p1]) as [s [Es Hs]]; [exact Hcz|apply conj_closed_pair|lia|cbn; lia|].
        rewrite Es. cbn [bind]. exists [p1; cconj p1], zz, z', s. split; [reflexivity|]. split; [exact PPp|]. split; [exact HPz|]. split; [exact Lz|]. split; [reflexivity|].
        destruct Hs as [S1 [S2 [S3 Sx]]]. split; [split; [exact S1|split; assumption]|]. intros x. destruct (Sx x) as [-> ->]. rewrite Lz. split; reflexivity. }
      destruct ((length p' + 1 =? length z)%nat && true && (count_real p' =? 1)%nat && (count_real z =? 1)%nat) eqn:Esp.
      + apply andb_true_iff in Esp. destruct Esp as [_ Cz]. apply Nat.eqb_eq in Cz.
        destruct (pick_nearest z p1 WComplex) as [j1 [z1 [z' [G1 [G2 [HZ Ez]]]]]].
        { destruct (existsb (fun r => negb (isr r)) z) eqn:Ex; [apply existsb_exists in Ex; exact Ex|]. exfalso.
          assert (F1 : forall r, In r z -> isr r = true).
          { intros r Hr. destruct (isr r) eqn:Q; [reflexivity|]. exfalso. assert (existsb (fun r => negb (isr r)) z = true) by (apply existsb_exists; exists r; rewrite Q; auto). congruence. }
          assert (length (full z) = length z) by (rewrite full_real; [reflexivity|]; apply Forall_forall; intros r Hr; apply isr_true, F1, Hr). lia. }
        cbn [sel] in Ez. apply negb_true_iff in Ez. rewrite G1. cbn [bind]. rewrite G2. cbn [bind].
        apply Out; [apply conj_closed_pair|reflexivity|]. eapply Permutation_trans; [apply full_perm, HZ|rewrite full_cons, Ez; apply Permutation_refl].
      + assert (Cz3 : (3 <= count_real z)%nat).
        { destruct (Nat.eq_dec (count_real z) 1) as [Q|Q]; [|lia]. exfalso.
          replace (length p' + 1 =? length z)%nat with true in Esp by (symmetry; apply Nat.eqb_eq; lia).
          replace (count_real p' =? 1)%nat with true in Esp by (symmetry; apply Nat.eqb_eq; lia). rewrite Q in Esp. discriminate Esp. }
        cbn [bind]. destruct (Nat.eqb_spec (length z) 0) as [Q|Q]; [lia|]. cbn [negb].
        destruct (pick_nearest z p1 WAny) as [j1 [z1 [z' [G1 [G2 [HZ _]]]]]].
        { destruct z as [|r z0]; [cbn in Q; lia|]. exists r. split; [left; reflexivity|reflexivity]. }
        rewrite G1. cbn [bind]. rewrite G2. cbn [bind]. change (is_zero (cim z1)) with (isr z1).
        pose proof (count_real_perm _ _ HZ) as Cz'. rewrite count_real_cons in Cz'. destruct (isr z1) eqn:Ez1; cbn [negb].
        * assert (Hc : count_real z' <> 0%nat) by lia. destruct (Nat.eqb_spec (length z') 0) as [Q'|Q']; cbn [negb].
          { destruct z'; [|discriminate]. exact (False_ind _ (Hc eq_refl)). }
          destruct (pick_nearest z' p1 WReal (count_real_pos z' Hc)) as [j2 [z2 [z'' [K1 [K2 [HZ' Ez2]]]]]]. cbn [sel] in Ez2.
          rewrite K1. cbn [bind]. rewrite K2. cbn [bind]. change (is_zero (cim z2)) with (isr z2). rewrite Ez2. cbn [rassert bind].
          apply Out; [apply conj_closed_reals; repeat constructor; assumption|reflexivity|].
          eapply Permutation_trans; [apply full_perm; eapply Permutation_trans; [exact HZ|apply perm_skip, HZ']|]. rewrite !full_cons, Ez1, Ez2. apply Permutation_refl.
        * apply Out; [apply conj_closed_pair|reflexivity|]. eapply Permutation_trans; [apply full_perm, HZ|rewrite full_cons, Ez1; apply Permutation_refl]. }
  destruct Step as [pp [zz [z' [s [Es [PP [ZZ [Lz [Lp [Hs Sx]]]]]]]]]]. rewrite Es. cbn [bind].
  pose proof (Permutation_length ZZ) as LZ. rewrite app_length, Lz, Lp in LZ.
  destruct (isr p1); cbn [length] in LP.
  - destruct (loop_even Minimal analog n n p' z' (sos ++ [s]) idx) as [ss [Ers [Ls [Fs Hx]]]]; try lia.
    exists (s :: ss). rewrite Ers, <- app_assoc. split; [reflexivity|]. split; [cbn; lia|]. split; [constructor; assumption|].
    intros x. cbn [sos_num sos_den fold_right]. fold (sos_num ss x). fold (sos_den ss x). destruct (Sx x) as [-> ->]. destruct (Hx x) as [-> ->].
    rewrite (rp_perm _ _ x PP), (rp_perm _ _ x ZZ), !rp_app, Lp. replace (2 * (n - n))%nat with 0%nat by lia. cbn [Nat.sub cpow]. split; ring.
  - destruct n as [|n]; [lia|]. destruct (IH n (Nat.lt_succ_diag_r n) p' z' (sos ++ [s]) idx) as [ss [Ers [Ls [Fs Hx]]]]; try lia.
    exists (s :: ss). rewrite Ers, <- app_assoc. split; [reflexivity|]. split; [cbn; lia|]. split; [constructor; assumption|].
    intros x. cbn [sos_num sos_den fold_right]. fold (sos_num ss x). fold (sos_den ss x). destruct (Sx x) as [-> ->]. destruct (Hx x) as [-> ->].
    rewrite (rp_perm _ _ x PP), (rp_perm _ _ x ZZ), !rp_app, Lp. cbn [Nat.sub cpow]. split; ring.
Qed.

(** *** An odd number of poles and no zero: the last real pole finds no partner *)
Lemma loop_odd_panics analog n : forall p sos (idx : list nat), length (full p) = (2 * n + 1)%nat -> length idx = S n ->
  rfold (fun st (_ : nat) => pair_step sort Minimal analog st) idx (p, [], sos) = Panic.
Proof.
  induction n as [n IH] using lt_wf_ind. intros p sos idx Hp Hi.
  destruct idx as [|i0 idx]; [discriminate|]; injection Hi as Hi; cbn [rfold].
  destruct (full_count' p) as [cp [Ecp Lcp]]. assert (Hpn : p <> []) by (intros ->; cbn in Hp; lia).
  destruct (pick_worst analog p Hpn) as [i1 [p1 [p' [E1 [E2 HP]]]]]; unfold pair_step at 1; rewrite E1; cbn [bind]; rewrite E2; cbn [bind].
  pose proof (count_real_perm _ _ HP) as Cp'; rewrite count_real_cons in Cp'; change (is_zero (cim p1)) with (isr p1).
  pose proof (Permutation_length (full_perm _ _ HP)) as LP; rewrite full_cons, app_length in LP.
  destruct (isr p1) eqn:Er; cbn [length] in LP.
  - destruct (Nat.eqb_spec (count_real p') 0) as [Q|Q]; cbn [andb is_minimal]; [reflexivity|].
    rewrite !andb_false_r. cbn [andb]. destruct (pick_worst_real analog p' Q) as [i [ip [p2 [p'' [F1 [F2 [F3 [HP' Er']]]]]]]]. cbv zeta. rewrite F1. cbn [bind]. rewrite F2. cbn [bind]. rewrite F3. cbn [bind length Nat.eqb negb].
    destruct (single_ok [] [p1; p2]) as [s [Es Hs]]; try (cbn; lia); [apply Permutation_refl|apply conj_closed_reals; repeat constructor; assumption|].
    rewrite Es. cbn [bind]. pose proof (Permutation_length (full_perm _ _ HP')) as LP'; rewrite full_cons, Er', app_length in LP'. cbn [length] in LP'.
    destruct n as [|n]; [lia|]. apply (IH n); lia.
  - replace (length p' + 1 =? length (@nil C))%nat with false by (symmetry; apply Nat.eqb_neq; cbn; lia). cbn [andb bind length Nat.eqb negb].
    destruct (single_ok [] [p1; cconj p1]) as [s [Es Hs]]; try (cbn; lia); [apply Permutation_refl|apply conj_closed_pair|].
    rewrite Es. cbn [bind]. destruct n as [|n]; [lia|]. apply (IH n); lia.
Qed.
End One.

(** ** The whole function *)
Lemma sos_num_cons s l x : sos_num (s :: l) x = (rpoly_at [b0 s; b1 s; b2 s] x * sos_num l x)%C.
Proof. reflexivity. Qed.
Lemma sos_den_cons s l x : sos_den (s :: l) x = (rpoly_at [a0 s; a1 s; a2 s] x * sos_den l x)%C.
Proof. reflexivity. Qed.
Lemma sos_num_app l m x : sos_num (l ++ m) x = (sos_num l x * sos_num m x)%C.
Proof. induction l as [|s l IH]; [cbn [app]; change (sos_num [] x) with C1; ring|]. cbn [app]. rewrite !sos_num_cons, IH. ring. Qed.
Lemma sos_den_app l m x : sos_den (l ++ m) x = (sos_den l x * sos_den m x)%C.
Proof. induction l as [|s l IH]; [cbn [app]; change (sos_den [] x) with C1; ring|]. cbn [app]. rewrite !sos_den_cons, IH. ring. Qed.
Lemma sos_num_rev l x : sos_num (rev l) x = sos_num l x.
Proof. induction l as [|s l IH]; [reflexivity|]. cbn [rev]. rewrite sos_num_app, IH, !sos_num_cons. change (sos_num [] x) with C1. ring. Qed.
Lemma sos_den_rev l x : sos_den (rev l) x = sos_den l x.
Proof. induction l as [|s l IH]; [reflexivity|]. cbn [rev]. rewrite sos_den_app, IH, !sos_den_cons. change (sos_den [] x) with C1. ring. Qed.
Lemma rpoly3 a b c x : rpoly_at [a; b; c] x = (RtoC a * (x * x) + RtoC b * x + RtoC c)%C.
Proof. unfold rpoly_at, poly_at. cbn [map length csum nth Nat.sub cpow]. ring. Qed.

Definition with_gain (k : R) (s : Sos R) : Sos R :=
  mkSos (b0 s * k) (b1 s * k) (b2 s * k) (a0 s) (a1 s) (a2 s) (zi0 s) (zi1 s).
Lemma with_gain_num k s x : rpoly_at [b0 (with_gain k s); b1 (with_gain k s); b2 (with_gain k s)] x = (RtoC k * rpoly_at [b0 s; b1 s; b2 s] x)%C.
Proof. rewrite !rpoly3. cbn [with_gain M_Filter.b0 M_Filter.b1 M_Filter.b2]. rewrite !RtoC_mul. ring. Qed.

Lemma repeat_conj n : map cconj (repeat (@czero R RNum) n) = repeat czero n.
Proof. induction n as [|n IH]; [reflexivity|]. cbn [repeat map]. rewrite IH. f_equal. apply cconj_0. Qed.
Lemma conj_closed_pad l n : conj_closed l -> conj_closed (l ++ repeat czero n).
Proof. unfold conj_closed. intros Hl. rewrite map_app, repeat_conj. apply Permutation_app_tail, Hl. Qed.
Lemma separated_pad eps l n : separated eps l -> separated eps (l ++ repeat czero n).
Proof.
  intros Hl. apply Forall_app. split; [exact Hl|]. apply Forall_forall. intros r Hr. apply repeat_spec in Hr. subst r. left. reflexivity.
Qed.
Lemma rp_pad l n x : root_product (l ++ repeat czero n) x = (root_product l x * cpow x n)%C.
Proof. rewrite rp_app. f_equal. rewrite <- hom_1, hom_repeat. change (@czero R RNum) with C0. f_equal. ring. Qed.

Section Whole.
Variable epsilon : R.
Hypothesis He : 0 <= epsilon.
Variable sort : forall A : Type, (A -> A -> bool) -> list A -> list A.
Hypothesis Hsort : is_sort sort.

Lemma cplxreal_full z : conj_closed z -> separated epsilon z ->
  exists zc zr, cplxreal_dyn epsilon sort z None = Ok (zc, zr) /\ Permutation z (full (zc ++ zr)) /\ count_real (zc ++ zr) = length (filter isr z).
Proof.
  intros Hc Hs. destruct (cplxreal_ok epsilon He sort Hsort z Hc Hs) as [zc [zr [E' [Fc [Fr HP]]]]]. exists zc, zr. split; [exact E'|]. split.
  - eapply Permutation_trans; [exact HP|]. rewrite full_app, app_assoc, (full_real zr Fr). apply Permutation_app_tail, Permutation_sym, full_pos, Fc.
  - rewrite (Permutation_length (filter_perm isr _ _ HP)). unfold count_real. change (fun pi : cplx R => is_zero (cim pi)) with isr.
    rewrite !filter_app, !app_length. replace (filter isr (map cconj zc)) with (@nil C); [reflexivity|].
    symmetry. clear - Fc. induction Fc as [|r l Hr Hl IH]; [reflexivity|]. cbn [map filter]. replace (isr (cconj r)) with false; [exact IH|].
    symmetry. apply isr_false. cbn. change (snd r) with (cim r). lra.
Qed.

(** The part after padding, for either loop lemma: [Lp]/[Lz] are what the loop yields. *)
Definition body n pairing analog (z p : list C) (k : R) : res (list (Sos R)) :=
  let! (zc, zr) := cplxreal_dyn epsilon sort z None in
  let! (pc, pr) := cplxreal_dyn epsilon sort p None in
  let! (p, z, sos) := rfold (fun st (_ : nat) => pair_step sort pairing analog st) (seq 0 n) (pc ++ pr, zc ++ zr, []) in
  let sos := rev sos in
  let! _ := rassert (Nat.eqb (length p) (length z)) in
  let! _ := rassert (Nat.eqb (length p) 0) in
  match sos with
  | [] => Panic
  | s :: rest => Ok (with_gain k s :: rest)
  end.
Lemma gain_first ss k : ss <> [] -> Forall fresh ss ->
  exists s r, rev ss = s :: r /\ Forall fresh (with_gain k s :: r) /\ length (with_gain k s :: r) = length ss /\
  (forall x, sos_num (with_gain k s :: r) x = (RtoC k * sos_num ss x)%C /\ sos_den (with_gain k s :: r) x = sos_den ss x).
Proof.
  intros Hn Hf. assert (Hr : Forall fresh (rev ss)) by (apply Forall_rev, Hf). destruct (rev ss) as [|s r] eqn:Er.
  { exfalso. apply Hn. rewrite <- (rev_involutive ss), Er. reflexivity. }
  exists s, r. split; [reflexivity|]. split; [inversion Hr; subst; constructor; [|assumption]; destruct s; exact H1|]. split.
  { rewrite <- (rev_length ss), Er. reflexivity. }
  intros x. split.
  - rewrite sos_num_cons, with_gain_num, <- (sos_num_rev ss), Er, sos_num_cons. ring.
  - rewrite <- (sos_den_rev ss), Er, !sos_den_cons. reflexivity.
Qed.
Lemma body_even pairing analog n m z p k : real_filter (mkZpk z p k) -> separated epsilon z -> separated epsilon p ->
  length p = (2 * S n)%nat -> length z = (2 * m)%nat -> (m <= S n)%nat ->
  exists sos, body (S n) pairing analog z p k = Ok sos /\ length sos = S n /\ Forall fresh sos /\
    forall x, sos_num sos x = (RtoC k * root_product z x * cpow x (2 * (S n - m)))%C /\ sos_den sos x = root_product p x.
Proof.
  intros [Hcz Hcp] Hsz Hsp Lp Lz Hm. cbn [zk_z zk_p] in *. unfold body.
  destruct (cplxreal_full z Hcz Hsz) as [zc [zr [-> [PZ _]]]]. destruct (cplxreal_full p Hcp Hsp) as [pc [pr [-> [PP _]]]]. cbn [bind].
  destruct (loop_even sort Hsort pairing analog (S n) m (pc ++ pr) (zc ++ zr) [] (seq 0 (S n))) as [ss [-> [Ls [Fs Hx]]]].
  - rewrite <- (Permutation_length PP). exact Lp.
  - rewrite <- (Permutation_length PZ). exact Lz.
  - exact Hm.
  - apply seq_length.
  - cbn [bind length Nat.eqb rassert app].
    destruct (gain_first ss k) as [s [r [-> [Fg [Lg Hg]]]]]; [intros ->; discriminate Ls|exact Fs|].
    eexists. split; [reflexivity|]. split; [lia|]. split; [exact Fg|]. intros x. destruct (Hg x) as [-> ->]. destruct (Hx x) as [-> ->].
    rewrite <- (rp_perm _ _ x PZ), <- (rp_perm _ _ x PP). split; [ring|reflexivity].
Qed.
Lemma body_one_real analog n z p k : real_filter (mkZpk z p k) -> separated epsilon z -> separated epsilon p ->
  length p = (2 * n + 1)%nat -> length z = (2 * n + 1)%nat -> length (filter isr p) = 1%nat ->
  exists sos, body (S n) Minimal analog z p k = Ok sos /\ length sos = S n /\ Forall fresh sos /\
    forall x, sos_num sos x = (RtoC k * root_product z x * x)%C /\ sos_den sos x = (root_product p x * x)%C.
Proof.
  intros [Hcz Hcp] Hsz Hsp Lp Lz Cp. cbn [zk_z zk_p] in *. unfold body.
  destruct (cplxreal_full z Hcz Hsz) as [zc [zr [-> [PZ QZ]]]]. destruct (cplxreal_full p Hcp Hsp) as [pc [pr [-> [PP QP]]]]. cbn [bind].
  destruct (loop_one_real sort Hsort analog n (pc ++ pr) (zc ++ zr) [] (seq 0 (S n))) as [ss [-> [Ls [Fs Hx]]]].
  - rewrite <- (Permutation_length PP). exact Lp.
  - rewrite <- (Permutation_length PZ). exact Lz.
  - rewrite QP. exact Cp.
  - apply seq_length.
  - cbn [bind length Nat.eqb rassert app].
    destruct (gain_first ss k) as [s [r [-> [Fg [Lg Hg]]]]]; [intros ->; discriminate Ls|exact Fs|].
    eexists. split; [reflexivity|]. split; [lia|]. split; [exact Fg|]. intros x. destruct (Hg x) as [-> ->]. destruct (Hx x) as [-> ->].
    rewrite <- (rp_perm _ _ x PZ), <- (rp_perm _ _ x PP). split; ring.
Qed.
Lemma body_odd_panics analog n p k : conj_closed p -> separated epsilon p -> length p = (2 * n + 1)%nat ->
  body (S n) Minimal analog [] p k = Panic.
Proof.
  intros Hcp Hsp Lp. unfold body. cbn [cplxreal_dyn bind app]. destruct (cplxreal_full p Hcp Hsp) as [pc [pr [-> [PP _]]]]. cbn [bind].
  rewrite (loop_odd_panics sort Hsort analog n); [reflexivity| |apply seq_length]. rewrite <- (Permutation_length PP). exact Lp.
Qed.

Lemma zpk2sos_body order f pairing analog : (length (zk_z f) <> 0 \/ length (zk_p f) <> 0)%nat ->
  let analog' := unwrap_or analog false in
  let pairing' := unwrap_or pairing (if analog' then Minimal else Nearest) in
  analog' && negb (is_minimal pairing') = false ->
  zpk2sos_dyn epsilon sort order f pairing analog =
  (let! (n, z, p) := pad_zp pairing' (zk_z f) (zk_p f) in body n pairing' analog' z p (zk_k f)).
Proof.
  intros Hne analog' pairing' Hm. unfold zpk2sos_dyn. fold analog'. fold pairing'. rewrite Hm.
  replace ((length (zk_z f) =? 0)%nat && (length (zk_p f) =? 0)%nat) with false.
  2:{ symmetry. apply andb_false_iff. destruct Hne as [Q|Q]; [left|right]; apply Nat.eqb_neq; exact Q. }
  reflexivity.
Qed.

Theorem zpk2sos_nearest order f pairing analog :
  real_filter f -> separated epsilon (zk_z f) -> separated epsilon (zk_p f) ->
  (analog <> Some true) -> (pairing = None \/ pairing = Some Nearest) ->
  let L := Nat.max 1 ((Nat.max (length (zk_z f)) (length (zk_p f)) + 1) / 2) in
  exists sos, zpk2sos_dyn epsilon sort order f pairing analog = Ok sos /\ length sos = L /\ Forall fresh sos /\
    forall x, sos_num sos x = (RtoC (zk_k f) * root_product (zk_z f) x * cpow x (2 * L - length (zk_z f)))%C /\
              sos_den sos x = (root_product (zk_p f) x * cpow x (2 * L - length (zk_p f)))%C.
Proof.
  intros [Hcz Hcp] Hsz Hsp Ha Hpr L.
  assert (Ea : unwrap_or analog false = false) by (destruct analog as [[|]|]; [contradiction Ha; reflexivity|reflexivity|reflexivity]).
  assert (Ep : unwrap_or pairing (if unwrap_or analog false then Minimal else Nearest) = Nearest) by (rewrite Ea; destruct Hpr as [->| ->]; reflexivity).
  destruct f as [z p k]. cbn [zk_z zk_p zk_k] in *.
  destruct (Nat.eq_dec (Nat.max (length z) (length p)) 0) as [E0|E0].
  { assert (z = []) by (apply length_zero_iff_nil; lia). assert (p = []) by (apply length_zero_iff_nil; lia). subst z p.
    unfold zpk2sos_dyn. rewrite Ep, Ea. cbn [andb is_minimal negb zk_z zk_p length Nat.eqb zk_k].
    eexists. split; [reflexivity|]. split; [reflexivity|]. split; [constructor; [split; [reflexivity|split; reflexivity]|constructor]|].
    intros x. rewrite sos_num_cons, sos_den_cons, !rpoly3. cbn [Sos_new M_Filter.b0 M_Filter.b1 M_Filter.b2 M_Filter.a0 M_Filter.a1 M_Filter.a2].
    cbn. change (RtoC nzero) with C0. change (RtoC none) with C1. split; cx; ring. }
  rewrite zpk2sos_body; cbn [zk_z zk_p zk_k]; [|lia|rewrite Ea; reflexivity].
  rewrite Ep, Ea. unfold pad_zp. cbn [is_minimal negb]. rewrite !app_length, !repeat_length.
  set (M := Nat.max (length z) (length p)) in *.
  assert (Hdiv : exists q, (M + 1 = 2 * S q \/ M + 1 = 2 * S q + 1)%nat).
  { exists ((M + 1) / 2 - 1)%nat. pose proof (Nat.div_mod (M + 1) 2 ltac:(lia)). pose proof (Nat.mod_upper_bound (M + 1) 2 ltac:(lia)).
    assert (1 <= (M + 1) / 2)%nat by (apply Nat.div_le_lower_bound; lia). lia. }
  destruct Hdiv as [q Hq].
  assert (Eq2 : ((M + 1) / 2 = S q)%nat).
  { destruct Hq as [Hq|Hq]; rewrite Hq; [rewrite Nat.mul_comm; apply Nat.div_mul; lia|rewrite Nat.mul_comm, Nat.div_add_l by lia; cbn; lia]. }
  assert (EL : L = S q) by (unfold L; rewrite Eq2; lia).
  replace (Nat.max (length p + (length z - length p)) (length z + (length p + (length z - length p) - length z))) with M by lia. rewrite Eq2.
  replace (length p + (length z - length p))%nat with M by lia.
  assert (PZ : exists nz np, (if Nat.odd M then ((z ++ repeat czero (M - length z)) ++ [czero], (p ++ repeat czero (length z - length p)) ++ [czero]) else (z ++ repeat czero (M - length z), p ++ repeat czero (length z - length p)))
     = (z ++ repeat (@czero R RNum) nz, p ++ repeat (@czero R RNum) np) /\ (length z + nz = 2 * S q)%nat /\ (length p + np = 2 * S q)%nat).
  { destruct (Nat.odd M) eqn:Eo.
    - apply Nat.odd_spec in Eo. destruct Eo as [w Ew].
      exists (M - length z + 1)%nat, (length z - length p + 1)%nat. rewrite !repeat_app, !app_assoc. split; [reflexivity|]. lia.
    - assert (Ee : Nat.even M = true) by (rewrite <- Nat.negb_odd, Eo; reflexivity). apply Nat.even_spec in Ee. destruct Ee as [w Ew].
      exists (M - length z)%nat, (length z - length p)%nat. split; [reflexivity|]. lia. }
  destruct PZ as [nz [np [-> [Lz Lp]]]]. rewrite !app_length, !repeat_length, Lz, Lp, Nat.eqb_refl. cbn [rassert bind].
  destruct (body_even Nearest false q (S q) (z ++ repeat czero nz) (p ++ repeat czero np) k) as [sos [E' [Ls [Fs Hx]]]].
  { split; cbn [zk_z zk_p]; apply conj_closed_pad; assumption. }
  { apply separated_pad, Hsz. } { apply separated_pad, Hsp. }
  { rewrite app_length, repeat_length. exact Lp. } { rewrite app_length, repeat_length. exact Lz. } { lia. }
  exists sos. split; [exact E'|]. split; [lia|]. split; [exact Fs|]. intros x. destruct (Hx x) as [-> ->]. rewrite !rp_pad, EL.
  replace (2 * (S q - S q))%nat with 0%nat by lia. replace (2 * S q - length z)%nat with nz by lia. replace (2 * S q - length p)%nat with np by lia.
  cbn [cpow]. split; ring.
Qed.

(** Minimal pairing. *)
Definition minimal_pairing (pairing : option ZpkPairing) (analog : option bool) : Prop :=
  pairing = Some Minimal \/ (pairing = None /\ analog = Some true).
Lemma zpk2sos_minimal_body order f pairing analog : minimal_pairing pairing analog ->
  (length (zk_p f) <> 0)%nat -> proper f ->
  zpk2sos_dyn epsilon sort order f pairing analog =
  body ((length (zk_p f) + 1) / 2) Minimal (unwrap_or analog false) (zk_z f) (zk_p f) (zk_k f).
Proof.
  intros Hm Hp Hpr.
  assert (Ep : unwrap_or pairing (if unwrap_or analog false then Minimal else Nearest) = Minimal) by (destruct Hm as [->|[-> ->]]; reflexivity).
  rewrite zpk2sos_body; [|right; exact Hp|rewrite Ep; apply andb_false_r]. rewrite Ep. unfold pad_zp. cbn [is_minimal negb].
  unfold proper in Hpr. destruct (Nat.ltb_spec (length (zk_p f)) (length (zk_z f))); [lia|]. reflexivity.
Qed.
Theorem zpk2sos_minimal_even order f pairing analog n m : minimal_pairing pairing analog ->
  real_filter f -> separated epsilon (zk_z f) -> separated epsilon (zk_p f) ->
  length (zk_p f) = (2 * S n)%nat -> length (zk_z f) = (2 * m)%nat -> (m <= S n)%nat ->
  exists sos, zpk2sos_dyn epsilon sort order f pairing analog = Ok sos /\ length sos = S n /\ Forall fresh sos /\
    forall x, sos_num sos x = (RtoC (zk_k f) * root_product (zk_z f) x * cpow x (length (zk_p f) - length (zk_z f)))%C /\
              sos_den sos x = root_product (zk_p f) x.
Proof.
  intros Hm Hr Hsz Hsp Lp Lz Hmn. rewrite zpk2sos_minimal_body; [|exact Hm|lia|unfold proper; lia].
  replace ((length (zk_p f) + 1) / 2)%nat with (S n) by (rewrite Lp, Nat.mul_comm, Nat.div_add_l by lia; cbn; lia).
  destruct f as [z p k]. cbn [zk_z zk_p zk_k] in *.
  destruct (body_even Minimal (unwrap_or analog false) n m z p k) as [sos [E' [Ls [Fs Hx]]]]; try assumption.
  exists sos. split; [exact E'|]. split; [exact Ls|]. split; [exact Fs|]. intros x. destruct (Hx x) as [-> ->].
  replace (length p - length z)%nat with (2 * (S n - m))%nat by lia. split; reflexivity.
Qed.
Theorem zpk2sos_minimal_one_real order f pairing analog n : minimal_pairing pairing analog ->
  real_filter f -> separated epsilon (zk_z f) -> separated epsilon (zk_p f) ->
  length (zk_p f) = (2 * n + 1)%nat -> length (zk_z f) = (2 * n + 1)%nat ->
  length (filter isr (zk_p f)) = 1%nat ->
  exists sos, zpk2sos_dyn epsilon sort order f pairing analog = Ok sos /\ length sos = S n /\ Forall fresh sos /\
    forall x, sos_num sos x = (RtoC (zk_k f) * root_product (zk_z f) x * x)%C /\
              sos_den sos x = (root_product (zk_p f) x * x)%C.
Proof.
  intros Hm Hr Hsz Hsp Lp Lz Cp. rewrite zpk2sos_minimal_body; [|exact Hm|lia|unfold proper; lia].
  rewrite Lp. replace ((2 * n + 1 + 1) / 2)%nat with (S n) by (replace (2 * n + 1 + 1)%nat with (S n * 2)%nat by lia; symmetry; apply Nat.div_mul; lia).
  destruct f as [z p k]. cbn [zk_z zk_p zk_k] in *. apply body_one_real; assumption.
Qed.
Theorem zpk2sos_minimal_odd_panics order p k pairing analog n : minimal_pairing pairing analog ->
  conj_closed p -> separated epsilon p -> length p = (2 * n + 1)%nat ->
  zpk2sos_dyn epsilon sort order (mkZpk [] p k) pairing analog = Panic.
Proof.
  intros Hm Hc Hs Lp. rewrite zpk2sos_minimal_body; cbn [zk_z zk_p zk_k]; [|exact Hm|lia|unfold proper; cbn; lia].
  rewrite Lp. replace ((2 * n + 1 + 1) / 2)%nat with (S n) by (replace (2 * n + 1 + 1)%nat with (S n * 2)%nat by lia; symmetry; apply Nat.div_mul; lia).
  apply body_odd_panics; assumption.
Qed.
End Whole.
