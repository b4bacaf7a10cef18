(** Sign symmetry of IEEE 754 arithmetic, and of the functions built from it. *)
From Coq Require Import ZArith SpecFloat List Bool Lia Arith.
From Verif Require Import Base Num M_Filter M_Stats S_Filter S_Mirror ListUtil P_Ext P_Sosfilt P_Filtfilt.
Import ListNotations.

Section M.
Variables prec emax : Z.
Notation "a ⊕ b" := (SFadd prec emax a b) (at level 50, left associativity).
Notation "a ⊖ b" := (SFsub prec emax a b) (at level 50, left associativity).
Notation "a ⊗ b" := (SFmul prec emax a b) (at level 40, left associativity).
Notation "a ⊘ b" := (SFdiv prec emax a b) (at level 40, left associativity).

Lemma signed_refl x : signed false x x.
Proof. destruct x as [s|s| |s m e]; cbn; auto; destruct s; auto. Qed.
Lemma round_aux_signed f s t m e l : t = xorb f s -> signed f (binary_round_aux prec emax s m e l) (binary_round_aux prec emax t m e l).
Proof.
  intros ->. unfold binary_round_aux. destruct (shr_fexp prec emax m e l) as [m1 e1]. destruct (shr_fexp prec emax _ e1 loc_Exact) as [m2 e2].
  destruct (shr_m m2) as [|p|p]; [exact I| |exact I]. destruct (Z.leb e2 (emax - prec)); cbn; auto.
Qed.
Lemma normalize_signed f m m' e z z' : m' = cond_Zopp f m -> signed f (binary_normalize prec emax m e z) (binary_normalize prec emax m' e z').
Proof.
  intros ->. destruct f; destruct m as [|p|p]; cbn [cond_Zopp Z.opp binary_normalize]; try exact I;
    unfold binary_round; destruct (shl_align p e _) as [mz ez]; apply round_aux_signed; reflexivity.
Qed.
Lemma cond_xorb f s z : cond_Zopp (xorb f s) z = cond_Zopp f (cond_Zopp s z).
Proof. destruct f, s; cbn [cond_Zopp xorb]; lia. Qed.
Lemma add_signed f x x' y y' : signed f x x' -> signed f y y' -> signed f (x ⊕ y) (x' ⊕ y').
Proof.
  intros A B. destruct x as [s|s| |s m e], x' as [s'|s'| |s' m' e']; try contradiction; destruct y as [t|t| |t n g], y' as [t'|t'| |t' n' g']; try contradiction; cbn in A, B |- *; try exact I;
    repeat match goal with H : _ /\ _ |- _ => destruct H end; subst; auto.
  - destruct (Bool.eqb s t), (Bool.eqb s' t'); exact I.
  - assert (E : Bool.eqb (xorb f s) (xorb f t) = Bool.eqb s t) by (destruct f, s, t; reflexivity). rewrite E. destruct (Bool.eqb s t); cbn; auto.
  - apply normalize_signed. rewrite !cond_xorb. destruct f; cbn [cond_Zopp]; lia.
Qed.
Lemma sub_signed f x x' y y' : signed f x x' -> signed f y y' -> signed f (x ⊖ y) (x' ⊖ y').
Proof.
  intros A B. destruct x as [s|s| |s m e], x' as [s'|s'| |s' m' e']; try contradiction; destruct y as [t|t| |t n g], y' as [t'|t'| |t' n' g']; try contradiction; cbn in A, B |- *; try exact I;
    repeat match goal with H : _ /\ _ |- _ => destruct H end; subst; auto.
  - destruct (Bool.eqb s (negb t)), (Bool.eqb s' (negb t')); exact I.
  - destruct f, t; reflexivity.
  - destruct f, t; auto.
  - assert (E : Bool.eqb (xorb f s) (negb (xorb f t)) = Bool.eqb s (negb t)) by (destruct f, s, t; reflexivity). rewrite E. destruct (Bool.eqb s (negb t)); cbn; auto.
  - destruct f, t; reflexivity.
  - apply normalize_signed. rewrite !cond_xorb. destruct f; cbn [cond_Zopp]; lia.
Qed.
Lemma xorb4 f g s t : xorb (xorb f s) (xorb g t) = xorb (xorb f g) (xorb s t).
Proof. destruct f, g, s, t; reflexivity. Qed.
Lemma mul_signed f g x x' y y' : signed f x x' -> signed g y y' -> signed (xorb f g) (x ⊗ y) (x' ⊗ y').
Proof.
  intros A B. destruct x as [s|s| |s m e], x' as [s'|s'| |s' m' e']; try contradiction; destruct y as [t|t| |t n h], y' as [t'|t'| |t' n' h']; try contradiction; cbn in A, B |- *; try exact I;
    repeat match goal with H : _ /\ _ |- _ => destruct H end; subst; try apply xorb4.
  apply round_aux_signed, xorb4.
Qed.
Lemma mul_l c f y y' : signed f y y' -> signed f (c ⊗ y) (c ⊗ y').
Proof. intros H. pose proof (mul_signed false f _ _ _ _ (signed_refl c) H) as Q. rewrite xorb_false_l in Q. exact Q. Qed.
Lemma mul_r c f y y' : signed f y y' -> signed f (y ⊗ c) (y' ⊗ c).
Proof. intros H. pose proof (mul_signed f false _ _ _ _ H (signed_refl c)) as Q. rewrite xorb_false_r in Q. exact Q. Qed.
Lemma square_signed f x x' : signed f x x' -> x' ⊗ x' = x ⊗ x.
Proof.
  intros A. destruct x as [s|s| |s m e], x' as [s'|s'| |s' m' e']; try contradiction; cbn in A |- *; rewrite ?xorb_nilpotent; try reflexivity.
  destruct A as [-> [-> ->]]. reflexivity.
Qed.
Lemma div_signed f c x x' : signed f x x' -> signed f (x ⊘ c) (x' ⊘ c).
Proof.
  intros A. destruct x as [s|s| |s m e], x' as [s'|s'| |s' m' e']; try contradiction; destruct c as [t|t| |t n g]; cbn in A |- *; try exact I;
    repeat match goal with H : _ /\ _ |- _ => destruct H end; subst; try (destruct f, s, t; reflexivity).
  destruct (SFdiv_core_binary prec emax (Zpos m) e (Zpos n) g) as [[mz ez] lz]. apply round_aux_signed. destruct f, s, t; reflexivity.
Qed.
Lemma abs_signed f x x' : signed f x x' -> SFabs x' = SFabs x.
Proof.
  intros A. destruct x as [s|s| |s m e], x' as [s'|s'| |s' m' e']; try contradiction; cbn in A |- *; try reflexivity. destruct A as [_ [-> ->]]. reflexivity.
Qed.
Lemma ltb_mirrored x x' y y' : mirrored x x' -> mirrored y y' -> SFltb x' y' = SFltb y x.
Proof.
  intros A B. unfold mirrored in *. destruct x as [s|s| |s m e], x' as [s'|s'| |s' m' e']; try contradiction; destruct y as [t|t| |t n g], y' as [t'|t'| |t' n' g']; try contradiction; cbn [signed xorb] in A, B; unfold SFltb; cbn [SFcompare];
    repeat match goal with H : _ /\ _ |- _ => destruct H end; subst; try reflexivity; try (destruct s; reflexivity); try (destruct t; reflexivity); try (destruct s, t; reflexivity).
  destruct s, t; cbn [negb]; try reflexivity.
  - rewrite (Z.compare_antisym g e). destruct (Z.compare g e); cbn [CompOpp]; try reflexivity.
    change (Pos.compare_cont Eq) with Pos.compare. rewrite (Pos.compare_antisym n m). destruct (Pos.compare n m); reflexivity.
  - rewrite (Z.compare_antisym g e). destruct (Z.compare g e); cbn [CompOpp]; try reflexivity.
    change (Pos.compare_cont Eq) with Pos.compare. rewrite (Pos.compare_antisym n m). destruct (Pos.compare n m); reflexivity.
Qed.
Lemma add_comm x y : x ⊕ y = y ⊕ x.
Proof.
  destruct x as [s|s| |s m e], y as [t|t| |t n g]; cbn; try reflexivity; try (destruct s, t; reflexivity).
  rewrite Z.min_comm, Z.add_comm. reflexivity.
Qed.

(** ** Lists *)
Variable sz : bool.
Local Instance NM : Num spec_float := SFNum prec emax sz.
Notation sl f := (Forall2 (signed f)).
Lemma sl_length f l l' : sl f l l' -> length l' = length l.
Proof. intros H. induction H; cbn; congruence. Qed.
Lemma fold_add_signed f l l' a a' : sl f l l' -> signed f a a' -> signed f (fold_left nadd l a) (fold_left nadd l' a').
Proof. intros H. revert a a'. induction H; intros a a' Ha; cbn [fold_left]; [exact Ha|]. apply IHForall2. apply add_signed; assumption. Qed.
Lemma sum_signed f l l' : sl f l l' -> signed f (nsum l) (nsum l').
Proof. intros H. apply fold_add_signed; [exact H|exact I]. Qed.
Lemma mean_fold (l : list spec_float) (a : spec_float) (c : nat) :
  fold_left (fun (acc : spec_float * nat) yi => (nadd (fst acc) yi, S (snd acc))) l (a, c) = (fold_left nadd l a, (c + length l)%nat).
Proof. revert a c. induction l as [|x l IH]; intros a c; cbn [fold_left length fst snd]; [f_equal; lia|]. rewrite IH. f_equal. lia. Qed.
Lemma mean_signed f l l' : sl f l l' -> signed f (fst (mean l)) (fst (mean l')) /\ snd (mean l') = snd (mean l).
Proof.
  intros H. unfold mean. rewrite !mean_fold. rewrite (sl_length _ _ _ H). cbn [Nat.add]. destruct (Nat.ltb_spec 0 (length l)); cbn [fst snd]; (split; [|reflexivity]).
  - apply div_signed, fold_add_signed; [exact H|exact I].
  - exact I.
Qed.
Lemma map_eq {A B C} (R : A -> B -> Prop) (g : A -> C) (h : B -> C) l l' : Forall2 R l l' -> (forall a b, R a b -> h b = g a) -> map h l' = map g l.
Proof. intros H E. induction H; cbn; [reflexivity|]. f_equal; auto. Qed.
Lemma map_rel {A B C D} (R : A -> B -> Prop) (Q : C -> D -> Prop) g h l l' : Forall2 R l l' -> (forall a b, R a b -> Q (g a) (h b)) -> Forall2 Q (map g l) (map h l').
Proof. intros H E. induction H; cbn; constructor; auto. Qed.
Lemma variance_signed f l l' : sl f l l' -> variance l' = variance l.
Proof.
  intros H. destruct (mean_signed f l l' H) as [M1 M2]. unfold variance. destruct (mean l) as [a n]. destruct (mean l') as [a' n']. cbn [fst snd] in *. subst n'.
  cbv zeta. rewrite (map_eq (signed f) (fun x => nmul (nsub x a) (nsub x a)) (fun x => nmul (nsub x a') (nsub x a')) l l' H); [reflexivity|].
  intros x x' Hx. apply (square_signed f). apply sub_signed; assumption.
Qed.
Lemma stdev_signed f l l' : sl f l l' -> stdev l' = stdev l.
Proof. intros H. unfold stdev. rewrite (variance_signed f l l' H). reflexivity. Qed.
Lemma zscore_signed f l l' : sl f l l' -> sl f (zscore l) (zscore l').
Proof.
  intros H. unfold zscore. rewrite (stdev_signed f l l' H). apply (map_rel (signed f)); [exact H|]. intros x x' Hx. apply div_signed, sub_signed; [exact Hx|]. apply mean_signed. exact H.
Qed.
Lemma skipn_rel {A B} (R : A -> B -> Prop) k l l' : Forall2 R l l' -> Forall2 R (skipn k l) (skipn k l').
Proof. intros H. revert k. induction H; intros k; destruct k; cbn; auto. Qed.
Lemma firstn_rel {A B} (R : A -> B -> Prop) k l l' : Forall2 R l l' -> Forall2 R (firstn k l) (firstn k l').
Proof. intros H. revert k. induction H; intros k; destruct k; cbn; constructor; auto. Qed.
Definition pr2 {A B} (R : A -> B -> Prop) (p : A * A) (q : B * B) : Prop := R (fst p) (fst q) /\ R (snd p) (snd q).
Lemma zip_rel {A B} (R : A -> B -> Prop) l l' m m' : Forall2 R l l' -> Forall2 R m m' -> Forall2 (pr2 R) (zip l m) (zip l' m').
Proof. intros H. revert m m'. induction H; intros m m' Hm; destruct Hm; cbn; constructor; [split; assumption|]. apply IHForall2. assumption. Qed.
Lemma autocorr_signed f k l l' : sl f l l' -> same_number (autocorr l k) (autocorr l' k).
Proof.
  intros H. destruct (mean_signed f l l' H) as [M1 M2]. unfold autocorr. rewrite (variance_signed f l l' H). destruct (mean l) as [a n]. destruct (mean l') as [a' n']. cbn [fst snd] in *. subst n'.
  destruct (variance l) as [v ?]. apply div_signed, div_signed, sum_signed. apply (map_rel (pr2 (signed f))).
  - apply zip_rel; [exact H|apply skipn_rel; exact H].
  - intros [x1 x2] [y1 y2] [Q1 Q2]. cbn [fst snd] in *. rewrite <- (xorb_nilpotent f). apply mul_signed; apply sub_signed; assumption.
Qed.
Lemma windows_rel f l l' : sl f l l' -> Forall2 (pr2 (signed f)) (tuple_windows l) (tuple_windows l').
Proof. intros H. induction H as [|x y l l' Hx H IH]; [constructor|]. destruct H; cbn; constructor; [split; assumption|exact IH]. Qed.
Lemma rmssd_signed f l l' : sl f l l' -> rmssd l' = rmssd l.
Proof.
  intros H. unfold rmssd. rewrite (map_eq (pr2 (signed f)) (fun p : spec_float * spec_float => powi2 (nsub (snd p) (fst p))) (fun p : spec_float * spec_float => powi2 (nsub (snd p) (fst p))) _ _ (windows_rel f l l' H)); [reflexivity|].
  intros [x1 x2] [y1 y2] [Q1 Q2]. apply (square_signed f). apply sub_signed; assumption.
Qed.
Lemma lag_diff_signed f l l' : sl f l l' -> sl f (lag_diff l) (lag_diff l').
Proof.
  intros H. unfold lag_diff. apply (map_rel (pr2 (signed f))); [apply zip_rel; [exact H|apply skipn_rel; exact H]|]. intros [x1 x2] [y1 y2] [Q1 Q2]. apply sub_signed; assumption.
Qed.
Lemma chunks_rel n f l l' : (length l <= n)%nat -> sl f l l' -> Forall2 (sl f) (chunks4 l) (chunks4 l') /\ sl f (rem4 l) (rem4 l').
Proof.
  revert l l'. induction n as [|n IH]; intros l l' Hn H.
  - destruct H; [split; constructor|cbn in Hn; lia].
  - destruct H as [|x1 y1 l l' H1 H]; [split; constructor|]. destruct H as [|x2 y2 l l' H2 H]; [split; repeat constructor; assumption|].
    destruct H as [|x3 y3 l l' H3 H]; [split; repeat constructor; assumption|]. destruct H as [|x4 y4 l l' H4 H]; [split; repeat constructor; assumption|].
    cbn [chunks4 rem4]. destruct (IH l l' ltac:(cbn in Hn; lia) H) as [Q1 Q2]. split; [|exact Q2]. constructor; [repeat constructor; assumption|exact Q1].
Qed.
Lemma rms_signed f l l' : sl f l l' -> rms_fast32 l' = rms_fast32 l.
Proof.
  intros H. destruct (chunks_rel _ f l l' (le_n _) H) as [Q1 Q2]. unfold rms_fast32. rewrite (sl_length _ _ _ H).
  assert (Sq : forall m m', sl f m m' -> map (fun y : spec_float => nmul y y) m' = map (fun y : spec_float => nmul y y) m) by (intros m m' Hm; apply (map_eq (signed f)); [exact Hm|intros a b Q; apply (square_signed f), Q]).
  rewrite (Sq _ _ Q2). rewrite (map_eq (sl f) (fun c => nsum (map (fun y : spec_float => nmul y y) c)) (fun c => nsum (map (fun y : spec_float => nmul y y) c)) _ _ Q1); [reflexivity|].
  intros c c' Hc. rewrite (Sq _ _ Hc). reflexivity.
Qed.
Lemma dot_signed f l l' m m' : sl f l l' -> sl f m m' -> same_number (dot l m) (dot l' m').
Proof.
  intros H1 H2. unfold dot. apply sum_signed. apply (map_rel (pr2 (signed f))); [apply zip_rel; assumption|]. intros [x1 x2] [y1 y2] [Q1 Q2]. cbn [fst snd] in *. rewrite <- (xorb_nilpotent f). apply mul_signed; assumption.
Qed.
Lemma fast32_signed f skip l l' x : sl f l l' ->
  same_outcome (fun r r' => fst (fst r') = fst (fst r) /\ sl f (snd (fst r)) (snd (fst r')) /\ Forall2 same_number (snd r) (snd r')) (autocorr_fast32 skip l x) (autocorr_fast32 skip l' x).
Proof.
  intros H. unfold autocorr_fast32. rewrite (sl_length _ _ _ H). destruct (Nat.leb (length x + skip) (length l)); cbn [rassert bind same_outcome]; [|exact I]. cbn zeta. cbn [fst snd].
  assert (Hd : sl f (map (fun y => nsub y (ndiv (nsum l) (nofZ (Z.of_nat (length l))))) l) (map (fun y => nsub y (ndiv (nsum l') (nofZ (Z.of_nat (length l))))) l')).
  { apply (map_rel (signed f)); [exact H|]. intros a b Q. apply sub_signed; [exact Q|]. apply div_signed, sum_signed, H. }
  set (d := map _ l) in *. set (d' := map _ l') in *. split; [|split].
  - rewrite (map_eq (signed f) (fun y : spec_float => nmul y y) (fun y : spec_float => nmul y y) d d' Hd); [reflexivity|]. intros a b Q. apply (square_signed f), Q.
  - exact Hd.
  - apply Forall2_app; [|clear; induction (skipn _ x); constructor; [apply signed_refl|assumption]].
    clear - Hd. induction (zip (seq skip (length l - skip)) x) as [|[h xi] z IH]; cbn [map]; constructor; [|exact IH]. cbn [fst snd]. unfold autocorr_fast32_lag. cbv zeta. rewrite (sl_length _ _ _ Hd).
    apply sum_signed. assert (C1 := firstn_rel _ (length d - h) _ _ Hd). assert (C2 := skipn_rel _ h _ _ Hd).
    destruct (chunks_rel _ f _ _ (le_n _) C1) as [Q1 _]. destruct (chunks_rel _ f _ _ (le_n _) C2) as [Q2 _].
    apply (map_rel (pr2 (sl f))); [apply zip_rel; assumption|]. intros [p1 p2] [q1 q2] [R1 R2]. apply (dot_signed f); assumption.
Qed.

(** ** Medians *)
Lemma nth_error_rel {A B} (R : A -> B -> Prop) l l' k : Forall2 R l l' -> match nth_error l k, nth_error l' k with Some a, Some b => R a b | None, None => True | _, _ => False end.
Proof. intros H. revert k. induction H; intros [|k]; cbn; auto. apply IHForall2. Qed.
Lemma filter_mirror (P Q : spec_float -> bool) l l' : Forall2 mirrored l l' -> (forall a b, mirrored a b -> Q b = P a) -> Forall2 mirrored (filter P l) (filter Q l').
Proof. intros H E. induction H as [|x y l l' Hx H IH]; cbn [filter]; [constructor|]. rewrite (E x y Hx). destruct (P x); [constructor; assumption|exact IH]. Qed.
Lemma filter_split (p : spec_float) (l : list spec_float) : (length (filter (fun y => SFltb y p) l) + length (filter (fun y => SFltb p y) l) <= length l)%nat.
Proof.
  induction l as [|x l IH]; cbn [filter length]; [lia|]. destruct (SFltb x p) eqn:E1, (SFltb p x) eqn:E2; cbn [length]; try lia. exfalso.
  revert E1 E2. unfold SFltb. destruct x as [s|s| |s m e], p as [t|t| |t n g]; cbn [SFcompare]; try discriminate; try (destruct s; discriminate); try (destruct t; discriminate); try (destruct s, t; discriminate).
  rewrite (Z.compare_antisym e g). change (Pos.compare_cont Eq) with Pos.compare. rewrite (Pos.compare_antisym m n). destruct s, t; try discriminate; destruct (Z.compare e g); cbn [CompOpp]; try discriminate; destruct (Pos.compare m n); discriminate.
Qed.
Lemma quickselect_mirror fuel l l' k : Forall2 mirrored l l' -> (k < length l)%nat ->
  same_outcome mirrored (quickselect SFltb fuel l k) (quickselect SFltb fuel l' (length l - 1 - k)).
Proof.
  revert l l' k. induction fuel as [|fuel IH]; intros l l' k H Hk; [exact I|]. cbn [quickselect]. rewrite (sl_length _ _ _ H).
  destruct (Nat.eqb_spec (length l) 1) as [L|L].
  { unfold index. pose proof (nth_error_rel _ l l' 0 H) as Q. destruct (nth_error l 0), (nth_error l' 0); try contradiction; cbn; auto. }
  pose proof (nth_error_rel _ l l' (length l / 2) H) as Q. destruct (nth_error l (length l / 2)) as [p|], (nth_error l' (length l / 2)) as [p'|]; try contradiction; cbn [unwrap bind]; [|exact I].
  assert (F1 : Forall2 mirrored (filter (fun y => SFltb y p) l) (filter (fun y => SFltb p' y) l')) by (apply filter_mirror; [exact H|]; intros a b Hab; apply ltb_mirrored; assumption).
  assert (F2 : Forall2 mirrored (filter (fun y => SFltb p y) l) (filter (fun y => SFltb y p') l')) by (apply filter_mirror; [exact H|]; intros a b Hab; apply ltb_mirrored; assumption).
  rewrite (sl_length _ _ _ F1), (sl_length _ _ _ F2). pose proof (filter_split p l) as Sp.
  set (lo := filter (fun y => SFltb y p) l) in *. set (up := filter (fun y => SFltb p y) l) in *. set (lo' := filter (fun y => SFltb y p') l') in *. set (up' := filter (fun y => SFltb p' y) l') in *.
  rewrite (usub_ok (length l) (length lo)), (usub_ok (length l) (length up)) by lia. cbn [bind].
  rewrite (usub_ok (length l - length lo) (length up)), (usub_ok (length l - length up) (length lo)) by lia. cbn [bind].
  set (n := length l) in *. set (a := length lo) in *. set (b := length up) in *.
  destruct (Nat.ltb_spec k a) as [K1|K1].
  - destruct (Nat.ltb_spec (n - 1 - k) b); [lia|]. destruct (Nat.ltb_spec (n - 1 - k) (b + (n - b - a))); [lia|].
    rewrite (usub_ok (n - 1 - k) b) by lia. cbn [bind]. rewrite (usub_ok (n - 1 - k - b) (n - b - a)) by lia. cbn [bind].
    replace (n - 1 - k - b - (n - b - a))%nat with (length lo - 1 - k)%nat by (fold a; lia). apply IH; [exact F1|exact K1].
  - destruct (Nat.ltb_spec k (a + (n - a - b))) as [K2|K2].
    + destruct (Nat.ltb_spec (n - 1 - k) b); [lia|]. destruct (Nat.ltb_spec (n - 1 - k) (b + (n - b - a))); [|lia]. exact Q.
    + destruct (Nat.ltb_spec (n - 1 - k) b); [|lia]. rewrite (usub_ok k a) by lia. cbn [bind]. rewrite (usub_ok (k - a) (n - a - b)) by lia. cbn [bind].
      replace (n - 1 - k)%nat with (length up - 1 - (k - a - (n - a - b)))%nat by (fold b; lia). apply IH; [exact F2|fold b; lia].
Qed.
Lemma ltb_irrefl x : SFltb x x = false.
Proof.
  unfold SFltb. destruct x as [s|s| |s m e]; cbn [SFcompare]; try reflexivity; [destruct s; reflexivity|].
  rewrite Z.compare_refl. change (Pos.compare_cont Eq m m) with (Pos.compare m m). rewrite Pos.compare_refl. destruct s; reflexivity.
Qed.
Lemma filter_strict (P : spec_float -> bool) p l : In p l -> P p = false -> (length (filter P l) < length l)%nat.
Proof.
  intros Hp E. induction l as [|x l IH]; [contradiction|]. cbn [filter length]. destruct Hp as [->|Hp].
  - rewrite E. pose proof (filter_len P l). lia.
  - specialize (IH Hp). destruct (P x); cbn [length]; lia.
Qed.
Lemma quickselect_defined fuel l k : (k < length l <= fuel)%nat -> exists v, quickselect SFltb fuel l k = Ok v.
Proof.
  revert l k. induction fuel as [|fuel IH]; intros l k Hk; [lia|]. cbn [quickselect]. destruct (Nat.eqb_spec (length l) 1) as [L|L].
  { unfold index. destruct l as [|x l]; [cbn in Hk; lia|]. eexists. reflexivity. }
  assert (Hn : length l / 2 < length l) by (apply Nat.div_lt; lia).
  destruct (nth_error l (length l / 2)) as [p|] eqn:E; [|apply nth_error_None in E; lia]. apply nth_error_In in E. cbn [unwrap bind].
  pose proof (filter_split p l) as Sp. pose proof (filter_strict (fun y => SFltb y p) p l E (ltb_irrefl p)) as S1. pose proof (filter_strict (fun y => SFltb p y) p l E (ltb_irrefl p)) as S2.
  rewrite (usub_ok (length l)) by lia. cbn [bind]. rewrite (usub_ok (length l - _)) by lia. cbn [bind].
  set (lo := filter (fun y => SFltb y p) l) in *. set (up := filter (fun y => SFltb p y) l) in *.
  destruct (Nat.ltb_spec k (length lo)); [apply IH; lia|]. destruct (Nat.ltb_spec k (length lo + (length l - length lo - length up))); [eexists; reflexivity|].
  rewrite (usub_ok k) by lia. cbn [bind]. rewrite usub_ok by lia. cbn [bind]. apply IH. lia.
Qed.
Lemma median_mirror l l' : Forall2 mirrored l l' -> same_outcome (fun r r' => mirrored (fst r) (fst r') /\ snd r' = snd r) (median l) (median l').
Proof.
  intros H. unfold median, median_gen. rewrite (sl_length _ _ _ H). set (n := length l).
  destruct (Nat.eqb_spec n 0) as [N0|N0]; [split; [exact I|reflexivity]|]. destruct (Nat.eqb_spec n 1) as [N1|N1].
  { unfold index. pose proof (nth_error_rel _ l l' 0 H) as Q. destruct (nth_error l 0), (nth_error l' 0); try contradiction; cbn [unwrap bind same_outcome fst snd]; try exact I. split; [exact Q|reflexivity]. }
  assert (Hd : n = 2 * (n / 2) + n mod 2) by (apply Nat.div_mod; discriminate). pose proof (Nat.mod_upper_bound n 2 ltac:(discriminate)) as Hm.
  destruct (Nat.eqb_spec (n mod 2) 1) as [M1|M1].
  - pose proof (quickselect_mirror n l l' (n / 2) H ltac:(fold n; lia)) as Q. fold n in Q. replace (n - 1 - n / 2) with (n / 2) in Q by lia. cbn [nltb NM SFNum].
    destruct (quickselect SFltb n l (n / 2)), (quickselect SFltb n l' (n / 2)); try contradiction; cbn [bind same_outcome fst snd]; try exact I. split; [exact Q|reflexivity].
  - rewrite (usub_ok (n / 2) 1) by lia. cbn [bind].
    pose proof (quickselect_mirror n l l' (n / 2 - 1) H ltac:(fold n; lia)) as Q1. pose proof (quickselect_mirror n l l' (n / 2) H ltac:(fold n; lia)) as Q2. fold n in Q1, Q2.
    replace (n - 1 - (n / 2 - 1)) with (n / 2) in Q1 by lia. replace (n - 1 - n / 2) with (n / 2 - 1) in Q2 by lia. cbn [nltb NM SFNum].
    destruct (quickselect_defined n l (n / 2 - 1) ltac:(fold n; lia)) as [w1 D1]. destruct (quickselect_defined n l (n / 2) ltac:(fold n; lia)) as [w2 D2]. rewrite D1, D2 in *.
    destruct (quickselect SFltb n l' (n / 2)) as [v'| | |]; try contradiction. destruct (quickselect SFltb n l' (n / 2 - 1)) as [u'| | |]; try contradiction. cbn [bind same_outcome fst snd].
    split; [|reflexivity]. apply div_signed. change (signed true (w1 ⊕ w2) (u' ⊕ v')). rewrite (add_comm u' v'). apply add_signed; assumption.
Qed.
Lemma mad_mirror l l' : Forall2 mirrored l l' -> median_abs_deviation l' = median_abs_deviation l.
Proof.
  intros H. unfold median_abs_deviation. pose proof (median_mirror l l' H) as Q. destruct (median l) as [[m n]| | |], (median l') as [[m' n']| | |]; try contradiction; cbn [bind]; try reflexivity.
  destruct Q as [Q _]. cbn [fst] in Q. rewrite (map_eq mirrored (fun y => nabs (nsub y m)) (fun y => nabs (nsub y m')) l l' H); [reflexivity|]. intros a b Hab. apply (abs_signed true). apply sub_signed; assumption.
Qed.
Lemma mod_zscore_mirror l l' : Forall2 mirrored l l' -> same_outcome (Forall2 mirrored) (mod_zscore l) (mod_zscore l').
Proof.
  intros H. unfold mod_zscore. assert (E : median_abs_deviation l' = median_abs_deviation l) by (apply mad_mirror, H). rewrite E.
  pose proof (median_mirror l l' H) as Q. destruct (median l) as [[m n]| | |], (median l') as [[m' n']| | |]; try contradiction; cbn [bind]; try exact I.
  destruct (median_abs_deviation l) as [[d ?]| | |]; cbn [bind same_outcome]; try exact I. destruct Q as [Q _]. cbn [fst] in Q.
  apply (map_rel mirrored); [exact H|]. intros a b Hab. apply div_signed, mul_r, sub_signed; assumption.
Qed.

(** ** Filters *)
Lemma item_signed f x x' l l' : signed f x x' -> Forall2 (state_signed f) l l' ->
  signed f (fst (sosfilt_item x l)) (fst (sosfilt_item x' l')) /\ Forall2 (state_signed f) (snd (sosfilt_item x l)) (snd (sosfilt_item x' l')).
Proof.
  intros Hx H. revert x x' Hx. induction H as [|s t l l' Hs H IH]; intros x x' Hx; [split; [exact Hx|constructor]|].
  destruct Hs as (E0 & E1 & E2 & E3 & E4 & E5 & Z0 & Z1). cbn [sosfilt_item]. 
  destruct (biquad_fold x s) as [y s1] eqn:B1. destruct (biquad_fold x' t) as [y' t1] eqn:B2. unfold biquad_fold in B1, B2. injection B1 as <- <-. injection B2 as <- <-.
  rewrite E0, E1, E2, E4, E5.
  assert (Y : signed f (b0 s ⊗ x ⊕ zi0 s) (b0 s ⊗ x' ⊕ zi0 t)) by (apply add_signed; [apply mul_l; exact Hx|exact Z0]).
  destruct (IH _ _ Y) as [Q1 Q2]. set (y := b0 s ⊗ x ⊕ zi0 s) in *. set (y' := b0 s ⊗ x' ⊕ zi0 t) in *.
  destruct (sosfilt_item y l) as [o l1]. destruct (sosfilt_item y' l') as [o' l1']. cbn [fst snd] in *. split; [exact Q1|]. constructor; [|exact Q2].
  unfold state_signed. cbn. repeat split; try assumption; try reflexivity.
  - apply add_signed; [apply sub_signed; apply mul_l; assumption|exact Z1].
  - apply sub_signed; apply mul_l; assumption.
Qed.
Lemma filt_signed f x x' l l' : sl f x x' -> Forall2 (state_signed f) l l' ->
  sl f (fst (filt x l)) (fst (filt x' l')) /\ Forall2 (state_signed f) (snd (filt x l)) (snd (filt x' l')).
Proof.
  intros H. revert l l'. induction H as [|a b x x' Ha H IH]; intros l l' Hl; [split; [constructor|exact Hl]|]. cbn [filt].
  destruct (item_signed f a b l l' Ha Hl) as [Q1 Q2]. destruct (sosfilt_item a l) as [o l1]. destruct (sosfilt_item b l') as [o' l1']. cbn [fst snd] in *.
  destruct (IH l1 l1' Q2) as [Q3 Q4]. destruct (filt x l1). destruct (filt x' l1'). cbn [fst snd] in *. split; [constructor; assumption|exact Q4].
Qed.
Lemma nth_signed f l l' k : sl f l l' -> signed f (nth k l nzero) (nth k l' nzero).
Proof. intros H. revert k. induction H; intros [|k]; cbn [nth]; auto; exact I. Qed.
Lemma rev_rel {A B} (R : A -> B -> Prop) l l' : Forall2 R l l' -> Forall2 R (rev l) (rev l').
Proof. intros H. induction H; cbn [rev]; [constructor|]. apply Forall2_app; [assumption|repeat constructor; assumption]. Qed.
Lemma odd_ext_signed f e l l' : sl f l l' -> sl f (odd_extension e l) (odd_extension e l').
Proof.
  intros H. unfold odd_extension. rewrite (sl_length _ _ _ H). apply Forall2_app; [|apply Forall2_app; [exact H|]].
  - induction (rev (seq 1 e)); cbn [map]; constructor; [|assumption]. apply sub_signed; [apply mul_l|]; apply nth_signed; exact H.
  - induction (seq 1 e); cbn [map]; constructor; [|assumption]. apply sub_signed; [apply mul_l|]; apply nth_signed; exact H.
Qed.
Lemma scale_signed f c c' l : signed f c c' -> Forall2 (state_signed f) (scale_state c l) (scale_state c' l).
Proof. intros H. unfold scale_state. induction l as [|s l IH]; cbn [map]; constructor; [|exact IH]. unfold state_signed. cbn. repeat split; apply mul_l; exact H. Qed.
Lemma filtfilt_signed f x x' l : sl f x x' -> same_outcome (sl f) (sosfiltfilt_dyn x l) (sosfiltfilt_dyn x' l).
Proof.
  intros H. rewrite !sosfiltfilt_eq. rewrite (sl_length _ _ _ H). destruct (Nat.leb (length x) (3 * taps l)); [exact I|].
  destruct (sosfilt_zi_dyn l) as [init| | |]; cbn [bind same_outcome]; try exact I. unfold filtfilt. cbv zeta. rewrite (sl_length _ _ _ H).
  pose proof (odd_ext_signed f (3 * taps l) x x' H) as Q. set (e := odd_extension (3 * taps l) x) in *. set (e' := odd_extension (3 * taps l) x') in *.
  destruct (filt_signed f e e' _ _ Q (scale_signed f _ _ init (nth_signed f e e' 0 Q))) as [Q1 _]. apply rev_rel in Q1.
  destruct (filt_signed f _ _ _ _ Q1 (scale_signed f _ _ init (nth_signed f _ _ 0 Q1))) as [Q2 _].
  apply rev_rel, firstn_rel, skipn_rel. exact Q2.
Qed.
End M.
