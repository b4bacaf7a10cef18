(** Rounding error of the median absolute deviation and of the modified z-score. *)
From Coq Require Import Reals ZArith QArith SpecFloat List Lia Lra Psatz Bool Sorting Permutation.
From Flocq Require Import Core BinarySingleNaN.
From Verif Require Import Base Num M_Stats S_Stats S_Float P_Stats P_Stats2 P_Float P_FloatStats P_FloatFilt P_FloatMed P_FloatI0 P_FloatBessel P_Apx P_FloatStats2.
Import ListNotations.
Local Open Scope R_scope.

(** ** the median is monotone *)
Lemma perm_count {A} (p : A -> bool) (l m : list A) : Permutation l m -> length (filter p l) = length (filter p m).
Proof. induction 1; cbn; [reflexivity|destruct (p x); cbn; lia|destruct (p x), (p y); reflexivity|lia]. Qed.
Definition below (p x : R) : bool := if Rlt_dec x p then true else false.
Lemma below_true p x : below p x = true <-> x < p.
Proof. unfold below. destruct (Rlt_dec x p); split; intros; try discriminate; try reflexivity; try assumption; contradiction. Qed.
Lemma sorted_none_below s : forall p, StronglySorted Rle s -> (forall x, In x s -> p <= x) -> length (filter (below p) s) = 0%nat.
Proof.
  intros p _ H. induction s as [|a s IH]; [reflexivity|]. cbn. destruct (below p a) eqn:E; [apply below_true in E; pose proof (H a (or_introl eq_refl)); lra|].
  apply IH. intros x Hx. apply H. right. exact Hx.
Qed.
Lemma sorted_count_le s : forall k p, StronglySorted Rle s -> nth_error s k = Some p -> (length (filter (below p) s) <= k)%nat.
Proof.
  induction s as [|a s IH]; intros k p S E; [destruct k; discriminate|]. inversion S as [|? ? S' F]; subst. destruct k as [|k].
  - injection E as <-. rewrite sorted_none_below; [lia|exact S|]. intros x [<-|Hx]; [lra|]. rewrite Forall_forall in F. apply F, Hx.
  - cbn [nth_error] in E. specialize (IH k p S' E). cbn. destruct (below p a); cbn; lia.
Qed.
Lemma sorted_count_ge s : forall k q p, StronglySorted Rle s -> nth_error s k = Some q -> q < p -> (k < length (filter (below p) s))%nat.
Proof.
  induction s as [|a s IH]; intros k q p S E Q; [destruct k; discriminate|]. inversion S as [|? ? S' F]; subst.
  assert (A : below p a = true).
  { apply below_true. destruct k as [|k]; [injection E as <-; exact Q|]. cbn [nth_error] in E. rewrite Forall_forall in F. specialize (F q (nth_error_In _ _ E)). lra. }
  cbn. rewrite A. cbn. destruct k as [|k]; [lia|]. specialize (IH k q p S' E Q). lia.
Qed.
Lemma count_mono {T} (f g : T -> R) l p : (forall x, In x l -> f x <= g x) ->
  (length (filter (below p) (map g l)) <= length (filter (below p) (map f l)))%nat.
Proof.
  intros H. induction l as [|a l IH]; [reflexivity|]. specialize (IH (fun x Hx => H x (or_intror Hx))). pose proof (H a (or_introl eq_refl)).
  cbn. destruct (below p (g a)) eqn:E; [|destruct (below p (f a)); cbn; lia].
  apply below_true in E. assert (E' : below p (f a) = true) by (apply below_true; lra). rewrite E'. cbn. lia.
Qed.
Lemma order_mono {T} (f g : T -> R) l s t k a b : (forall x, In x l -> f x <= g x) ->
  Permutation (map f l) s -> StronglySorted Rle s -> Permutation (map g l) t -> StronglySorted Rle t ->
  nth_error s k = Some a -> nth_error t k = Some b -> a <= b.
Proof.
  intros H Ps Ss Pt St Ea Eb. destruct (Rle_or_lt a b) as [L|L]; [exact L|exfalso].
  pose proof (sorted_count_le s k a Ss Ea) as C1. pose proof (sorted_count_ge t k b a St Eb L) as C2.
  pose proof (count_mono f g l a H) as C3. rewrite (perm_count _ _ _ Ps), (perm_count _ _ _ Pt) in C3. lia.
Qed.
Lemma median_mono {T} (f g : T -> R) l a b : (forall x, In x l -> f x <= g x) -> is_median (map f l) a -> is_median (map g l) b -> a <= b.
Proof.
  intros H (s & Ps & Ss & Ds) (t & Pt & St & Dt).
  assert (L : length s = length t). { rewrite <- (Permutation_length Ps), <- (Permutation_length Pt), !map_length. reflexivity. }
  pose proof (order_mono f g l s t) as O.
  destruct Ds as [(k & Lk & Nk)|(k & a1 & a2 & Lk & N1 & N2 & ->)]; destruct Dt as [(j & Lj & Nj)|(j & b1 & b2 & Lj & M1 & M2 & ->)]; try lia.
  - assert (j = k) by lia. subst j. exact (O k a b H Ps Ss Pt St Nk Nj).
  - assert (j = k) by lia. subst j. pose proof (O k a1 b1 H Ps Ss Pt St N1 M1). pose proof (O (S k) a2 b2 H Ps Ss Pt St N2 M2). lra.
Qed.

Section Mad.
Variables prec emax : Z.
Hypothesis Hpe : (24 <= prec < emax)%Z.
Let Hpe1 : (1 < prec < emax)%Z.
Proof. lia. Qed.
Notation u := (uround prec).
Notation FM := (fmax prec emax).
Notation tn := (ftiny prec emax).
Notation fin := (finite prec emax).
Notation "a ⊖ b" := (SFsub prec emax a b) (at level 50, left associativity).
Notation "a ⊗ b" := (SFmul prec emax a b) (at level 40, left associativity).
Notation G k := ((1 + u) ^ k).
Notation med_error c := ((G 2 - 1) * Rabs c + tn).
Notation mad_error c D := ((G 3 - 1) * D + G 3 * med_error c + tn).

Lemma mad_final sz y B : Forall fin y -> y <> [] -> (forall x, In x y -> Rabs (fval x) <= B) -> 5 * B <= FM ->
  exists m c f D, @median _ (SFNum prec emax sz) y = Ok (m, length y) /\ fin m /\ is_median (map fval y) c /\
    Rabs (fval m) <= B /\ Rabs c <= B /\ Rabs (fval m - c) <= med_error c /\
    @median_abs_deviation _ (SFNum prec emax sz) y = Ok (f, length y) /\ fin f /\ is_median (map (fun x => Rabs (fval x - c)) y) D /\ 0 <= D /\
    Rabs (fval f - D) <= mad_error c D.
Proof.
  intros Fy NE HB HM. pose proof (u_pos prec) as U. pose proof (u14 prec emax Hpe1) as U4. pose proof (tn0 prec emax) as T0.
  assert (FM0 : 0 <= FM) by (pose proof (FM4 prec emax Hpe1); lra).
  assert (B0 : 0 <= B). { destruct y as [|a y]; [congruence|]. pose proof (HB a (or_introl eq_refl)). pose proof (Rabs_pos (fval a)). lra. }
  destruct (median_final prec emax Hpe1 sz y Fy NE) as (m & c & Em & Fm & Mc & _ & Dm & (lo & hi & Il & Ih & Rl)).
  { intros x Hx. pose proof (HB x Hx). lra. }
  assert (mB : Rabs (fval m) <= B).
  { pose proof (HB lo Il) as A1. pose proof (HB hi Ih) as A2. apply Rabs_le_inv in A1, A2. apply Rabs_le. lra. }
  assert (cB : Rabs c <= B).
  { apply Rabs_le. rewrite Forall_forall in Fy. split.
    - apply (median_mono (fun _ => - B) fval y); [intros x Hx; pose proof (HB x Hx) as A; apply Rabs_le_inv in A; lra| |exact Mc].
      pose proof (is_median_affine (map fval y) c 0 (- B) Mc) as Q. rewrite map_map, Rmult_0_l, Rplus_0_l in Q.
      erewrite map_ext; [exact Q|]. intros x. cbn. lra.
    - apply (median_mono fval (fun _ => B) y); [intros x Hx; pose proof (HB x Hx) as A; apply Rabs_le_inv in A; lra|exact Mc|].
      pose proof (is_median_affine (map fval y) c 0 B Mc) as Q. rewrite map_map, Rmult_0_l, Rplus_0_l in Q.
      erewrite map_ext; [exact Q|]. intros x. cbn. lra. }
  set (em := med_error c) in *.
  set (h := fun x => SFabs (x ⊖ m)). rewrite Forall_forall in Fy.
  assert (Hh : forall x, In x y -> fin (h x) /\ fval (h x) = Rabs (fval (x ⊖ m)) /\ fin (x ⊖ m) /\ Rabs (fval (x ⊖ m) - (fval x - fval m)) <= u * Rabs (fval x - fval m) /\ Rabs (fval x - fval m) <= 2 * B).
  { intros x Hx. assert (A : Rabs (fval x - fval m) <= 2 * B) by (unfold Rminus; eapply Rle_trans; [apply Rabs_triang|]; rewrite Rabs_Ropp; pose proof (HB x Hx); lra).
    destruct (sub_rel prec emax Hpe1 x m (Fy x Hx) Fm) as [F E]; [lra|]. destruct (abs_ok prec emax _ F) as [F' V].
    split; [exact F'|]. split; [exact V|]. split; [exact F|]. split; [exact E|exact A]. }
  assert (NEh : map h y <> []) by (destruct y; [congruence|discriminate]).
  destruct (median_final prec emax Hpe1 sz (map h y)) as (f & D' & Ef & Ff & Md & _ & Df & _).
  { apply Forall_forall. intros z Hz. apply in_map_iff in Hz as [x [<- Hx]]. exact (proj1 (Hh x Hx)). }
  { exact NEh. }
  { intros z Hz. apply in_map_iff in Hz as [x [<- Hx]]. destruct (Hh x Hx) as [_ [V [_ [E A]]]]. rewrite V, Rabs_Rabsolu.
    replace (fval (x ⊖ m)) with ((fval (x ⊖ m) - (fval x - fval m)) + (fval x - fval m)) by ring. eapply Rle_trans; [apply Rabs_triang|].
    assert (u * Rabs (fval x - fval m) <= 1 / 4 * (2 * B)) by (apply Rmult_le_compat; [lra|apply Rabs_pos|lra|lra]). lra. }
  rewrite map_length, map_map in *.
  destruct (is_median_exists (map (fun x => Rabs (fval x - c)) y)) as [D HD]; [destruct y; [congruence|discriminate]|].
  assert (D0 : 0 <= D). { apply (is_median_nonneg _ _ ltac:(intros z Hz; apply in_map_iff in Hz as [x [<- _]]; apply Rabs_pos) HD). }
  exists m, c, f, D. split; [exact Em|]. split; [exact Fm|]. split; [exact Mc|]. split; [exact mB|]. split; [exact cB|]. split; [exact Dm|]. split.
  { unfold median_abs_deviation. rewrite Em. cbn [bind]. exact Ef. }
  split; [exact Ff|]. split; [exact HD|]. split; [exact D0|].
  assert (e0 : 0 <= em) by (pose proof (Rabs_pos (fval m - c)); lra).
  assert (P : forall x, In x y -> (1 - u) * Rabs (fval x - c) + - ((1 - u) * em) <= fval (h x) <= (1 + u) * Rabs (fval x - c) + (1 + u) * em).
  { intros x Hx. destruct (Hh x Hx) as [_ [V [_ [E _]]]]. rewrite V. set (w := fval x - fval m) in *. set (z := fval (x ⊖ m)) in *.
    assert (A1 : Rabs w <= Rabs (fval x - c) + em).
    { unfold w. replace (fval x - fval m) with ((fval x - c) + - (fval m - c)) by ring. eapply Rle_trans; [apply Rabs_triang|]. rewrite Rabs_Ropp. lra. }
    assert (A2 : Rabs (fval x - c) <= Rabs w + em).
    { replace (fval x - c) with (w + (fval m - c)) by (unfold w; ring). eapply Rle_trans; [apply Rabs_triang|]. lra. }
    assert (A3 : Rabs z <= Rabs w + u * Rabs w) by (replace z with (w + (z - w)) by ring; eapply Rle_trans; [apply Rabs_triang|]; lra).
    assert (A4 : Rabs w <= Rabs z + u * Rabs w) by (replace w with (z + - (z - w)) at 1 by ring; eapply Rle_trans; [apply Rabs_triang|]; rewrite Rabs_Ropp; lra).
    assert ((1 + u) * Rabs w <= (1 + u) * (Rabs (fval x - c) + em)) by (apply Rmult_le_compat_l; lra).
    assert ((1 - u) * Rabs (fval x - c) <= (1 - u) * (Rabs w + em)) by (apply Rmult_le_compat_l; lra). lra. }
  assert (Up : D' <= (1 + u) * D + (1 + u) * em).
  { apply (median_mono (fun x => fval (h x)) (fun x => (1 + u) * Rabs (fval x - c) + (1 + u) * em) y); [intros x Hx; exact (proj2 (P x Hx))|exact Md|].
    pose proof (is_median_affine _ D (1 + u) ((1 + u) * em) HD) as Q. rewrite map_map in Q. exact Q. }
  assert (Lw : (1 - u) * D + - ((1 - u) * em) <= D').
  { apply (median_mono (fun x => (1 - u) * Rabs (fval x - c) + - ((1 - u) * em)) (fun x => fval (h x)) y); [intros x Hx; exact (proj1 (P x Hx))| |exact Md].
    pose proof (is_median_affine _ D (1 - u) (- ((1 - u) * em)) HD) as Q. rewrite map_map in Q. exact Q. }
  assert (D'0 : 0 <= D'). { apply (is_median_nonneg (map (fun x => fval (h x)) y)); [|exact Md]. intros z Hz. apply in_map_iff in Hz as [x [<- Hx]]. rewrite (proj1 (proj2 (Hh x Hx))). apply Rabs_pos. }
  rewrite (Rabs_right D') in Df by lra.
  assert (Q1 : Rabs (D' - D) <= u * D + (1 + u) * em) by (apply Rabs_le; assert (0 <= u * em) by (apply Rmult_le_pos; lra); lra).
  replace (fval f - D) with ((fval f - D') + (D' - D)) by ring. eapply Rle_trans; [apply Rabs_triang|].
  assert (Q2 : (G 2 - 1) * D' <= (G 2 - 1) * ((1 + u) * D + (1 + u) * em)) by (apply Rmult_le_compat_l; [pose proof (G1 prec 2); lra|exact Up]).
  replace (mad_error c D) with ((G 2 - 1) * ((1 + u) * D + (1 + u) * em) + tn + (u * D + (1 + u) * em)) by (unfold em; cbn [pow]; ring). lra.
Qed.
Lemma modz_final sz y x B : Forall fin y -> y <> [] -> (forall x, In x y -> Rabs (fval x) <= B) -> 5 * B <= FM -> In x y ->
  exists c D, is_median (map fval y) c /\ is_median (map (fun x => Rabs (fval x - c)) y) D /\
    let k := Q2R (6745 # 10000) in
    let z := (fval x - c) * k / D in
    let dn := G 3 * ((Rabs (fval x - c) + med_error c) * (k + tn) + tn) - Rabs (fval x - c) * k in
    let dd := mad_error c D in
    (dd < D -> Rabs z + (dn + Rabs z * dd) / (D - dd) <= FM ->
     exists m f, @median _ (SFNum prec emax sz) y = Ok (m, length y) /\ @median_abs_deviation _ (SFNum prec emax sz) y = Ok (f, length y) /\
     let r := SFdiv prec emax ((x ⊖ m) ⊗ @nofQ _ (SFNum prec emax sz) (6745 # 10000)) f in
     fin r /\ Rabs (fval r - z) <= (1 + u) * ((dn + Rabs z * dd) / (D - dd)) + u * Rabs z + tn).
Proof.
  intros Fy NE HB HM Hx. destruct (mad_final sz y B Fy NE HB HM) as (m & c & f & D & Em & Fm & Mc & mB & cB & Dm & Ef & Ff & MD & D0 & Df).
  exists c, D. split; [exact Mc|]. split; [exact MD|]. intros k z dn dd Hd Hr. exists m, f. split; [exact Em|]. split; [exact Ef|]. cbv zeta.
  pose proof (u_pos prec) as U. pose proof (u14 prec emax Hpe1) as U4. pose proof (tn0 prec emax) as T0. pose proof (tn1 prec emax Hpe1) as T1. pose proof (FM4 prec emax Hpe1) as F4.
  assert (Fx : fin x) by (rewrite Forall_forall in Fy; apply Fy, Hx).
  assert (kV : k = 0.6745) by (unfold k, Q2R; cbn; lra).
  destruct (coef_ok prec emax Hpe (6745 # 10000)) as [Fk Ek]; [fold k; rewrite kV, Rabs_right by lra; lra|]. fold k in Ek. rewrite (Rabs_right k) in Ek by lra.
  set (q := @nofQ _ (SFNum prec emax sz) (6745 # 10000)) in *. change (@nofQ _ _ (6745 # 10000)) with q in Fk, Ek.
  assert (Qk : apx prec emax 1 q k k (k + tn)).
  { split; [exact Fk|]. split; [rewrite Rabs_right; lra|]. split; [lra|]. rewrite pow_1. eapply Rle_trans; [exact Ek|]. assert (0 <= u * tn) by (apply Rmult_le_pos; lra). lra. }
  assert (d1 : Rabs (fval x - fval m) <= 2 * B) by (unfold Rminus; eapply Rle_trans; [apply Rabs_triang|]; rewrite Rabs_Ropp; pose proof (HB x Hx); lra).
  set (em := med_error c) in *. assert (e0 : 0 <= em) by (pose proof (Rabs_pos (fval m - c)); lra). 
  assert (B0 : 0 <= B) by (pose proof (Rabs_pos c); lra).
  destruct (sub_rel prec emax Hpe1 x m Fx Fm) as [Fs Es]; [lra|].
  assert (Qs : apx prec emax 1 (x ⊖ m) (fval x - c) (Rabs (fval x - c)) (Rabs (fval x - c) + em)).
  { assert (A : Rabs (fval x - fval m) <= Rabs (fval x - c) + em).
    { replace (fval x - fval m) with ((fval x - c) + - (fval m - c)) by ring. eapply Rle_trans; [apply Rabs_triang|]. rewrite Rabs_Ropp. lra. }
    split; [exact Fs|]. split; [lra|]. split; [lra|]. rewrite pow_1.
    replace (fval (x ⊖ m) - (fval x - c)) with ((fval (x ⊖ m) - (fval x - fval m)) + - (fval m - c)) by ring.
    eapply Rle_trans; [apply Rabs_triang|]. rewrite Rabs_Ropp. assert (u * Rabs (fval x - fval m) <= u * (Rabs (fval x - c) + em)) by (apply Rmult_le_compat_l; lra). lra. }
  assert (g2 : G 2 <= 25 / 16) by (cbn; nra). assert (g3 : 0 <= G 3 <= 125 / 64) by (split; [apply pow_le; lra|]; apply Rle_trans with ((5 / 4) ^ 3); [apply pow_incr; lra|cbn; lra]).
  assert (e1 : em <= 9 / 16 * B + 1 / 8).
  { unfold em. assert ((G 2 - 1) * Rabs c <= 9 / 16 * B) by (apply Rmult_le_compat; [pose proof (G1 prec 2); lra|apply Rabs_pos|lra|exact cB]). lra. }
  assert (dc : Rabs (fval x - c) <= 2 * B) by (unfold Rminus; eapply Rle_trans; [apply Rabs_triang|]; rewrite Rabs_Ropp; pose proof (HB x Hx); lra).
  assert (A0 : 0 <= Rabs (fval x - c) + em) by (pose proof (Rabs_pos (fval x - c)); lra).
  assert (A1 : (Rabs (fval x - c) + em) * (k + tn) <= (41 / 16 * B + 1 / 8) * 0.8) by (apply Rmult_le_compat; lra).
  assert (A2 : 0 <= (Rabs (fval x - c) + em) * (k + tn)) by (apply Rmult_le_pos; lra).
  assert (A3 : G 3 * ((Rabs (fval x - c) + em) * (k + tn) + tn) <= FM).
  { assert (FB : 1000 <= FM) by (pose proof (FM24 prec emax Hpe); assert (1000 <= 2 ^ 24) by (cbn; lra); lra).
    apply Rle_trans with (125 / 64 * ((41 / 16 * B + 1 / 8) * 0.8 + 1 / 8)); [apply Rmult_le_compat; lra|lra]. }
  assert (Qm := apx_mul prec emax Hpe1 1 1 _ _ _ _ _ _ _ _ Qs Qk A3). destruct Qm as [Fn [_ [_ En]]].
  apply (quot_close prec emax Hpe1 _ f ((fval x - c) * k) D dn dd Fn Ff En Df Hd). exact Hr.
Qed.
End Mad.
