(** Rounding error of rms, lag differences, rmssd, zscore and autocorr. *)
From Coq Require Import Reals ZArith SpecFloat List Lia Lra Psatz Bool.
From Flocq Require Import Core Sterbenz BinarySingleNaN.
From Verif Require Import Base Num M_Stats S_Stats S_Float P_Stats P_MeanInt P_Float P_FloatStats P_FloatFilt P_Apx.
Import ListNotations.
Local Open Scope R_scope.

Section Stats2.
Variables prec emax : Z.
Hypothesis Hpe : (1 < prec < emax)%Z.
Local Instance Hps2 : Prec_gt_0 prec.
Proof. unfold Prec_gt_0. lia. Qed.
Local Instance Hes2 : Prec_lt_emax prec emax.
Proof. unfold Prec_lt_emax. lia. Qed.
Notation u := (uround prec).
Notation FM := (fmax prec emax).
Notation tn := (ftiny prec emax).
Notation fin := (finite prec emax).
Notation "a ⊕ b" := (SFadd prec emax a b) (at level 50, left associativity).
Notation "a ⊖ b" := (SFsub prec emax a b) (at level 50, left associativity).
Notation "a ⊗ b" := (SFmul prec emax a b) (at level 40, left associativity).
Notation G k := ((1 + u) ^ k).
Notation apx := (apx prec emax).

(** nonnegative approximations *)
Definition napx (k : nat) (x : spec_float) (X A' : R) : Prop := apx k x X X A' /\ 0 <= fval x.

Lemma napx_sum sz {T} (f : T -> spec_float) (X A' : T -> R) l k : (forall t, In t l -> napx k (f t) (X t) (A' t)) ->
  G (k + length l) * Rsum (map A' l) <= FM ->
  napx (k + length l) (@nsum _ (SFNum prec emax sz) (map f l)) (Rsum (map X l)) (Rsum (map A' l)).
Proof.
  intros Ql HM. split; [apply apx_sum; [exact Hpe|intros t Ht; exact (proj1 (Ql t Ht))|exact HM]|].
  pose proof (u_pos prec) as U.
  apply (fold_err prec emax Hpe (map f l) (S754_zero sz)).
  - split; [reflexivity|exact I].
  - apply Forall_forall. intros x Hx. apply in_map_iff in Hx as [t [<- Ht]]. exact (proj1 (proj1 (Ql t Ht))).
  - cbn [fval]. rewrite Rabs_R0, Rplus_0_l, map_length. eapply Rle_trans; [|exact HM]. rewrite pow_add, (Rmult_comm (G k)), Rmult_assoc.
    apply Rmult_le_compat_l; [apply pow_le; lra|]. unfold fa. rewrite map_map, <- Rsum_map_scale. apply Rsum_le.
    intros t Ht. apply (apx_abs prec emax k _ _ _ _ (proj1 (Ql t Ht))).
  - cbn. lra.
  - apply Forall_forall. intros x Hx. apply in_map_iff in Hx as [t [<- Ht]]. exact (proj2 (Ql t Ht)).
Qed.
Lemma napx_weak k l x X A' B' : (k <= l)%nat -> A' <= B' -> napx k x X A' -> napx l x X B'.
Proof. intros H1 H2 [H3 H4]. split; [apply (apx_weak prec emax k l _ _ _ A'); assumption|exact H4]. Qed.
Lemma napx_add k x y X Y A' B' : napx k x X A' -> napx k y Y B' -> G (k + 1) * (A' + B') <= FM -> napx (k + 1) (x ⊕ y) (X + Y) (A' + B').
Proof.
  intros [Qx Px] [Qy Py] HM. split; [apply apx_add; assumption|]. pose proof (apx_abs _ _ _ _ _ _ _ Qx). pose proof (apx_abs _ _ _ _ _ _ _ Qy).
  pose proof (apx_pos _ _ _ _ _ _ _ Qx). pose proof (apx_pos _ _ _ _ _ _ _ Qy). apply (add_nonneg prec emax Hpe); [exact (proj1 Qx)|exact (proj1 Qy)| |exact Px|exact Py].
  eapply Rle_trans; [|exact HM]. rewrite pow_add, pow_1. pose proof (u_pos prec). pose proof (G1 prec k).
  assert (0 <= G k * (A' + B')) by (apply Rmult_le_pos; lra). nra.
Qed.
Lemma napx_div k x y X A' : napx k x X A' -> fin y -> 0 < fval y -> G (k + 1) * (A' / fval y + tn) <= FM ->
  napx (k + 1) (SFdiv prec emax x y) (X / fval y) (A' / fval y + tn).
Proof.
  intros [Qx Px] Fy Py HM. assert (E : Rabs (fval y) = fval y) by (apply Rabs_right; lra).
  pose proof (apx_div prec emax Hpe k x y X X A' Qx Fy ltac:(lra)) as D. rewrite E in D. split; [apply D, HM|].
  pose proof (apx_abs _ _ _ _ _ _ _ Qx) as AB. destruct (fdiv_ok prec emax Hps2 Hes2 x y (proj1 Qx) Fy ltac:(lra)) as [_ V].
  - pose proof (tiny_pos prec emax). pose proof (G1 prec k). pose proof (u_pos prec). pose proof (apx_pos _ _ _ _ _ _ _ Qx).
    unfold Rdiv. rewrite Rabs_mult, Rabs_inv, E. rewrite pow_add, pow_1 in HM. pose proof (Rinv_0_lt_compat _ Py) as I0.
    assert (P : 0 <= A' / fval y) by (apply Rmult_le_pos; lra). set (q := G k) in *. clearbody q.
    assert (H3 : Rabs (fval x) * / fval y <= q * (A' / fval y)). { unfold Rdiv. rewrite <- Rmult_assoc. apply Rmult_le_compat_r; lra. }
    assert (0 <= q * (A' / fval y)) by (apply Rmult_le_pos; lra). assert (0 <= q * tn) by (apply Rmult_le_pos; lra). nra.
  - rewrite V. apply (rnd_nonneg prec emax Hpe). apply Rmult_le_pos; [exact Px|left; apply Rinv_0_lt_compat, Py].
Qed.
Lemma sqrt_close x X D : fin x -> 0 <= fval x -> 0 <= X -> Rabs (fval x - X) <= D ->
  let s := SFsqrt prec emax x in
  fin s /\ 0 <= fval s /\ Rabs (fval s - sqrt X) <= (1 + u) * sqrt D + u * sqrt X /\
  (0 < X -> Rabs (fval s - sqrt X) <= (1 + u) * (D / sqrt X) + u * sqrt X).
Proof.
  intros Fx Px PX HD s. pose proof (u_pos prec) as U. assert (D0 : 0 <= D) by (pose proof (Rabs_pos (fval x - X)); lra).
  destruct (fsqrt_ok prec emax Hps2 Hes2 x Fx Px) as [F V]. fold s in F, V.
  pose proof (sqrt_err prec emax Hps2 Hes2 ltac:(lia) (fval x) (finite_format prec emax x Fx) Px) as E. rewrite <- V in E.
  assert (M : forall d, Rabs (sqrt (fval x) - sqrt X) <= d -> Rabs (fval s - sqrt X) <= (1 + u) * d + u * sqrt X).
  { intros d Hd. replace (fval s - sqrt X) with ((fval s - sqrt (fval x)) + (sqrt (fval x) - sqrt X)) by ring.
    eapply Rle_trans; [apply Rabs_triang|]. pose proof (sqrt_pos (fval x)). pose proof (sqrt_pos X). pose proof (Rle_abs (sqrt (fval x) - sqrt X)).
    assert (u * sqrt (fval x) <= u * (d + sqrt X)) by (apply Rmult_le_compat_l; lra). lra. }
  split; [exact F|]. split; [rewrite V; apply (rnd_nonneg prec emax Hpe), sqrt_pos|]. split.
  - apply M, sqrt_diff; assumption.
  - intros X0. apply M. pose proof (sqrt_lt_R0 X X0) as S0. apply Rmult_le_reg_r with (sqrt X); [exact S0|].
    replace (D / sqrt X * sqrt X) with D by (field; lra). eapply Rle_trans; [|exact HD].
    replace (fval x - X) with ((sqrt (fval x) - sqrt X) * (sqrt (fval x) + sqrt X)).
    + rewrite Rabs_mult. apply Rmult_le_compat_l; [apply Rabs_pos|]. pose proof (sqrt_pos (fval x)). rewrite Rabs_right; lra.
    + pose proof (sqrt_sqrt (fval x) Px). pose proof (sqrt_sqrt X PX). nra.
Qed.
(** a product of a float with itself *)
Lemma sq_napx k x X A' : apx k x X (Rabs X) A' -> G (2 * k + 1) * (A' ^ 2 + tn) <= FM -> napx (2 * k + 1) (x ⊗ x) (X ^ 2) (A' ^ 2 + tn).
Proof.
  intros Q HM. replace (2 * k + 1)%nat with (k + k + 1)%nat in * by lia.
  pose proof (apx_mul prec emax Hpe k k x x X X (Rabs X) (Rabs X) A' A' Q Q) as M. replace (A' * A') with (A' ^ 2) in M by ring. specialize (M HM).
  rewrite <- Rabs_mult in M. replace (X * X) with (X ^ 2) in M by ring. rewrite (Rabs_right (X ^ 2)) in M by (apply Rle_ge, pow2_ge_0).
  split; [exact M|]. pose proof (apx_abs _ _ _ _ _ _ _ Q) as AB. pose proof (apx_pos _ _ _ _ _ _ _ Q).
  destruct (fmul_ok prec emax Hps2 Hes2 x x (proj1 Q) (proj1 Q)) as [_ V]; [|rewrite V; apply (rnd_nonneg prec emax Hpe); nra].
  rewrite Rabs_mult. eapply Rle_trans; [apply Rmult_le_compat; [apply Rabs_pos|apply Rabs_pos|exact AB|exact AB]|].
  eapply Rle_trans; [|exact HM]. rewrite !pow_add, pow_1. pose proof (G1 prec k). pose proof (u_pos prec). pose proof (tiny_pos prec emax).
  set (q := G k) in *. clearbody q. replace (q * A' * (q * A')) with (q * q * A' ^ 2) by ring. pose proof (pow2_ge_0 A'). assert (0 <= q * q) by nra. apply Rmult_le_compat; nra.
Qed.

(** ** rms_fast32 *)
Lemma chunks_ind' {T} (P : list T -> Prop) :
  (forall l, (length l < 4)%nat -> P l) ->
  (forall a b c d l, P l -> P (a :: b :: c :: d :: l)) -> forall l, P l.
Proof.
  intros H1 H2 l. remember (length l) as n eqn:E. revert l E.
  induction n as [n IH] using lt_wf_ind. intros l E.
  destruct l as [|a [|b [|c [|d l]]]]; try (apply H1; cbn; lia).
  apply H2. apply (IH (length l)); cbn in E; [lia|reflexivity].
Qed.
Lemma tiles_sum {T} (g : T -> R) l :
  Rsum (map g (rem4 l)) + Rsum (map (fun c => Rsum (map g c)) (chunks4 l)) = Rsum (map g l).
Proof.
  induction l as [l Hl|a b c d l IH] using chunks_ind'.
  - destruct l as [|a [|b [|c [|d l]]]]; cbn in Hl; try lia; cbn; lra.
  - cbn [chunks4 rem4 map]. rewrite !Rsum_cons. change (Rsum []) with 0. lra.
Qed.
Lemma tiles_shape {T} (l : list T) : length (chunks4 l) = (length l / 4)%nat /\ (length (rem4 l) <= 3)%nat /\ incl (rem4 l) l /\
  forall c, In c (chunks4 l) -> length c = 4%nat /\ incl c l.
Proof.
  induction l as [l Hl|a b c d l [IH1 [IH2 [IH3 IH4]]]] using chunks_ind'.
  - destruct l as [|a [|b [|c [|d l]]]]; cbn in Hl; try lia; cbn; (split; [reflexivity|]; split; [lia|]; split; [apply incl_refl|intros ? []]).
  - cbn [chunks4 rem4 length]. split; [rewrite IH1; replace (S (S (S (S (length l))))) with (length l + 1 * 4)%nat by lia; rewrite Nat.div_add by lia; lia|].
    split; [exact IH2|]. split; [intros x Hx; do 4 right; apply IH3, Hx|]. intros t [<-|Ht].
    + split; [reflexivity|]. intros x Hx. cbn in *. tauto.
    + destruct (IH4 t Ht) as [H1 H2]. split; [exact H1|]. intros x Hx. do 4 right. apply H2, Hx.
Qed.
Lemma Gsmall n k : (Z.of_nat n <= 2 ^ prec)%Z -> G (n + k) <= 3 * (5 / 4) ^ k.
Proof.
  intros N. rewrite pow_add. pose proof (u_pos prec). pose proof (u14 prec emax Hpe).
  apply Rmult_le_compat; [apply pow_le; lra|apply pow_le; lra|apply (G3 prec emax Hpe), N|apply pow_incr; lra].
Qed.
Definition sq (y : list spec_float) : list R := map (fun x => fval x ^ 2) y.
Lemma sq_sum_bound y B c : 0 <= c -> (forall x, In x y -> Rabs (fval x) <= B) ->
  Rsum (map (fun x => fval x ^ 2 + c) y) <= INR (length y) * (B ^ 2 + c).
Proof.
  intros c0 HB. induction y as [|a y IH]; [cbn; lra|]. cbn [map]. rewrite Rsum_cons. change (length (a :: y)) with (S (length y)). rewrite S_INR.
  specialize (IH (fun x Hx => HB x (or_intror Hx))). pose proof (HB a (or_introl eq_refl)) as Ha.
  assert (fval a ^ 2 <= B ^ 2) by (rewrite <- (pow2_abs (fval a)); apply pow_incr; split; [apply Rabs_pos|exact Ha]). lra.
Qed.
Lemma rms_final sz y B : Forall fin y -> y <> [] -> (Z.of_nat (length y) <= 2 ^ prec)%Z ->
  1 <= B -> (forall x, In x y -> Rabs (fval x) <= B) -> 256 * INR (length y) * B ^ 2 <= FM ->
  let k := (length y / 4 + 7)%nat in
  let M := Rmean (sq y) in
  let D := (G k - 1) * M + 2 * G k * tn in
  let s := @rms_fast32 _ (SFNum prec emax sz) y in
  fin s /\ 0 <= fval s /\ Rabs (fval s - sqrt M) <= (1 + u) * sqrt D + u * sqrt M /\
  (0 < M -> Rabs (fval s - sqrt M) <= (1 + u) * (D / sqrt M) + u * sqrt M).
Proof.
  intros Fy NE N B1 HB HM k M D s. destruct (tiles_shape y) as [LC [LR [IR IC]]]. rewrite Forall_forall in Fy.
  assert (n1 : 1 <= INR (length y)). { change 1 with (INR 1). apply le_INR. destruct y; [congruence|cbn; lia]. }
  pose proof (tn0 prec emax) as T0. pose proof (tn1 prec emax Hpe) as T1. pose proof (u_pos prec) as U.
  assert (B2 : 1 <= B ^ 2) by (cbn; nra).
  assert (W : B ^ 2 <= INR (length y) * B ^ 2) by (rewrite <- (Rmult_1_l (B ^ 2)) at 1; apply Rmult_le_compat_r; lra).
  set (f := fun x : spec_float => x ⊗ x). set (X := fun x : spec_float => fval x ^ 2). set (A' := fun x : spec_float => fval x ^ 2 + tn).
  assert (A0 : forall x, 0 <= A' x) by (intros x; unfold A'; pose proof (pow2_ge_0 (fval x)); lra).
  assert (A0s : forall l, 0 <= Rsum (map A' l)) by (intros l; apply Rsum_nonneg; intros z Hz; apply in_map_iff in Hz as [x [<- _]]; apply A0).
  assert (SB : Rsum (map A' y) <= 9 / 8 * INR (length y) * B ^ 2).
  { eapply Rle_trans; [apply (sq_sum_bound y B tn); [lra|exact HB]|].
    replace (9 / 8 * INR (length y) * B ^ 2) with (INR (length y) * (9 / 8 * B ^ 2)) by ring. apply Rmult_le_compat_l; lra. }
  assert (N4 : (length y / 4 <= length y)%nat) by (apply Nat.div_le_upper_bound; lia).
  assert (GB : forall j S, (j <= length y + 7)%nat -> 0 <= S -> S <= 5 / 4 * INR (length y) * B ^ 2 -> G j * S <= FM).
  { intros j S Hj S0 S1. eapply Rle_trans; [|exact HM]. pose proof (Gsmall (length y) 7 N) as G7.
    assert (Gj : G j <= 16) by (eapply Rle_trans; [apply (G_le prec), Hj|]; eapply Rle_trans; [exact G7|]; cbn; lra).
    assert (0 <= G j) by (apply pow_le; lra). eapply Rle_trans; [apply Rmult_le_compat; [assumption|assumption|exact Gj|exact S1]|]. nra. }
  assert (Qx : forall x, In x y -> napx 1 (f x) (X x) (A' x)).
  { intros x Hx. pose proof (sq_napx 0 x (fval x) (Rabs (fval x)) (apx_exact prec emax x _ (Fy x Hx) (Rle_refl _))) as Q. rewrite pow2_abs in Q.
    cbn [Nat.mul Nat.add] in Q. apply Q. apply GB; [lia|apply A0|]. pose proof (HB x Hx) as Hb.
    assert (fval x ^ 2 <= B ^ 2) by (rewrite <- (pow2_abs (fval x)); apply pow_incr; split; [apply Rabs_pos|exact Hb]). unfold A'. lra. }
  assert (TS := tiles_sum A' y).
  assert (Rp := A0s (rem4 y)).
  assert (Cp : 0 <= Rsum (map (fun c => Rsum (map A' c)) (chunks4 y))) by (apply Rsum_nonneg; intros z Hz; apply in_map_iff in Hz as [c [<- _]]; apply A0s).
  assert (Q1 : napx (1 + length (rem4 y)) (@nsum _ (SFNum prec emax sz) (map f (rem4 y))) (Rsum (map X (rem4 y))) (Rsum (map A' (rem4 y)))).
  { apply napx_sum; [intros t Ht; apply Qx, IR, Ht|]. apply GB; [lia|apply A0s|nra]. }
  assert (Q2 : forall c, In c (chunks4 y) -> napx 5 (@nsum _ (SFNum prec emax sz) (map f c)) (Rsum (map X c)) (Rsum (map A' c))).
  { intros c Hc. destruct (IC c Hc) as [L4 I4]. change 5%nat with (1 + 4)%nat. rewrite <- L4. apply napx_sum; [intros t Ht; apply Qx, I4, Ht|].
    apply GB; [lia|apply A0s|]. assert (Rsum (map A' c) <= Rsum (map (fun c => Rsum (map A' c)) (chunks4 y))); [|lra].
    clear - Hc A0s. induction (chunks4 y) as [|d l IH]; [destruct Hc|]. cbn [map]. rewrite Rsum_cons.
    assert (0 <= Rsum (map (fun c => Rsum (map A' c)) l)) by (apply Rsum_nonneg; intros z Hz; apply in_map_iff in Hz as [t [<- _]]; apply A0s).
    pose proof (A0s d). destruct Hc as [->|Hc]; [lra|specialize (IH Hc); lra]. }
  assert (Q3 := napx_sum sz (fun c => @nsum _ (SFNum prec emax sz) (map f c)) (fun c => Rsum (map X c)) (fun c => Rsum (map A' c)) (chunks4 y) 5 Q2).
  rewrite LC in Q3. specialize (Q3 (GB (5 + length y / 4)%nat _ ltac:(lia) Cp ltac:(lra))).
  apply (napx_weak (1 + length (rem4 y)) (5 + length y / 4) _ _ _ (Rsum (map A' (rem4 y)))) in Q1; [|lia|lra].
  assert (Q4 := napx_add _ _ _ _ _ _ _ Q1 Q3). rewrite TS, (tiles_sum X) in Q4. specialize (Q4 (GB (5 + length y / 4 + 1)%nat _ ltac:(lia) (A0s y) ltac:(lra))).
  destruct (count_ok prec emax Hpe (length y) N) as [Fn Vn].
  assert (Q5 := napx_div _ _ _ _ _ Q4 Fn). rewrite Vn in Q5. specialize (Q5 ltac:(lra)).
  assert (SE : Rsum (map A' y) / INR (length y) = M + tn).
  { unfold M, Rmean, sq, A'. rewrite map_length. rewrite (Rsum_plus (fun x => fval x ^ 2) (fun _ => tn) y), Rsum_const. field. lra. }
  assert (P5 : 0 <= M + tn) by (rewrite <- SE; apply Rmult_le_pos; [apply A0s|left; apply Rinv_0_lt_compat; lra]).
  rewrite SE in Q5. replace (5 + length y / 4 + 1 + 1)%nat with k in Q5 by (unfold k; lia).
  assert (Q6 : G k * (M + tn + tn) <= FM).
  { apply GB; [unfold k; lia|lra|]. assert (M + tn <= 9 / 8 * B ^ 2).
    { rewrite <- SE. apply Rmult_le_reg_r with (INR (length y)); [lra|]. unfold Rdiv. rewrite Rmult_assoc, Rinv_l by lra. lra. } lra. }
  specialize (Q5 Q6). replace (Rsum (map X y) / INR (length y)) with M in Q5 by (unfold M, Rmean, sq, X; rewrite map_length; reflexivity).
  destruct Q5 as [Q5 P]. destruct (apx_pos _ _ _ _ _ _ _ Q5) as [M0 _]. apply sqrt_close; [exact (proj1 Q5)|exact P|exact M0|].
  destruct Q5 as [_ [_ [_ Q5]]]. eapply Rle_trans; [exact Q5|]. unfold D. lra.
Qed.

(** ** differences *)
Lemma sub_rel x y : fin x -> fin y -> Rabs (fval x - fval y) <= FM ->
  fin (x ⊖ y) /\ Rabs (fval (x ⊖ y) - (fval x - fval y)) <= u * Rabs (fval x - fval y).
Proof.
  intros Fx Fy B. destruct (fsub_ok prec emax Hps2 Hes2 x y Fx Fy B) as [F V]. split; [exact F|]. rewrite V.
  apply (add_err prec emax Hps2 (fval x) (- fval y)); [apply (finite_format prec emax); assumption|apply generic_format_opp, (finite_format prec emax); assumption].
Qed.
Lemma diff_apx a b B : fin a -> fin b -> Rabs (fval a) <= B -> Rabs (fval b) <= B -> 2 * B <= FM ->
  apx 1 (b ⊖ a) (fval b - fval a) (Rabs (fval b - fval a)) (Rabs (fval b - fval a)).
Proof.
  intros Fa Fb Ha Hb HM. destruct (sub_rel b a Fb Fa) as [F E].
  { unfold Rminus. eapply Rle_trans; [apply Rabs_triang|]. rewrite Rabs_Ropp. lra. }
  split; [exact F|]. split; [lra|]. split; [lra|].
  rewrite pow_1. eapply Rle_trans; [exact E|]. lra.
Qed.
Lemma windows_zip (y : list spec_float) : tuple_windows y = zip y (skipn 1 y).
Proof.
  induction y as [|a y IH]; [reflexivity|]. destruct y as [|b y]; [reflexivity|]. change (skipn 1 (a :: b :: y)) with (b :: y).
  cbn [zip tuple_windows]. f_equal. exact IH.
Qed.
Lemma zip_in {A C} (l : list A) (m : list C) p : In p (zip l m) -> In (fst p) l /\ In (snd p) m.
Proof.
  revert m. induction l as [|a l IH]; intros [|c m] H; try destruct H.
  - subst p. split; left; reflexivity.
  - destruct (IH m H). split; right; assumption.
Qed.
Lemma zip_len {A C} (l : list A) (m : list C) : length (zip l m) = Nat.min (length l) (length m).
Proof. revert m. induction l as [|a l IH]; intros [|c m]; [reflexivity..|]. cbn. rewrite IH. reflexivity. Qed.
Definition dsq (y : list spec_float) : list R := map (fun p => (fval (snd p) - fval (fst p)) ^ 2) (zip y (skipn 1 y)).
Lemma rmssd_final sz y B : Forall fin y -> (2 <= length y)%nat -> (Z.of_nat (length y) <= 2 ^ prec)%Z ->
  1 <= B -> (forall x, In x y -> Rabs (fval x) <= B) -> 256 * INR (length y) * B ^ 2 <= FM ->
  let k := (length y + 3)%nat in
  let M := Rmean (dsq y) in
  let D := (G k - 1) * M + 2 * G k * tn in
  let s := @rmssd _ (SFNum prec emax sz) y in
  fin s /\ 0 <= fval s /\ Rabs (fval s - sqrt M) <= (1 + u) * sqrt D + u * sqrt M /\
  (0 < M -> Rabs (fval s - sqrt M) <= (1 + u) * (D / sqrt M) + u * sqrt M).
Proof.
  intros Fy L2 N B1 HB HM k M D s. rewrite Forall_forall in Fy.
  assert (n1 : 2 <= INR (length y)). { change 2 with (INR 2). apply le_INR, L2. }
  pose proof (tn0 prec emax) as T0. pose proof (tn1 prec emax Hpe) as T1. pose proof (u_pos prec) as U.
  assert (B2 : B <= B ^ 2) by (cbn; nra). assert (B3 : 1 <= B ^ 2) by lra.
  set (l := zip y (skipn 1 y)). assert (Ll : length l = (length y - 1)%nat) by (unfold l; rewrite zip_len, skipn_length; lia).
  assert (Nl : INR (length l) = INR (length y) - 1) by (rewrite Ll, minus_INR by lia; reflexivity).
  assert (W : B ^ 2 <= INR (length y) * B ^ 2) by (rewrite <- (Rmult_1_l (B ^ 2)) at 1; apply Rmult_le_compat_r; lra).
  set (f := fun p : spec_float * spec_float => (snd p ⊖ fst p) ⊗ (snd p ⊖ fst p)).
  set (X := fun p : spec_float * spec_float => (fval (snd p) - fval (fst p)) ^ 2). set (A' := fun p => X p + tn).
  assert (Hl : forall p, In p l -> In (fst p) y /\ In (snd p) y).
  { intros p Hp. destruct (zip_in _ _ _ Hp) as [H1 H2]. split; [exact H1|]. rewrite <- (firstn_skipn 1 y). apply in_or_app. right. exact H2. }
  assert (XB : forall p, In p l -> 0 <= X p <= 4 * B ^ 2).
  { intros p Hp. destruct (Hl p Hp) as [H1 H2]. split; [apply pow2_ge_0|]. unfold X. rewrite <- pow2_abs.
    replace (4 * B ^ 2) with ((2 * B) ^ 2) by ring. apply pow_incr. split; [apply Rabs_pos|].
    pose proof (HB _ H1). pose proof (HB _ H2). unfold Rminus. eapply Rle_trans; [apply Rabs_triang|]. rewrite Rabs_Ropp. lra. }
  assert (GB : forall j S, (j <= length y + 3)%nat -> 0 <= S -> S <= 5 * INR (length y) * B ^ 2 -> G j * S <= FM).
  { intros j S Hj S0 S1. eapply Rle_trans; [|exact HM]. pose proof (Gsmall (length y) 3 N) as G7.
    assert (Gj : G j <= 6) by (eapply Rle_trans; [apply (G_le prec), Hj|]; eapply Rle_trans; [exact G7|]; cbn; lra).
    assert (0 <= G j) by (apply pow_le; lra). eapply Rle_trans; [apply Rmult_le_compat; [assumption|assumption|exact Gj|exact S1]|]. lra. }
  assert (Q : forall p, In p l -> napx 3 (f p) (X p) (A' p)).
  { intros p Hp. destruct (Hl p Hp) as [H1 H2]. pose proof (XB p Hp) as XBp.
    pose proof (sq_napx 1 _ _ _ (diff_apx (fst p) (snd p) B (Fy _ H1) (Fy _ H2) (HB _ H1) (HB _ H2) ltac:(lra))) as Q. rewrite pow2_abs in Q.
    apply Q. fold (X p). apply GB; [cbn; lia|lra|lra]. }
  assert (As : 0 <= Rsum (map A' l)) by (apply Rsum_nonneg; intros z Hz; apply in_map_iff in Hz as [p [<- Hp]]; pose proof (XB p Hp); unfold A'; lra).
  assert (AB : Rsum (map A' l) <= INR (length l) * (4 * B ^ 2 + tn)).
  { rewrite <- (Rsum_const (4 * B ^ 2 + tn) l). apply Rsum_le. intros p Hp. pose proof (XB p Hp). unfold A'. lra. }
  assert (AB2 : Rsum (map A' l) <= (INR (length y) - 1) * (17 / 4 * B ^ 2)).
  { eapply Rle_trans; [exact AB|]. rewrite Nl. apply Rmult_le_compat_l; lra. }
  assert (Q1 := napx_sum false f X A' l 3 Q). rewrite Ll in Q1. specialize (Q1 (GB (3 + (length y - 1))%nat _ ltac:(lia) As ltac:(lra))).
  destruct (count_ok prec emax Hpe (length l)) as [Fn Vn]; [lia|].
  assert (Q2 := napx_div _ _ _ _ _ Q1 Fn). rewrite Vn in Q2. specialize (Q2 ltac:(lra)).
  assert (SE : Rsum (map A' l) / INR (length l) = M + tn).
  { unfold M, Rmean, dsq. fold l. rewrite map_length. unfold A'. rewrite (Rsum_plus X (fun _ => tn) l), Rsum_const. unfold X. field. lra. }
  assert (P5 : 0 <= M + tn) by (rewrite <- SE; apply Rmult_le_pos; [apply As|left; apply Rinv_0_lt_compat; lra]).
  rewrite SE in Q2. replace (3 + (length y - 1) + 1)%nat with k in Q2 by (unfold k; lia).
  assert (Q6 : G k * (M + tn + tn) <= FM).
  { apply GB; [unfold k; lia|lra|]. assert (M + tn <= 17 / 4 * B ^ 2).
    { rewrite <- SE. apply Rmult_le_reg_r with (INR (length l)); [lra|]. unfold Rdiv. rewrite Rmult_assoc, Rinv_l by lra. rewrite Nl. lra. } lra. }
  specialize (Q2 Q6). replace (Rsum (map X l) / INR (length l)) with M in Q2 by (unfold M, Rmean, dsq, X; fold l; rewrite map_length; reflexivity).
  destruct Q2 as [Q5 P]. destruct (apx_pos _ _ _ _ _ _ _ Q5) as [M0 _].
  assert (R : s = SFsqrt prec emax (SFdiv prec emax (@nsum _ (SFNum prec emax false) (map f l)) (SpecFloat.binary_normalize prec emax (Z.of_nat (length l)) 0 false))).
  { unfold s, rmssd. rewrite windows_zip. fold l.
    change (map (fun p : spec_float * spec_float => powi2 (nsub (snd p) (fst p))) l) with (map f l).
    rewrite (mean_run prec emax sz (map f l)) by (intros Z; apply map_eq_nil in Z; rewrite Z in Ll; cbn in Ll; lia).
    rewrite map_length. reflexivity. }
  rewrite R. apply sqrt_close; [exact (proj1 Q5)|exact P|exact M0|].
  destruct Q5 as [_ [_ [_ Q5]]]. eapply Rle_trans; [exact Q5|]. unfold D. lra.
Qed.

(** ** quotients of two approximations *)
Lemma quot_close c v C V dc dv : fin c -> fin v -> Rabs (fval c - C) <= dc -> Rabs (fval v - V) <= dv -> dv < V ->
  let q := C / V in
  let E := (dc + Rabs q * dv) / (V - dv) in
  Rabs q + E <= FM ->
  let r := SFdiv prec emax c v in
  fin r /\ Rabs (fval r - q) <= (1 + u) * E + u * Rabs q + tn.
Proof.
  intros Fc Fv Hc Hv HV q E HM r. pose proof (u_pos prec) as U. pose proof (tiny_pos prec emax) as T0.
  assert (V1 : V - dv <= fval v) by (pose proof (Rle_abs (- (fval v - V))) as A; rewrite Rabs_Ropp in A; lra).
  assert (dv0 : 0 <= dv) by (pose proof (Rabs_pos (fval v - V)); lra).
  assert (K : Rabs (fval c / fval v - q) <= E).
  { replace (fval c / fval v - q) with (((fval c - C) - q * (fval v - V)) / fval v) by (unfold q; field; lra).
    unfold Rdiv at 1. rewrite Rabs_mult, Rabs_inv, (Rabs_right (fval v)) by lra. unfold E, Rdiv at 1.
    apply Rmult_le_compat; [apply Rabs_pos|left; apply Rinv_0_lt_compat; lra| |apply Rinv_le_contravar; lra].
    unfold Rminus at 1. eapply Rle_trans; [apply Rabs_triang|]. rewrite Rabs_Ropp, Rabs_mult.
    pose proof (Rmult_le_compat_l (Rabs q) _ _ (Rabs_pos q) Hv). lra. }
  assert (A : Rabs (fval c / fval v) <= Rabs q + E).
  { replace (fval c / fval v) with (q + (fval c / fval v - q)) by ring. eapply Rle_trans; [apply Rabs_triang|]. lra. }
  destruct (fdiv_ok prec emax Hps2 Hes2 c v Fc Fv ltac:(lra)) as [F R]; [lra|]. fold r in F, R. split; [exact F|].
  pose proof (rnd_err prec emax Hps2 (fval c / fval v)) as RE. rewrite <- R in RE.
  replace (fval r - q) with ((fval r - fval c / fval v) + (fval c / fval v - q)) by ring. eapply Rle_trans; [apply Rabs_triang|].
  assert (u * Rabs (fval c / fval v) <= u * (Rabs q + E)) by (apply Rmult_le_compat_l; lra). lra.
Qed.

(** ** deviations from the computed mean *)
Definition mu (y : list spec_float) : R := Rmean (fv y).
Definition emean (y : list spec_float) : R := (G (length y) - 1) * Rmean (fa y) + tn.
Definition dvar (y : list spec_float) : R :=
  (G (length y + 3) - 1) * (Rvar (fv y) + emean y ^ 2) + emean y ^ 2 + (G (length y) + 1) * tn.
Lemma len1 (y : list spec_float) : y <> [] -> 1 <= INR (length y).
Proof. intros NE. change 1 with (INR 1). apply le_INR. destruct y; [congruence|cbn; lia]. Qed.
Lemma emean_bound y B : y <> [] -> (Z.of_nat (length y) <= 2 ^ prec)%Z -> 1 <= B -> (forall x, In x y -> Rabs (fval x) <= B) ->
  0 <= emean y <= 17 / 8 * B.
Proof.
  intros NE N B1 HB. pose proof (tn0 prec emax). pose proof (tn1 prec emax Hpe). pose proof (G1 prec (length y)). pose proof (G3 prec emax Hpe (length y) N).
  pose proof (Rmean_abs_le y B NE HB) as M1.
  assert (M0 : 0 <= Rmean (fa y)) by (apply Rmult_le_pos; [apply fa_nonneg|left; apply Rinv_0_lt_compat; unfold fa; rewrite map_length; pose proof (len1 y NE); lra]).
  unfold emean. split; [assert (0 <= (G (length y) - 1) * Rmean (fa y)) by (apply Rmult_le_pos; lra); lra|].
  assert ((G (length y) - 1) * Rmean (fa y) <= 2 * B) by (apply Rmult_le_compat; lra). lra.
Qed.
Lemma mean_close sz y B : Forall fin y -> y <> [] -> (Z.of_nat (length y) <= 2 ^ prec)%Z -> 1 <= B -> (forall x, In x y -> Rabs (fval x) <= B) ->
  256 * INR (length y) * B ^ 2 <= FM ->
  fin (fst (@mean _ (SFNum prec emax sz) y)) /\ Rabs (fval (fst (@mean _ (SFNum prec emax sz) y)) - mu y) <= emean y.
Proof.
  intros Fy NE N B1 HB HM. apply mean_final; [exact Hpe|exact Fy|exact NE|exact N|]. pose proof (len1 y NE) as n1.
  assert (S : Rsum (fa y) <= INR (length y) * B). { rewrite <- (Rsum_const B y). apply Rsum_le. exact HB. }
  pose proof (fa_nonneg y). assert (Gn : G (length y - 1) <= 3) by (eapply Rle_trans; [apply (G_le prec (length y - 1) (length y)); lia|]; apply (G3 prec emax Hpe), N).
  assert (0 <= G (length y - 1)) by (apply pow_le; pose proof (u_pos prec); lra).
  eapply Rle_trans; [apply Rmult_le_compat; [assumption|assumption|exact Gn|exact S]|]. eapply Rle_trans; [|exact HM]. assert (B <= B ^ 2) by (cbn; nra). nra.
Qed.
Lemma mu_bound y B : y <> [] -> (forall x, In x y -> Rabs (fval x) <= B) -> Rabs (mu y) <= B.
Proof.
  intros NE HB. unfold mu, Rmean, Rdiv. pose proof (len1 y NE). unfold fv at 2. rewrite map_length, Rabs_mult, (Rabs_right (/ _)) by (apply Rle_ge; left; apply Rinv_0_lt_compat; lra).
  eapply Rle_trans; [|exact (Rmean_abs_le y B NE HB)]. unfold Rmean, Rdiv. unfold fa at 2. rewrite map_length.
  apply Rmult_le_compat_r; [left; apply Rinv_0_lt_compat; lra|]. apply fv_fa.
Qed.
Lemma dev_apx m x M e D : fin x -> fin m -> Rabs (fval m - M) <= e -> Rabs (fval x - M) + e <= D -> D <= FM ->
  apx 1 (x ⊖ m) (fval x - M) (Rabs (fval x - M)) (Rabs (fval x - M) + e).
Proof.
  intros Fx Fm Hm Hd HM. assert (A : Rabs (fval x - fval m) <= Rabs (fval x - M) + e).
  { replace (fval x - fval m) with ((fval x - M) + - (fval m - M)) by ring. eapply Rle_trans; [apply Rabs_triang|]. rewrite Rabs_Ropp. lra. }
  destruct (sub_rel x m Fx Fm) as [F E]; [lra|]. split; [exact F|]. split; [lra|]. split; [pose proof (Rabs_pos (fval m - M)); lra|]. rewrite pow_1.
  replace (fval (x ⊖ m) - (fval x - M)) with ((fval (x ⊖ m) - (fval x - fval m)) + - (fval m - M)) by ring.
  eapply Rle_trans; [apply Rabs_triang|]. rewrite Rabs_Ropp. pose proof (u_pos prec).
  assert (u * Rabs (fval x - fval m) <= u * (Rabs (fval x - M) + e)) by (apply Rmult_le_compat_l; lra). lra.
Qed.
(** the mean absolute deviation is at most the standard deviation *)
Lemma mad_sd y : y <> [] -> Rmean (map (fun x => Rabs (fval x - mu y)) y) <= sqrt (Rvar (fv y)).
Proof.
  intros NE. set (a := map (fun x => Rabs (fval x - mu y)) y). assert (NA : a <> []) by (unfold a; destruct y; [congruence|discriminate]).
  pose proof (Rvar_nonneg a) as P. rewrite (Rvar_moments a NA) in P.
  assert (E : Rmean (map (fun x => x ^ 2) a) = Rvar (fv y)).
  { unfold a. rewrite map_map, Rvar_unfold. unfold Rmean at 1, fv. rewrite !map_length, map_map. f_equal. f_equal. apply map_ext. intros x. apply pow2_abs. }
  assert (0 <= Rmean a). { apply Rmult_le_pos; [apply Rsum_nonneg; intros z Hz; apply in_map_iff in Hz as [x [<- _]]; apply Rabs_pos|].
    left. apply Rinv_0_lt_compat. unfold a. rewrite map_length. pose proof (len1 y NE). lra. }
  rewrite <- (sqrt_pow2 (Rmean a)) by assumption. apply sqrt_le_1_alt. lra.
Qed.
Lemma zip_le {T} (g : T -> R) (l m : list T) : (forall x, 0 <= g x) ->
  Rsum (map (fun p => g (fst p) * g (snd p)) (zip l m)) <= (Rsum (map (fun x => g x ^ 2) l) + Rsum (map (fun x => g x ^ 2) m)) / 2 /\
  Rsum (map (fun p => g (fst p) + g (snd p)) (zip l m)) <= Rsum (map g l) + Rsum (map g m).
Proof.
  intros G0. assert (N2 : forall l, 0 <= Rsum (map (fun x => g x ^ 2) l)) by (intros k; apply Rsum_nonneg; intros z Hz; apply in_map_iff in Hz as [x [<- _]]; apply pow2_ge_0).
  assert (N1 : forall l, 0 <= Rsum (map g l)) by (intros k; apply Rsum_nonneg; intros z Hz; apply in_map_iff in Hz as [x [<- _]]; apply G0).
  revert m. induction l as [|a l IH]; intros m.
  - specialize (N2 m). specialize (N1 m). cbn in *. lra.
  - destruct m as [|b m]; [specialize (N2 (a :: l)); specialize (N1 (a :: l)); cbn in *; lra|]. destruct (IH m) as [I1 I2].
    cbn [zip map fst snd]. rewrite !Rsum_cons. pose proof (pow2_ge_0 (g a - g b)). lra.
Qed.
Lemma skipn_sum {T} (g : T -> R) k (l : list T) : (forall x, 0 <= g x) -> Rsum (map g (skipn k l)) <= Rsum (map g l).
Proof.
  intros G0. rewrite <- (firstn_skipn k l) at 2. rewrite map_app, Rsum_app.
  assert (0 <= Rsum (map g (firstn k l))) by (apply Rsum_nonneg; intros z Hz; apply in_map_iff in Hz as [x [<- _]]; apply G0). lra.
Qed.
(** ** autocovariance *)
Definition cov (y : list spec_float) (k : nat) : R :=
  lag_sum (map (fun x => fval x - mu y) y) k / INR (length y).
Definition dcov (y : list spec_float) : R :=
  let g := G (length y + 4) in let V := Rvar (fv y) in
  (g - 1) * V + g * (2 * emean y * sqrt V + emean y ^ 2 + 2 * tn).
Definition autocov (sz : bool) (y : list spec_float) (k : nat) : spec_float :=
  let m := fst (@mean _ (SFNum prec emax sz) y) in
  SFdiv prec emax (@nsum _ (SFNum prec emax sz) (map (fun p : spec_float * spec_float => (fst p ⊖ m) ⊗ (snd p ⊖ m)) (zip y (skipn k y))))
    (SpecFloat.binary_normalize prec emax (Z.of_nat (length y)) 0 false).
Lemma zip_shift_map {A C} (f : A -> C) (l : list A) (k : nat) :
  zip (map f l) (skipn k (map f l)) = map (fun p => (f (fst p), f (snd p))) (zip l (skipn k l)).
Proof.
  rewrite skipn_map. generalize (skipn k l). induction l as [|a l IH]; intros [|b m]; [reflexivity..|]. cbn [map zip fst snd]. f_equal. apply IH.
Qed.
Lemma cov_zip y k : lag_sum (map (fun x => fval x - mu y) y) k =
  Rsum (map (fun p => (fval (fst p) - mu y) * (fval (snd p) - mu y)) (zip y (skipn k y))).
Proof.
  unfold lag_sum. rewrite map_length.
  pose proof (zip_shift_nth (fun x => x - mu y) (fv y) k) as E. unfold fv in E at 1 2 3. rewrite zip_shift_map, map_map in E. cbn [fst snd] in E.
  rewrite E. unfold fv. rewrite !map_length, map_map. reflexivity.
Qed.
Lemma autocov_close sz y k B : Forall fin y -> y <> [] -> (Z.of_nat (length y) <= 2 ^ prec)%Z -> 1 <= B -> (forall x, In x y -> Rabs (fval x) <= B) ->
  256 * INR (length y) * B ^ 2 <= FM ->
  fin (autocov sz y k) /\ Rabs (fval (autocov sz y k) - cov y k) <= dcov y.
Proof.
  intros Fy NE N B1 HB HM. pose proof (len1 y NE) as n1. destruct (mean_close sz y B Fy NE N B1 HB HM) as [Fm Em].
  unfold autocov. set (m := fst (@mean _ (SFNum prec emax sz) y)) in *. destruct (emean_bound y B NE N B1 HB) as [e0 e1].
  unfold dcov, cov. rewrite cov_zip. set (e := emean y) in *. set (M := mu y) in *. set (V := Rvar (fv y)) in *.
  pose proof (tn0 prec emax) as T0. pose proof (tn1 prec emax Hpe) as T1. pose proof (u_pos prec) as U. rewrite Forall_forall in Fy.
  pose proof (mu_bound y B NE HB) as MB. fold M in MB.
  assert (B2 : B <= B ^ 2) by (cbn; nra). assert (B3 : 1 <= B ^ 2) by lra.
  assert (W : B ^ 2 <= INR (length y) * B ^ 2) by (rewrite <- (Rmult_1_l (B ^ 2)) at 1; apply Rmult_le_compat_r; lra).
  set (g := fun x => Rabs (fval x - M)).
  assert (g0 : forall x, 0 <= g x) by (intros; apply Rabs_pos).
  assert (g1 : forall x, In x y -> g x <= 2 * B).
  { intros x Hx. unfold g, Rminus. eapply Rle_trans; [apply Rabs_triang|]. rewrite Rabs_Ropp. pose proof (HB x Hx). lra. }
  set (l := zip y (skipn k y)). assert (Ll : (length l <= length y)%nat) by (unfold l; rewrite zip_len; lia).
  assert (Hl : forall p, In p l -> In (fst p) y /\ In (snd p) y).
  { intros p Hp. destruct (zip_in _ _ _ Hp) as [H1 H2]. split; [exact H1|]. rewrite <- (firstn_skipn k y). apply in_or_app. right. exact H2. }
  set (X := fun p => (fval (fst p) - M) * (fval (snd p) - M)). set (A := fun p => g (fst p) * g (snd p)).
  set (A' := fun p => (g (fst p) + e) * (g (snd p) + e) + tn).
  assert (GB : forall j S, (j <= length y + 4)%nat -> 0 <= S -> S <= 18 * INR (length y) * B ^ 2 -> G j * S <= FM).
  { intros j S Hj S0 S1. eapply Rle_trans; [|exact HM]. pose proof (Gsmall (length y) 4 N) as G7.
    assert (Gj : G j <= 8) by (eapply Rle_trans; [apply (G_le prec), Hj|]; eapply Rle_trans; [exact G7|]; cbn; lra).
    assert (0 <= G j) by (apply pow_le; lra). eapply Rle_trans; [apply Rmult_le_compat; [assumption|assumption|exact Gj|exact S1]|]. lra. }
  assert (D1 : forall x, In x y -> 0 <= g x + e <= 33 / 8 * B) by (intros x Hx; pose proof (g0 x); pose proof (g1 x Hx); lra).
  assert (AB : forall p, In p l -> 0 <= A' p <= 17.5 * B ^ 2).
  { intros p Hp. destruct (Hl p Hp) as [H1 H2]. pose proof (D1 _ H1) as [a1 a2]. pose proof (D1 _ H2) as [b1 b2]. unfold A'.
    pose proof (Rmult_le_pos _ _ a1 b1). pose proof (Rmult_le_compat _ _ _ _ a1 b1 a2 b2). lra. }
  assert (QD : forall x, In x y -> apx 1 (x ⊖ m) (fval x - M) (g x) (g x + e)).
  { intros x Hx. apply (dev_apx m x M e (33 / 8 * B)); [apply Fy, Hx|exact Fm|exact Em|exact (proj2 (D1 x Hx))|lra]. }
  assert (QP : forall p, In p l -> apx 3 ((fst p ⊖ m) ⊗ (snd p ⊖ m)) (X p) (A p) (A' p)).
  { intros p Hp. destruct (Hl p Hp) as [H1 H2]. apply (apx_mul prec emax Hpe 1 1 _ _ _ _ _ _ _ _ (QD _ H1) (QD _ H2)).
    pose proof (AB p Hp) as [a1 a2]. apply (GB (1 + 1 + 1)%nat (A' p)); [lia|exact a1|lra]. }
  assert (As : 0 <= Rsum (map A' l)) by (apply Rsum_nonneg; intros z Hz; apply in_map_iff in Hz as [p [<- Hp]]; exact (proj1 (AB p Hp))).
  assert (nl : INR (length l) <= INR (length y)) by (apply le_INR; exact Ll).
  assert (AB2 : Rsum (map A' l) <= INR (length y) * (17.5 * B ^ 2)).
  { apply Rle_trans with (INR (length l) * (17.5 * B ^ 2)); [rewrite <- (Rsum_const (17.5 * B ^ 2) l); apply Rsum_le; intros p Hp; exact (proj2 (AB p Hp))|].
    apply Rmult_le_compat_r; lra. }
  assert (Q1 := apx_sum prec emax Hpe sz _ X A A' l 3 QP (GB (3 + length l)%nat _ ltac:(lia) As ltac:(lra))).
  destruct (count_ok prec emax Hpe (length y) N) as [Fn Vn].
  assert (Q2 := apx_div prec emax Hpe _ _ _ _ _ _ Q1 Fn). rewrite Vn, (Rabs_right (INR (length y))) in Q2 by lra. specialize (Q2 ltac:(lra)).
  assert (SB : Rsum (map A' l) / INR (length y) <= 17.5 * B ^ 2).
  { apply Rmult_le_reg_r with (INR (length y)); [lra|]. unfold Rdiv. rewrite Rmult_assoc, Rinv_l by lra. lra. }
  assert (SP : 0 <= Rsum (map A' l) / INR (length y)) by (apply Rmult_le_pos; [exact As|left; apply Rinv_0_lt_compat; lra]).
  specialize (Q2 (GB (3 + length l + 1)%nat (Rsum (map A' l) / INR (length y) + tn) ltac:(lia) ltac:(lra) ltac:(lra))).
  split; [exact (proj1 Q2)|]. destruct Q2 as [_ [_ [_ Q2]]]. eapply Rle_trans; [exact Q2|].
  set (SA := Rsum (map A l) / INR (length y)). set (SA' := Rsum (map A' l) / INR (length y)) in *.
  destruct (zip_le g y (skipn k y) g0) as [Z1 Z2]. fold l in Z1, Z2.
  pose proof (skipn_sum (fun x => g x ^ 2) k y ltac:(intros; apply pow2_ge_0)) as S1. pose proof (skipn_sum g k y g0) as S2.
  assert (VE : Rsum (map (fun x => g x ^ 2) y) = INR (length y) * V).
  { unfold V. rewrite Rvar_unfold. unfold fv at 2 3. rewrite !map_length, map_map. fold (mu y). fold M. unfold g.
    rewrite (map_ext (fun x => Rabs (fval x - M) ^ 2) (fun x => (fval x - M) ^ 2)) by (intros; apply pow2_abs). field. lra. }
  assert (ME : Rsum (map g y) <= INR (length y) * sqrt V).
  { pose proof (mad_sd y NE) as MS. fold M V in MS. unfold Rmean in MS. rewrite map_length in MS. fold g in MS.
    apply (Rmult_le_compat_l (INR (length y))) in MS; [|lra]. replace (INR (length y) * (Rsum (map g y) / INR (length y))) with (Rsum (map g y)) in MS by (field; lra). exact MS. }
  assert (I0 : 0 < / INR (length y)) by (apply Rinv_0_lt_compat; lra).
  assert (HA : SA <= V).
  { unfold SA. apply Rmult_le_reg_r with (INR (length y)); [lra|]. unfold Rdiv. rewrite Rmult_assoc, Rinv_l by lra. unfold A. lra. }
  assert (HA' : SA' <= SA + (2 * e * sqrt V + e ^ 2 + tn)).
  { unfold SA', SA. apply Rmult_le_reg_r with (INR (length y)); [lra|]. rewrite Rmult_plus_distr_r. unfold Rdiv. rewrite !Rmult_assoc, Rinv_l, !Rmult_1_r by lra.
    assert (E : Rsum (map A' l) = Rsum (map A l) + (e * Rsum (map (fun p => g (fst p) + g (snd p)) l) + INR (length l) * (e ^ 2 + tn))).
    { rewrite <- (Rsum_const (e ^ 2 + tn) l), <- Rsum_map_scale, <- !Rsum_plus. f_equal. apply map_ext. intros p. unfold A', A. ring. }
    rewrite E. assert (e * Rsum (map (fun p => g (fst p) + g (snd p)) l) <= e * (2 * (INR (length y) * sqrt V))) by (apply Rmult_le_compat_l; lra).
    assert (INR (length l) * (e ^ 2 + tn) <= INR (length y) * (e ^ 2 + tn)) by (apply Rmult_le_compat_r; [pose proof (pow2_ge_0 e); lra|exact nl]). lra. }
  assert (GL : G (3 + length l + 1) <= G (length y + 4)) by (apply G_le; lia). pose proof (G1 prec (length y + 4)) as GG.
  set (h := G (length y + 4)) in *. clearbody h.
  assert (H1 : G (3 + length l + 1) * (SA' + tn) <= h * (SA' + tn)) by (apply Rmult_le_compat_r; lra).
  assert (H2 : h * (SA' + tn) <= h * (SA + (2 * e * sqrt V + e ^ 2 + 2 * tn))) by (apply Rmult_le_compat_l; lra).
  assert (H3 : (h - 1) * SA <= (h - 1) * V) by (apply Rmult_le_compat_l; lra). lra.
Qed.
(** ** autocorr *)
Lemma dvar_pos y : y <> [] -> (Z.of_nat (length y) <= 2 ^ prec)%Z -> emean y ^ 2 + tn <= dvar y.
Proof.
  intros NE N. unfold dvar. pose proof (G1 prec (length y + 3)). pose proof (G1 prec (length y)). pose proof (tn0 prec emax). pose proof (Rvar_nonneg (fv y)).
  pose proof (pow2_ge_0 (emean y)). assert (0 <= (G (length y + 3) - 1) * (Rvar (fv y) + emean y ^ 2)) by (apply Rmult_le_pos; lra). nra.
Qed.
Lemma FM256 (y : list spec_float) B : y <> [] -> 1 <= B -> 256 * INR (length y) * B ^ 2 <= FM -> 256 * INR (length y) <= FM.
Proof. intros NE B1 HM. pose proof (len1 y NE). assert (1 <= B ^ 2) by (cbn; nra). nra. Qed.
Lemma cov_var y k : y <> [] -> Rabs (cov y k) <= Rvar (fv y).
Proof.
  intros NE. unfold cov. rewrite cov_zip. pose proof (len1 y NE) as n1.
  pose proof (zip_bound (fun x => x - mu y) (fv y) (skipn k (fv y))) as Z. pose proof (Rsum_skipn_le (fun x => x - mu y) k (fv y)) as S.
  unfold fv in Z at 1 2. rewrite zip_shift_map, map_map in Z. cbn [fst snd] in Z.
  unfold Rdiv. rewrite Rabs_mult, (Rabs_right (/ _)) by (apply Rle_ge; left; apply Rinv_0_lt_compat; lra).
  rewrite Rvar_unfold. fold (mu y). replace (length (fv y)) with (length y) by (unfold fv; rewrite map_length; reflexivity).
  apply Rmult_le_compat_r; [left; apply Rinv_0_lt_compat; lra|]. lra.
Qed.
Lemma autocorr_final sz y k B : Forall fin y -> y <> [] -> (Z.of_nat (length y) <= 2 ^ prec)%Z -> 1 <= B -> (forall x, In x y -> Rabs (fval x) <= B) ->
  256 * INR (length y) * B ^ 2 <= FM ->
  let V := Rvar (fv y) in 2 * dvar y <= V ->
  let r := @autocorr _ (SFNum prec emax sz) y k in
  fin r /\ Rabs (fval r - cov y k / V) <= (1 + u) * ((dcov y + Rabs (cov y k / V) * dvar y) / (V - dvar y)) + u * Rabs (cov y k / V) + tn.
Proof.
  intros Fy NE N B1 HB HM V HV r. destruct (autocov_close sz y k B Fy NE N B1 HB HM) as [Fc Ec].
  destruct (var_final prec emax Hpe sz y B Fy NE N B1 HB HM) as [Fv [_ Ev]]. fold (emean y) in Ev. fold (dvar y) V in Ev.
  pose proof (tn0 prec emax) as T0. pose proof (tn1 prec emax Hpe) as T1. destruct (emean_bound y B NE N B1 HB) as [e0 _].
  pose proof (dvar_pos y NE N) as D0. pose proof (pow2_ge_0 (emean y)). pose proof (cov_var y k NE) as CV. fold V in CV.
  assert (R : r = SFdiv prec emax (autocov sz y k) (fst (@variance _ (SFNum prec emax sz) y))).
  { unfold r, autocorr, autocov. rewrite (mean_run prec emax sz y NE). cbn [fst]. destruct (@variance _ (SFNum prec emax sz) y). reflexivity. }
  rewrite R. apply quot_close; [exact Fc|exact Fv|exact Ec|exact Ev|lra|].
  assert (q1 : Rabs (cov y k / V) <= 1).
  { unfold Rdiv. rewrite Rabs_mult, (Rabs_right (/ V)) by (apply Rle_ge; left; apply Rinv_0_lt_compat; lra). apply Rmult_le_reg_r with V; [lra|]. rewrite Rmult_assoc, Rinv_l by lra. lra. }
  assert (es : emean y <= sqrt V). { rewrite <- (sqrt_pow2 (emean y)) by exact e0. apply sqrt_le_1_alt. lra. }
  assert (sV : sqrt V * sqrt V = V) by (apply sqrt_sqrt; lra). pose proof (sqrt_pos V).
  assert (Gn : G (length y + 4) <= 8) by (eapply Rle_trans; [apply (Gsmall (length y) 4 N)|]; cbn; lra). pose proof (G1 prec (length y + 4)).
  assert (DC : dcov y <= 39 * V).
  { unfold dcov. fold V. set (h := G (length y + 4)) in *. clearbody h.
    assert (emean y * sqrt V <= V) by nra. assert (h * (2 * emean y * sqrt V + emean y ^ 2 + 2 * tn) <= 8 * (2 * V + V / 2 + V)) by (apply Rmult_le_compat; nra).
    assert ((h - 1) * V <= 7 * V) by (apply Rmult_le_compat_r; lra). lra. }
  assert (E : (dcov y + Rabs (cov y k / V) * dvar y) / (V - dvar y) <= 80).
  { apply Rmult_le_reg_r with (V - dvar y); [lra|]. unfold Rdiv at 1. rewrite Rmult_assoc, Rinv_l by lra.
    assert (Rabs (cov y k / V) * dvar y <= 1 * dvar y) by (apply Rmult_le_compat_r; lra). lra. }
  pose proof (FM256 y B NE B1 HM). pose proof (len1 y NE). lra.
Qed.
(** ** stdev and zscore *)
Definition dsd (y : list spec_float) : R := let V := Rvar (fv y) in (1 + u) * (dvar y / sqrt V) + u * sqrt V.
Lemma stdev_rel sz y B : Forall fin y -> y <> [] -> (Z.of_nat (length y) <= 2 ^ prec)%Z -> 1 <= B -> (forall x, In x y -> Rabs (fval x) <= B) ->
  256 * INR (length y) * B ^ 2 <= FM -> 0 < Rvar (fv y) ->
  let s := fst (@stdev _ (SFNum prec emax sz) y) in
  fin s /\ 0 <= fval s /\ Rabs (fval s - sqrt (Rvar (fv y))) <= dsd y.
Proof.
  intros Fy NE N B1 HB HM HV. cbv zeta. rewrite stdev_run by exact NE. cbn [fst].
  destruct (var_final prec emax Hpe sz y B Fy NE N B1 HB HM) as [Fv [Pv Ev]]. fold (emean y) in Ev. fold (dvar y) in Ev.
  destruct (sqrt_close _ (Rvar (fv y)) _ Fv Pv ltac:(lra) Ev) as [F [P [_ E]]]. split; [exact F|]. split; [exact P|]. exact (E HV).
Qed.
Lemma sq_in_sum c x (y : list spec_float) : In x y -> (fval x - c) ^ 2 <= Rsum (map (fun x0 => (fval x0 - c) ^ 2) y).
Proof.
  intros Hx. induction y as [|a l IH]; [destruct Hx|]. cbn [map]. rewrite Rsum_cons.
  assert (0 <= Rsum (map (fun x0 => (fval x0 - c) ^ 2) l)) by (apply Rsum_nonneg; intros w Hw; apply in_map_iff in Hw as [t [<- _]]; apply pow2_ge_0).
  pose proof (pow2_ge_0 (fval a - c)). destruct Hx as [->|Hx]; [lra|specialize (IH Hx); lra].
Qed.
Lemma zscore_final sz y x B : Forall fin y -> y <> [] -> (Z.of_nat (length y) <= 2 ^ prec)%Z -> 1 <= B -> (forall x, In x y -> Rabs (fval x) <= B) ->
  256 * INR (length y) * B ^ 2 <= FM -> In x y ->
  let V := Rvar (fv y) in 0 < V -> 2 * dsd y <= sqrt V ->
  let m := fst (@mean _ (SFNum prec emax sz) y) in
  let s := fst (@stdev _ (SFNum prec emax sz) y) in
  let z := (fval x - mu y) / sqrt V in
  let dn := u * Rabs (fval x - mu y) + (1 + u) * emean y in
  let r := SFdiv prec emax (x ⊖ m) s in
  fin r /\ Rabs (fval r - z) <= (1 + u) * ((dn + Rabs z * dsd y) / (sqrt V - dsd y)) + u * Rabs z + tn.
Proof.
  intros Fy NE N B1 HB HM Hx V HV HD m s z dn r. destruct (mean_close sz y B Fy NE N B1 HB HM) as [Fm Em]. fold m in Fm, Em.
  destruct (stdev_rel sz y B Fy NE N B1 HB HM HV) as [Fs [_ Es]]. fold s V in Fs, Es.
  destruct (emean_bound y B NE N B1 HB) as [e0 e1]. pose proof (len1 y NE) as n1. pose proof (FM256 y B NE B1 HM) as FN.
  pose proof (tn0 prec emax) as T0. pose proof (u_pos prec) as U. pose proof (u14 prec emax Hpe) as U4.
  pose proof (mu_bound y B NE HB) as MB. pose proof (sqrt_lt_R0 V HV) as S0. assert (sV : sqrt V * sqrt V = V) by (apply sqrt_sqrt; lra).
  assert (Fx : fin x) by (rewrite Forall_forall in Fy; apply Fy, Hx).
  assert (d1 : Rabs (fval x - mu y) <= 2 * B). { unfold Rminus. eapply Rle_trans; [apply Rabs_triang|]. rewrite Rabs_Ropp. pose proof (HB x Hx). lra. }
  assert (B2 : B <= INR (length y) * B ^ 2). { assert (B <= B ^ 2) by (cbn; nra). nra. }
  destruct (dev_apx m x (mu y) (emean y) (33 / 8 * B) Fx Fm Em ltac:(lra) ltac:(lra)) as [Fd [_ [_ Ed]]]. rewrite pow_1 in Ed.
  assert (Ed' : Rabs (fval (x ⊖ m) - (fval x - mu y)) <= dn) by (unfold dn; lra).
  assert (dsd0 : 0 <= dsd y) by (pose proof (Rabs_pos (fval s - sqrt V)); lra).
  apply quot_close; [exact Fd|exact Fs|exact Ed'|exact Es|lra|]. fold z.
  assert (dv : dvar y <= V / 2).
  { unfold dsd in HD. fold V in HD. assert (Z : dvar y / sqrt V <= sqrt V / 2).
    { pose proof (dvar_pos y NE N) as D. pose proof (pow2_ge_0 (emean y)). assert (0 <= dvar y / sqrt V) by (apply Rmult_le_pos; [lra|left; apply Rinv_0_lt_compat, S0]). nra. }
    apply (Rmult_le_compat_r (sqrt V)) in Z; [|lra]. replace (dvar y / sqrt V * sqrt V) with (dvar y) in Z by (field; lra). lra. }
  assert (ee : emean y <= sqrt V). { rewrite <- (sqrt_pow2 (emean y)) by exact e0. apply sqrt_le_1_alt. pose proof (dvar_pos y NE N). lra. }
  assert (zb : Rabs z <= INR (length y)).
  { assert (Q : z ^ 2 <= INR (length y)).
    { unfold z, Rdiv. rewrite Rpow_mult_distr. apply Rmult_le_reg_r with V; [exact HV|]. rewrite Rmult_assoc.
      replace ((/ sqrt V) ^ 2 * V) with 1 by (rewrite <- sV at 2; field; lra). rewrite Rmult_1_r. unfold V. rewrite Rvar_unfold.
      replace (length (fv y)) with (length y) by (unfold fv; rewrite map_length; reflexivity). fold (mu y). unfold fv. rewrite map_map.
      replace (INR (length y) * (Rsum (map (fun x0 => (fval x0 - mu y) ^ 2) y) / INR (length y))) with (Rsum (map (fun x0 => (fval x0 - mu y) ^ 2) y)) by (field; lra).
      exact (sq_in_sum (mu y) x y Hx). }
    rewrite <- pow2_abs in Q. pose proof (Rabs_pos z). destruct (Rle_dec (Rabs z) 1); [lra|]. nra. }
  assert (zs : Rabs (fval x - mu y) = Rabs z * sqrt V).
  { unfold z, Rdiv. rewrite Rabs_mult, Rabs_inv, (Rabs_right (sqrt V)) by lra. field. lra. }
  assert (E : (dn + Rabs z * dsd y) / (sqrt V - dsd y) <= 4 * INR (length y) + 4).
  { apply Rmult_le_reg_r with (sqrt V - dsd y); [lra|]. unfold Rdiv at 1. rewrite Rmult_assoc, Rinv_l by lra. unfold dn. rewrite zs.
    pose proof (Rabs_pos z). assert (Rabs z * dsd y <= INR (length y) * (sqrt V / 2)) by (apply Rmult_le_compat; lra).
    assert (Rabs z * sqrt V <= INR (length y) * sqrt V) by (apply Rmult_le_compat_r; lra).
    assert ((4 * INR (length y) + 4) * (sqrt V / 2) <= (4 * INR (length y) + 4) * (sqrt V - dsd y)) by (apply Rmult_le_compat_l; lra).
    assert (u * (Rabs z * sqrt V) <= 1 / 4 * (Rabs z * sqrt V)) by (apply Rmult_le_compat_r; [apply Rmult_le_pos; lra|lra]).
    assert (u * emean y <= 1 / 4 * emean y) by (apply Rmult_le_compat_r; lra). nra. }
  lra.
Qed.
(** ** facts that hold exactly *)
Lemma fin_le x : fin x -> Rabs (fval x) <= FM.
Proof.
  intros F. destruct (finite_B prec emax x F) as [b [_ [_ V]]]. rewrite V, (fmax_eq prec emax). apply abs_B2R_le_emax_minus_prec. exact Hps2.
Qed.
Lemma sub_exact x y : fin x -> fin y -> fval y / 2 <= fval x <= 2 * fval y -> fval (x ⊖ y) = fval x - fval y /\ fin (x ⊖ y).
Proof.
  intros Fx Fy H. pose proof (finite_format prec emax x Fx) as Gx. pose proof (finite_format prec emax y Fy) as Gy.
  assert (Y0 : 0 <= fval y) by lra.
  assert (B : Rabs (fval x - fval y) <= FM).
  { pose proof (fin_le y Fy) as By. rewrite Rabs_right in By by lra. apply Rabs_le. lra. }
  destruct (fsub_ok prec emax Hps2 Hes2 x y Fx Fy B) as [F V]. split; [|exact F]. rewrite V. apply round_generic; [apply valid_rnd_N|].
  apply sterbenz; [apply FLT_exp_valid; exact Hps2|apply FLT_exp_monotone|exact Gx|exact Gy|exact H].
Qed.
Lemma div_self v : fin v -> fval v <> 0 -> fin (SFdiv prec emax v v) /\ fval (SFdiv prec emax v v) = 1.
Proof.
  intros F N. assert (E : fval v / fval v = 1) by (field; exact N). pose proof (FM4 prec emax Hpe) as M.
  destruct (fdiv_ok prec emax Hps2 Hes2 v v F F N) as [F' V]; [rewrite E, Rabs_R1; lra|]. split; [exact F'|]. rewrite V, E.
  apply round_generic; [apply valid_rnd_N|]. apply (int_format prec emax Hps2 Hes2 1). change (Z.abs 1) with (2 ^ 0)%Z. apply Z.pow_le_mono_r; lia.
Qed.
Lemma zip_diag {A C} (f : A -> A -> C) (l : list A) : map (fun p => f (fst p) (snd p)) (zip l l) = map (fun x => f x x) l.
Proof. induction l as [|a l IH]; [reflexivity|]. cbn. f_equal. exact IH. Qed.
Lemma autocorr_lag0 sz y : y <> [] -> let v := fst (@variance _ (SFNum prec emax sz) y) in
  @autocorr _ (SFNum prec emax sz) y 0 = SFdiv prec emax v v.
Proof.
  intros NE v. unfold v, autocorr, variance. rewrite (mean_run prec emax sz y NE).
  assert (L : Nat.ltb 0 (length y) = true) by (destruct y; [congruence|reflexivity]). rewrite L. cbn [fst skipn].
  rewrite (zip_diag (fun a b => nmul (nsub a _) (nsub b _)) y). reflexivity.
Qed.
Lemma dsq_nth (y : list spec_float) : dsq y = map (fun i => (nth (S i) (map fval y) 0 - nth i (map fval y) 0) ^ 2) (seq 0 (length y - 1)).
Proof.
  unfold dsq. destruct y as [|a y]; [reflexivity|]. cbn [skipn length Nat.sub]. rewrite Nat.sub_0_r. revert a.
  induction y as [|b y IH]; intros a; [reflexivity|]. cbn [zip map length seq]. f_equal. rewrite <- seq_shift, map_map. exact (IH b).
Qed.
End Stats2.
