(** Order is respected by the rounded computations, exactly: raising samples never lowers their
    mean, median or root mean square; standardising never reorders samples; and a filter with
    non-negative weights never sends a lower signal above a higher one.  All floats of the format
    are covered: overflow, infinities and (except for the median) NaN. *)
From Coq Require Import QArith Reals ZArith SpecFloat List Bool Lia Lra Psatz.
From Verif Require Import Base Num M_Filter M_Stats S_Stats S_Filter S_Float P_Median ListUtil P_Float P_FloatStats P_FloatCplx P_Sosfilt S_Order P_Order.
Import ListNotations.
Local Open Scope R_scope.

(** * C129 *)
(** What "not above" says about two floats that are not NaN. *)
Theorem C129_not_above_le prec emax x y : (1 < prec < emax)%Z -> format prec emax x -> format prec emax y ->
  x <> S754_nan -> y <> S754_nan -> (not_above x y <-> SFleb x y = true).
Proof.
  intros P A B X Y. split.
  - intros N. destruct (nab_cases prec emax x y A B N) as [[Fx [Fy L]]|[->|[->|[->| ->]]]]; try congruence.
    + rewrite (le_val prec emax x y Fx Fy). unfold Rleb. destruct (Rle_dec _ _); [reflexivity|contradiction].
    + destruct y as [s|s| |s m e]; try congruence; try destruct s; reflexivity.
    + destruct x as [s|s| |s m e]; try congruence; try destruct s; reflexivity.
  - intros L. unfold not_above. destruct (SFltb y x) eqn:E; [|reflexivity]. exfalso.
    assert (K : SFltb x y = false) by (apply SFltb_asym, E).
    destruct (fmt_cases prec emax x A) as [Fx|[->|[->| ->]]]; try congruence.
    + destruct (fmt_cases prec emax y B) as [Fy|[->|[->| ->]]]; try congruence.
      * rewrite (le_val prec emax x y Fx Fy) in L. rewrite (lt_val prec emax y x Fy Fx) in E. unfold Rleb in L. unfold Rltb in E. destruct (Rle_dec _ _); [|discriminate]. destruct (Rlt_dec _ _); [lra|discriminate].
      * destruct Fx as [_ Fx]. destruct x as [s|s| |s m e]; try contradiction; try destruct s; discriminate.
      * destruct Fx as [_ Fx]. destruct x as [s|s| |s m e]; try contradiction; try destruct s; discriminate.
    + destruct y as [s|s| |s m e]; try congruence; try destruct s; discriminate.
    + destruct y as [s|s| |s m e]; try congruence; try destruct s; discriminate.
Qed.
Print Assumptions C129_not_above_le.

(** Raise any samples: the mean does not go down. *)
Theorem C129_mean_monotone prec emax szero x y : (1 < prec < emax)%Z ->
  Forall (format prec emax) x -> Forall (format prec emax) y -> Forall2 not_above x y ->
  not_above (fst (@mean _ (SFNum prec emax szero) x)) (fst (@mean _ (SFNum prec emax szero) y)).
Proof. intros P A B H. apply (mean_le2 prec emax P szero x y). apply le2_intro; assumption. Qed.
Print Assumptions C129_mean_monotone.

(** For finite samples the means are numbers or infinities, and "<=" holds between them, even when
    the sums overflow. *)
Section FiniteMean.
Variables (prec emax : Z) (szero : bool).
Hypothesis P : (1 < prec < emax)%Z.
Local Instance NFM : Num spec_float := SFNum prec emax szero.
Lemma nan_free_add a v : a <> S754_nan -> finite prec emax v -> SFadd prec emax a v <> S754_nan.
Proof.
  intros N Fv. destruct a as [s|s| |s m e]; [| |congruence|].
  - destruct (add_rep prec emax P (S754_zero s) v) as [[F _]|[[-> _]|[-> _]]]; try discriminate; [split; [reflexivity|exact I]|exact Fv|]. intros E. rewrite E in F. destruct F as [_ []].
  - destruct Fv as [_ Fv]. destruct v; try contradiction; discriminate.
  - destruct v as [t|t| |t n g]; try (destruct Fv as [_ []]; fail); [discriminate|]. cbn [SFadd]. rewrite (normalize_equiv prec emax (Hpo prec emax P) (Heo prec emax P)).
    intros E. assert (K : Flocq.IEEE754.BinarySingleNaN.is_nan (Flocq.IEEE754.BinarySingleNaN.binary_normalize prec emax (Hpo prec emax P) (Heo prec emax P) Flocq.IEEE754.BinarySingleNaN.mode_NE
       (cond_Zopp s (Z.pos (fst (shl_align m e (Z.min e g)))) + cond_Zopp t (Z.pos (fst (shl_align n g (Z.min e g)))))%Z (Z.min e g) false) = false).
    { apply Flocq.IEEE754.BinarySingleNaN.is_nan_binary_normalize. }
    destruct (Flocq.IEEE754.BinarySingleNaN.binary_normalize _ _ _ _ _ _ _ _); discriminate.
Qed.
Lemma nan_free_fold l a : a <> S754_nan -> Forall (finite prec emax) l -> fold_left nadd l a <> S754_nan.
Proof. intros N H. revert a N. induction H as [|v l Fv H IH]; intros a N; [exact N|]. cbn [fold_left]. apply IH, nan_free_add; assumption. Qed.
Lemma nan_free_mean l : (Z.of_nat (length l) <= 2 ^ prec)%Z -> Forall (finite prec emax) l -> fst (mean l) <> S754_nan.
Proof.
  intros B H. rewrite (mean_eq_fold prec emax szero). destruct l as [|v l]; [discriminate|]. cbn [fst].
  destruct (count_ok prec emax P (length (v :: l)) B) as [Fc Vc].
  assert (N : fold_left nadd (v :: l) nzero <> S754_nan) by (apply nan_free_fold; [discriminate|exact H]).
  assert (Fm : format prec emax (fold_left nadd (v :: l) nzero)).
  { apply (fold_fmt prec emax P szero); [reflexivity|]. apply Forall_forall. intros z I. rewrite Forall_forall in H. apply fin_fmt, H, I. }
  assert (Hc : fval (nofZ (Z.of_nat (length (v :: l)))) <> 0).
  { change (nofZ (Z.of_nat (length (v :: l)))) with (SpecFloat.binary_normalize prec emax (Z.of_nat (length (v :: l))) 0 false). rewrite Vc. apply not_0_INR. discriminate. }
  set (c := nofZ (Z.of_nat (length (v :: l)))) in *. change (finite prec emax c) in Fc. set (s := fold_left nadd (v :: l) nzero) in *.
  change (SFdiv prec emax s c <> S754_nan).
  destruct (fmt_cases prec emax s Fm) as [F|[->|[->| ->]]]; [| | |congruence].
  - destruct (div_rep prec emax P s c F Fc Hc) as [[F' _]|[[-> _]|[-> _]]]; try discriminate. intros E. rewrite E in F'. destruct F' as [_ []].
  - destruct Fc as [_ Fc]. destruct c; try contradiction; discriminate.
  - destruct Fc as [_ Fc]. destruct c; try contradiction; discriminate.
Qed.
End FiniteMean.
Theorem C129_mean_monotone_finite prec emax szero x y : (1 < prec < emax)%Z -> (Z.of_nat (length x) <= 2 ^ prec)%Z ->
  Forall (finite prec emax) x -> Forall (finite prec emax) y -> Forall2 (fun a b => SFleb a b = true) x y ->
  SFleb (fst (@mean _ (SFNum prec emax szero) x)) (fst (@mean _ (SFNum prec emax szero) y)) = true.
Proof.
  intros P B Fx Fy H. assert (L : length y = length x) by (apply (f2_length _ _ _ H)).
  assert (A1 : Forall (format prec emax) x) by (apply Forall_forall; intros z I; rewrite Forall_forall in Fx; apply fin_fmt, Fx, I).
  assert (A2 : Forall (format prec emax) y) by (apply Forall_forall; intros z I; rewrite Forall_forall in Fy; apply fin_fmt, Fy, I).
  apply (C129_not_above_le prec emax _ _ P).
  - apply (mean_fmt prec emax P szero), A1.
  - apply (mean_fmt prec emax P szero), A2.
  - apply nan_free_mean; assumption.
  - apply nan_free_mean; try assumption. rewrite L. exact B.
  - apply C129_mean_monotone; try assumption. clear A1 A2 L B. revert Fx Fy. induction H as [|a b x y Hab H IH]; intros Fx Fy; constructor.
    + inversion Fx; inversion Fy; subst. apply (C129_not_above_le prec emax a b P); try (apply fin_fmt; assumption); try exact Hab.
      * intros ->. match goal with F : finite _ _ S754_nan |- _ => destruct F as [_ []] end.
      * intros ->. match goal with F : finite _ _ S754_nan |- _ => destruct F as [_ []] end.
    + inversion Fx; inversion Fy; subst. auto.
Qed.
Print Assumptions C129_mean_monotone_finite.

(** The median, for samples that are not NaN. *)
Theorem C129_median_monotone prec emax szero x y : (1 < prec < emax)%Z -> x <> [] ->
  Forall (fun v => format prec emax v /\ v <> S754_nan) x -> Forall (fun v => format prec emax v /\ v <> S754_nan) y ->
  Forall2 not_above x y ->
  exists m m', @median _ (SFNum prec emax szero) x = Ok (m, length x) /\ @median _ (SFNum prec emax szero) y = Ok (m', length y) /\ not_above m m'.
Proof.
  intros P E A B H. rewrite (f2_length _ _ _ H). rewrite Forall_forall in A, B. apply (median_nab prec emax P szero); try assumption.
  - intros I. destruct (A _ I) as [_ N]. congruence.
  - intros I. destruct (B _ I) as [_ N]. congruence.
  - apply Forall_forall. intros v I. apply (A v I).
  - apply Forall_forall. intros v I. apply (B v I).
Qed.
Print Assumptions C129_median_monotone.

(** The root mean square, raising absolute values. *)
Theorem C129_rms_monotone prec emax szero x y : (1 < prec < emax)%Z ->
  Forall (format prec emax) x -> Forall (format prec emax) y -> Forall2 (fun a b => not_above (SFabs a) (SFabs b)) x y ->
  not_above (@rms_fast32 _ (SFNum prec emax szero) x) (@rms_fast32 _ (SFNum prec emax szero) y).
Proof.
  intros P A B H. apply (rms_le2 prec emax P szero x y). induction H as [|a b x y Hab H IH]; constructor.
  - inversion A; inversion B; subst. split; [assumption|]. split; assumption.
  - inversion A; inversion B; subst. auto.
Qed.
Print Assumptions C129_rms_monotone.

(** Standardising does not reorder samples. *)
Theorem C129_zscore_order prec emax szero x i j : (1 < prec < emax)%Z -> Forall (format prec emax) x ->
  (i < length x)%nat -> (j < length x)%nat -> not_above (nth i x S754_nan) (nth j x S754_nan) ->
  let z := @zscore _ (SFNum prec emax szero) x in
  length z = length x /\ not_above (nth i z S754_nan) (nth j z S754_nan).
Proof.
  intros P A Hi Hj H z. unfold z, zscore. cbv zeta. rewrite map_length. split; [reflexivity|].
  set (f := fun yi : spec_float => _). rewrite (nth_indep _ S754_nan (f S754_nan)) by (rewrite map_length; exact Hi).
  rewrite (nth_indep _ S754_nan (f S754_nan) (n := j)) by (rewrite map_length; exact Hj). rewrite !map_nth.
  apply (zscore_nab prec emax P szero x); try assumption; apply nth_In; assumption.
Qed.
Print Assumptions C129_zscore_order.
Theorem C129_mod_zscore_order prec emax szero x : (1 < prec < emax)%Z -> Forall (format prec emax) x ->
  finite prec emax (@nofQ _ (SFNum prec emax szero) (6745 # 10000)%Q) ->
  exists z, @mod_zscore _ (SFNum prec emax szero) x = Ok z /\ length z = length x /\
    forall i j, (i < length x)%nat -> (j < length x)%nat -> not_above (nth i x S754_nan) (nth j x S754_nan) ->
      not_above (nth i z S754_nan) (nth j z S754_nan).
Proof.
  intros P A Fk. set (NF := SFNum prec emax szero) in *.
  assert (Md : forall l : list spec_float, exists m, @median _ NF l = Ok (m, length l)).
  { intros l. apply median_safe; [intros a _; apply SFltb_irrefl|intros a b _ _; apply SFltb_asym|]. intros a b _ _. eexists. reflexivity. }
  destruct (Md x) as [m Em]. assert (Fm : format prec emax m) by (apply (median_prop prec emax szero (fun v => format prec emax v) x (m, length x)); [reflexivity|apply (half_fmt prec emax P szero)|exact A|exact Em]).
  assert (Dd : exists d n, @median_abs_deviation _ NF x = Ok (d, n)).
  { unfold median_abs_deviation. rewrite Em. cbn [bind]. destruct (Md (map (fun yi => nabs (nsub yi m)) x)) as [d Ed]. exists d. eexists. exact Ed. }
  destruct Dd as (d & n & Ed). pose proof (mad_plus prec emax szero x (d, n) Ed) as Pd. pose proof (mad_fmt prec emax P szero x (d, n) A Ed) as Fd. cbn [fst] in Pd, Fd.
  unfold mod_zscore. rewrite Em. cbn [bind]. rewrite Ed. cbn [bind]. eexists. split; [reflexivity|]. rewrite map_length. split; [reflexivity|].
  intros i j Hi Hj H. set (f := fun yi : spec_float => _). rewrite (nth_indep _ S754_nan (f S754_nan)) by (rewrite map_length; exact Hi).
  rewrite (nth_indep _ S754_nan (f S754_nan) (n := j)) by (rewrite map_length; exact Hj). rewrite !map_nth. rewrite Forall_forall in A.
  assert (Ii : format prec emax (nth i x S754_nan)) by (apply A, nth_In, Hi). assert (Ij : format prec emax (nth j x S754_nan)) by (apply A, nth_In, Hj).
  assert (Ps : 0 <= fval (@nofQ _ NF (6745 # 10000)%Q)).
  { assert (Q : plus (@nofQ _ NF (6745 # 10000)%Q)) by (apply (div_plus prec emax (S754_finite false 6745 0) (S754_finite false 10000 0)); reflexivity).
    pose proof (fin_sign prec emax _ Fk) as Sg. destruct (@nofQ _ NF (6745 # 10000)%Q) as [s|s| |s mm e]; cbn [plus] in Q; try (cbn; lra). subst s. lra. }
  assert (Fs : forall v, format prec emax v -> format prec emax (SFsub prec emax v m)) by (intros v Fv; apply (sub_fmt prec emax P); assumption).
  set (k := @nofQ _ NF (6745 # 10000)%Q) in *. pose proof (fin_fmt prec emax k Fk) as Ff.
  apply (div_mono prec emax P); [exact Fd|exact Pd|apply (mul_fmt prec emax P); [apply Fs|]; assumption|apply (mul_fmt prec emax P); [apply Fs|]; assumption|].
  change (not_above (SFmul prec emax (SFsub prec emax (nth i x S754_nan) m) k) (SFmul prec emax (SFsub prec emax (nth j x S754_nan) m) k)).
  rewrite !(mul_comm prec emax _ k). apply (mul_mono prec emax P); auto. apply (sub_mono prec emax P); auto. apply nab_refl.
Qed.
Print Assumptions C129_mod_zscore_order.

(** A chain of sections with non-negative weights keeps signals in order, sample by sample. *)
Theorem C129_sosfilt_monotone prec emax szero x y l l' : (1 < prec < emax)%Z ->
  Forall (format prec emax) x -> Forall (format prec emax) y -> Forall2 not_above x y ->
  Forall (smoothing prec emax) l -> Forall2 (state_not_above prec emax) l l' ->
  exists u r v r', @sosfilt_dyn _ (SFNum prec emax szero) x l = Ok (u, r) /\ @sosfilt_dyn _ (SFNum prec emax szero) y l' = Ok (v, r') /\
    length u = length x /\ Forall2 not_above u v.
Proof.
  intros P A B H Hs Hl. pose proof (filt_le2 prec emax P szero x y l l' (le2_intro prec emax x y A B H) Hs Hl) as Q.
  exists (fst (@filt _ (SFNum prec emax szero) x l)), (snd (@filt _ (SFNum prec emax szero) x l)), (fst (@filt _ (SFNum prec emax szero) y l')), (snd (@filt _ (SFNum prec emax szero) y l')).
  split; [rewrite sosfilt_dyn_pure, <- surjective_pairing; reflexivity|]. split; [rewrite sosfilt_dyn_pure, <- surjective_pairing; reflexivity|].
  split; [apply filt_length_out|]. apply (le2_nab prec emax). exact Q.
Qed.
Print Assumptions C129_sosfilt_monotone.

(** A case that meets the hypotheses: exponential smoothing y[n] = x[n]/4 + 3/4 y[n-1] in f64, twice
    over, at rest; and the section it is about. *)
Definition smoother : Sos spec_float :=
  mkSos (S754_finite false 4503599627370496 (-54)) (S754_zero false) (S754_zero false)
        (S754_finite false 4503599627370496 (-52)) (S754_finite true 6755399441055744 (-53)) (S754_zero false) (S754_zero false) (S754_zero false).
Lemma fval_sign (s : bool) m e : if s then fval (S754_finite s m e) <= 0 else 0 <= fval (S754_finite s m e).
Proof.
  cbn [fval]. assert (0 < IZR (Z.pos m)) by (apply IZR_lt; reflexivity). pose proof (powerRZ_lt 2 e ltac:(lra)).
  assert (0 < IZR (Z.pos m) * powerRZ 2 e) by (apply Rmult_lt_0_compat; assumption). destruct s; lra.
Qed.
Example C129_ex : Forall (smoothing 53 1024) [smoother; smoother] /\ Forall2 (state_not_above 53 1024) [smoother; smoother] [smoother; smoother] /\
  (forall x y, Forall (finite 53 1024) x -> Forall (finite 53 1024) y -> Forall2 not_above x y ->
     exists u r v r', @sosfilt_dyn _ F64Num x [smoother; smoother] = Ok (u, r) /\ @sosfilt_dyn _ F64Num y [smoother; smoother] = Ok (v, r') /\ length u = length x /\ Forall2 not_above u v).
Proof.
  assert (A : smoothing 53 1024 smoother).
  { split; [repeat constructor|]. split.
    - constructor; [apply (fval_sign false)|]. constructor; [apply Rle_refl|]. constructor; [apply Rle_refl|constructor].
    - constructor; [apply (fval_sign true)|]. constructor; [apply Rle_refl|constructor]. }
  assert (B : state_not_above 53 1024 smoother smoother) by (repeat split; repeat constructor).
  split; [constructor; [exact A|constructor; [exact A|constructor]]|]. split; [constructor; [exact B|constructor; [exact B|constructor]]|].
  intros x y Fx Fy H. apply (C129_sosfilt_monotone 53 1024 true); [lia| | |exact H|constructor; [exact A|constructor; [exact A|constructor]]|constructor; [exact B|constructor; [exact B|constructor]]].
  - apply Forall_forall. intros z I. rewrite Forall_forall in Fx. apply fin_fmt, Fx, I.
  - apply Forall_forall. intros z I. rewrite Forall_forall in Fy. apply fin_fmt, Fy, I.
Qed.
(** The signs matter: with y[n] = x[n] - y[n-1]/2 the signal 1, 0 is above 0, 0 and its output is not. *)
Example C129_sign_needed : let one := S754_finite false 4503599627370496 (-52) in let half := S754_finite false 4503599627370496 (-53) in let z := S754_zero false in
  let s := mkSos one z z one half z z z in
  Forall2 not_above [z; z] [one; z] /\
  exists u r v r', @sosfilt_dyn _ F64Num [z; z] [s] = Ok (u, r) /\ @sosfilt_dyn _ F64Num [one; z] [s] = Ok (v, r') /\ ~ Forall2 not_above u v.
Proof.
  split; [repeat constructor|]. do 4 eexists. split; [vm_compute; reflexivity|]. split; [vm_compute; reflexivity|].
  intros K. inversion K as [|? ? ? ? _ K1]; subst. inversion K1 as [|? ? ? ? K2 _]; subst. discriminate K2.
Qed.
(** The literal 0.6745 is finite in f32 and f64. *)
Example C129_literal_ex : finite 53 1024 (@nofQ _ F64Num (6745 # 10000)%Q) /\ finite 24 128 (@nofQ _ F32Num (6745 # 10000)%Q).
Proof. vm_compute. repeat split. Qed.
(** Overflow is covered: twice the largest f64, then raised, has an infinite mean, which is not below. *)
Example C129_overflow_ex : let m := S754_finite false 9007199254740991 971 in
  fst (@mean _ F64Num [m; m]) = S754_infinity false /\ not_above (fst (@mean _ F64Num [S754_zero false; m])) (fst (@mean _ F64Num [m; m])).
Proof. vm_compute. split; reflexivity. Qed.
