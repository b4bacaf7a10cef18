(** Theorems about rounding: the statistics at IEEE 754 binary formats (f32 is
    prec 24, emax 128; f64 is prec 53, emax 1024).  [szero] is the sign of the zero that
    [Iterator::sum] starts from, which depends on the Rust version. *)
From Coq Require Import Reals ZArith SpecFloat List Lia Lra.
From Verif Require Import Base Num M_Stats S_Stats S_Float P_Float P_FloatStats P_FloatMed.
Import ListNotations.
Local Open Scope R_scope.

(** * C73 *)
Theorem C73_mean_rounding : forall prec emax szero (y : list spec_float),
  (1 < prec < emax)%Z -> y <> [] -> (Z.of_nat (length y) <= 2 ^ prec)%Z ->
  Forall (finite prec emax) y ->
  (1 + uround prec) ^ (length y - 1) * Rsum (map (fun x => Rabs (fval x)) y) <= fmax prec emax ->
  let m := fst (@mean _ (SFNum prec emax szero) y) in
  finite prec emax m /\
  Rabs (fval m - Rmean (map fval y)) <=
    ((1 + uround prec) ^ length y - 1) * Rmean (map (fun x => Rabs (fval x)) y) + ftiny prec emax.
Proof. intros prec emax sz y Hpe NE N Fy B. exact (mean_final prec emax Hpe sz y Fy NE N B). Qed.

(** * C74 *)
Theorem C74_variance_rounding : forall prec emax szero (y : list spec_float) B,
  (1 < prec < emax)%Z -> y <> [] -> (Z.of_nat (length y) <= 2 ^ prec)%Z ->
  Forall (finite prec emax) y ->
  1 <= B -> (forall x, In x y -> Rabs (fval x) <= B) -> 256 * INR (length y) * B ^ 2 <= fmax prec emax ->
  let g := 1 + uround prec in
  let n := length y in
  let V := Rvar (map fval y) in
  let e := (g ^ n - 1) * Rmean (map (fun x => Rabs (fval x)) y) + ftiny prec emax in
  let v := fst (@variance _ (SFNum prec emax szero) y) in
  finite prec emax v /\ 0 <= fval v /\
  Rabs (fval v - V) <= (g ^ (n + 3) - 1) * (V + e ^ 2) + e ^ 2 + (g ^ n + 1) * ftiny prec emax.
Proof. intros prec emax sz y B Hpe NE N Fy B1 HB HM. exact (var_final prec emax Hpe sz y B Fy NE N B1 HB HM). Qed.

Theorem C74_stdev_rounding : forall prec emax szero (y : list spec_float) B,
  (1 < prec < emax)%Z -> y <> [] -> (Z.of_nat (length y) <= 2 ^ prec)%Z ->
  Forall (finite prec emax) y ->
  1 <= B -> (forall x, In x y -> Rabs (fval x) <= B) -> 256 * INR (length y) * B ^ 2 <= fmax prec emax ->
  let g := 1 + uround prec in
  let n := length y in
  let V := Rvar (map fval y) in
  let e := (g ^ n - 1) * Rmean (map (fun x => Rabs (fval x)) y) + ftiny prec emax in
  let d := (g ^ (n + 3) - 1) * (V + e ^ 2) + e ^ 2 + (g ^ n + 1) * ftiny prec emax in
  let s := fst (@stdev _ (SFNum prec emax szero) y) in
  finite prec emax s /\ 0 <= fval s /\
  Rabs (fval s - sqrt V) <= g * sqrt d + uround prec * sqrt V.
Proof.
  intros prec emax sz y B Hpe NE N Fy B1 HB HM. cbv zeta.
  destruct (var_final prec emax Hpe sz y B Fy NE N B1 HB HM) as [Fv [Pv Ev]]. cbv zeta in Fv, Pv, Ev.
  destruct (stdev_final prec emax Hpe sz y NE Fv Pv) as [Fs [Ps Es]]. cbv zeta in Fs, Ps, Es.
  split; [exact Fs|]. split; [exact Ps|].
  unfold fv, fa in Ev. set (V := Rvar (map fval y)) in *.
  match type of Ev with _ <= ?d => set (D := d) in * end.
  assert (V0 : 0 <= V) by apply P_Stats.Rvar_nonneg.
  assert (D0 : 0 <= D) by (eapply Rle_trans; [apply Rabs_pos|exact Ev]).
  set (v := fval (fst (@variance _ _ y))) in *. set (s := fval (fst (@stdev _ _ y))) in *.
  pose proof (sqrt_diff v V D Pv V0 D0 Ev) as E. pose proof (u_pos prec) as U. set (u := uround prec) in *.
  assert (K : sqrt v <= sqrt V + sqrt D) by (pose proof (Rle_abs (sqrt v - sqrt V)); lra).
  replace (s - sqrt V) with ((s - sqrt v) + (sqrt v - sqrt V)) by ring. eapply Rle_trans; [apply Rabs_triang|]. nra.
Qed.

(** * C75 *)
Theorem C75_median_rounding : forall prec emax szero (y : list spec_float),
  (1 < prec < emax)%Z -> y <> [] -> Forall (finite prec emax) y ->
  (forall x, In x y -> Rabs (fval x) <= fmax prec emax / 2) ->
  exists m c, @median _ (SFNum prec emax szero) y = Ok (m, length y) /\ finite prec emax m /\
    is_median (map fval y) c /\
    (Nat.Odd (length y) -> fval m = c /\ In m y) /\
    Rabs (fval m - c) <= ((1 + uround prec) ^ 2 - 1) * Rabs c + ftiny prec emax /\
    (exists lo hi, In lo y /\ In hi y /\ fval lo <= fval m <= fval hi).
Proof. intros prec emax sz y Hpe NE Fy HB. exact (median_final prec emax Hpe sz y Fy NE HB). Qed.

(** Beyond half of the largest number the half-sum overflows. *)
Definition f64_max : spec_float := S754_finite false 9007199254740991 971.
Theorem C75_median_overflow_refuted :
  finite 53 1024 f64_max /\ @median _ F64Num [f64_max; f64_max] = Ok (S754_infinity false, 2%nat).
Proof. split; [split; [vm_compute; reflexivity|exact I]|vm_compute; reflexivity]. Qed.

(** * C76 *)
Theorem C76_exact_facts_partial : forall prec emax szero (y : list spec_float),
  (1 < prec < emax)%Z -> y <> [] -> (Z.of_nat (length y) <= 2 ^ prec)%Z -> Forall (finite prec emax) y ->
  (forall x, In x y -> exists z, fval x = IZR z) ->
  Rsum (map (fun x => Rabs (fval x)) y) <= powerRZ 2 prec ->
  (forall lo hi, finite prec emax lo -> finite prec emax hi ->
     (forall x, In x y -> fval lo <= fval x <= fval hi) ->
     fval lo <= fval (fst (@mean _ (SFNum prec emax szero) y)) <= fval hi) /\
  (forall c, In c y -> (forall x, In x y -> fval x = fval c) ->
     fval (fst (@mean _ (SFNum prec emax szero) y)) = fval c /\
     fval (fst (@variance _ (SFNum prec emax szero) y)) = 0).
Proof.
  intros prec emax sz y Hpe NE N Fy Iy B. apply Forall_forall in Iy. split.
  - intros lo hi Fl Fh H. exact (int_mean_range prec emax Hpe sz y lo hi Fy Iy NE N B Fl Fh H).
  - intros c Ic H. exact (int_var_zero prec emax Hpe sz y c Fy Iy NE N B Ic H).
Qed.
Example C76_ex : let y := repeat (S754_finite false 7881299347898368 (-50)) 3 in
  Forall (finite 53 1024) y /\ (forall x, In x y -> exists z, fval x = IZR z) /\
  Rsum (map (fun x => Rabs (fval x)) y) <= powerRZ 2 53.
Proof.
  assert (P : IZR 7881299347898368 * powerRZ 2 (-50) = 7).
  { change (-50)%Z with (- Z.of_nat 50)%Z. rewrite powerRZ_neg' by lra. rewrite <- pow_powerRZ.
    replace 7881299347898368%Z with (7 * 2 ^ Z.of_nat 50)%Z by (vm_compute; reflexivity). rewrite mult_IZR, <- pow_IZR.
    assert (0 < 2 ^ 50) by (apply pow_lt; lra). generalize dependent (2 ^ 50). intros q Hq. field. lra. }
  assert (V : fval (S754_finite false 7881299347898368 (-50)) = 7) by (unfold fval; rewrite Rmult_1_l; exact P).
  cbv zeta. split; [repeat constructor; vm_compute; reflexivity|]. split.
  - intros x Hx. apply repeat_spec in Hx. subst x. exists 7%Z. exact V.
  - cbn [repeat map Rsum fold_right]. rewrite V, Rabs_pos_eq by lra.
    change 53%Z with (Z.of_nat 53). rewrite <- pow_powerRZ. apply Rle_trans with (2 ^ 10); [lra|]. apply Rle_pow; [lra|lia].
Qed.

(** The mean of equal samples need not be that sample: it can be larger and smaller. *)
Definition f64_tenth : spec_float := S754_finite false 7205759403792794 (-56).
Theorem C76_mean_range_refuted :
  finite 53 1024 f64_tenth /\
  (fval f64_tenth < fval (fst (@mean _ F64Num (repeat f64_tenth 3)))) /\
  (fval (fst (@mean _ F64Num (repeat f64_tenth 6))) < fval f64_tenth).
Proof.
  assert (E3 : fst (@mean _ F64Num (repeat f64_tenth 3)) = S754_finite false 7205759403792795 (-56)) by (vm_compute; reflexivity).
  assert (E6 : fst (@mean _ F64Num (repeat f64_tenth 6)) = S754_finite false 7205759403792793 (-56)) by (vm_compute; reflexivity).
  split; [split; [vm_compute; reflexivity|exact I]|]. rewrite E3, E6. unfold f64_tenth, fval.
  assert (P : 0 < powerRZ 2 (-56)) by (apply powerRZ_lt; lra). generalize dependent (powerRZ 2 (-56)). intros p P. split; lra.
Qed.

(** The variance of equal samples need not be zero. *)
Theorem C76_variance_zero_refuted :
  0 < fval (fst (@variance _ F64Num (repeat f64_tenth 3))).
Proof.
  assert (E : fst (@variance _ F64Num (repeat f64_tenth 3)) = S754_finite false 4503599627370496 (-164)) by (vm_compute; reflexivity).
  rewrite E. unfold fval. assert (P : 0 < powerRZ 2 (-164)) by (apply powerRZ_lt; lra).
  generalize dependent (powerRZ 2 (-164)). intros p P. lra.
Qed.

(** The hypotheses are met, e.g. by 0.1, 0.2, 0.3 in f64. *)
Definition f64_ex : list spec_float :=
  [f64_tenth; S754_finite false 7205759403792794 (-55); S754_finite false 5404319552844595 (-54)].
Example C73_ex : Forall (finite 53 1024) f64_ex /\ (forall x, In x f64_ex -> Rabs (fval x) <= 1) /\
  (1 + uround 53) ^ (length f64_ex - 1) * Rsum (map (fun x => Rabs (fval x)) f64_ex) <= fmax 53 1024 /\
  256 * INR (length f64_ex) * 1 ^ 2 <= fmax 53 1024 /\ not_all_equal (map fval f64_ex).
Proof.
  assert (Q : forall m k, (Zpos m <= 2 ^ Z.of_nat k)%Z -> Rabs (fval (S754_finite false m (- Z.of_nat k))) <= 1).
  { intros m k H. unfold fval. rewrite Rmult_1_l. rewrite powerRZ_neg' by lra.
    assert (P : 0 < 2 ^ k) by (apply pow_lt; lra). rewrite <- pow_powerRZ.
    rewrite Rabs_pos_eq by (apply Rmult_le_pos; [apply IZR_le; lia|left; apply Rinv_0_lt_compat, P]).
    apply (Rmult_le_reg_r (2 ^ k)); [exact P|]. rewrite Rmult_assoc, Rinv_l by lra.
    rewrite Rmult_1_r, Rmult_1_l. apply IZR_le in H. rewrite <- pow_IZR in H. exact H. }
  assert (A : forall x, In x f64_ex -> Rabs (fval x) <= 1).
  { intros x [<-|[<-|[<-|[]]]].
    - apply (Q _ 56%nat). vm_compute. discriminate.
    - apply (Q _ 55%nat). vm_compute. discriminate.
    - apply (Q _ 54%nat). vm_compute. discriminate. }
  assert (M : 1000 <= fmax 53 1024).
  { unfold fmax. assert (1001 <= powerRZ 2 53).
    { change 53%Z with (Z.of_nat 53). rewrite <- pow_powerRZ. apply Rle_trans with (2 ^ 10); [lra|]. apply Rle_pow; [lra|lia]. }
    assert (1 <= powerRZ 2 (1024 - 53)).
    { change (1024 - 53)%Z with (Z.of_nat 971). rewrite <- pow_powerRZ. apply pow_R1_Rle. lra. }
    nra. }
  split; [repeat constructor; vm_compute; reflexivity|]. split; [exact A|]. split; [|split].
  - pose proof (A _ (or_introl eq_refl)). pose proof (A _ (or_intror (or_introl eq_refl))).
    pose proof (A _ (or_intror (or_intror (or_introl eq_refl)))).
    pose proof (u14 53 1024 ltac:(lia)). pose proof (u0 53).
    assert (S0 : 0 <= Rsum (map (fun x => Rabs (fval x)) f64_ex)) by apply fa_nonneg.
    assert (S : Rsum (map (fun x => Rabs (fval x)) f64_ex) <= 3) by (cbn [f64_ex map Rsum fold_right]; lra).
    change (length f64_ex - 1)%nat with 2%nat. nra.
  - cbn. lra.
  - exists (fval f64_tenth), (fval (S754_finite false 7205759403792794 (-55))). split; [left; reflexivity|].
    split; [right; left; reflexivity|]. unfold f64_tenth, fval.
    assert (P : 0 < powerRZ 2 (-56)) by (apply powerRZ_lt; lra).
    replace (powerRZ 2 (-55)) with (2 * powerRZ 2 (-56)).
    + generalize dependent (powerRZ 2 (-56)). intros p P. lra.
    + change (-55)%Z with (1 + -56)%Z. rewrite powerRZ_add by lra. rewrite powerRZ_1. reflexivity.
Qed.

Print Assumptions C73_mean_rounding.
Print Assumptions C76_exact_facts_partial.
Print Assumptions C76_mean_range_refuted.
Print Assumptions C74_variance_rounding.
Print Assumptions C74_stdev_rounding.
Print Assumptions C76_variance_zero_refuted.
Print Assumptions C75_median_rounding.
Print Assumptions C75_median_overflow_refuted.
