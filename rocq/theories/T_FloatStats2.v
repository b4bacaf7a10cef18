(** Rounding of the derived statistics at IEEE formats: rms_fast32, lag_diff, rmssd, autocorr,
    zscore, median_abs_deviation and mod_zscore.  u = 2^-prec, tn = half of the smallest
    positive number. *)
From Coq Require Import Reals ZArith QArith SpecFloat List Lia Lra Psatz Bool.
From Verif Require Import Base Num M_Stats S_Stats S_Float S_FloatStats P_Stats P_Float P_FloatStats P_FloatStats2 P_FloatMad T_FloatFft.
Import ListNotations.
Local Open Scope R_scope.

(** * C85 *)
(** Root mean square: the sum is formed in tiles of four, so the error grows with n / 4. *)
Theorem C85_rms_rounding : forall prec emax szero (y : list spec_float) B,
  (1 < prec < emax)%Z -> y <> [] -> (Z.of_nat (length y) <= 2 ^ prec)%Z ->
  Forall (finite prec emax) y ->
  1 <= B -> (forall x, In x y -> Rabs (fval x) <= B) -> 256 * INR (length y) * B ^ 2 <= fmax prec emax ->
  let g := 1 + uround prec in
  let k := (length y / 4 + 7)%nat in
  let M := Rmean (map (fun x => fval x ^ 2) y) in
  let D := (g ^ k - 1) * M + 2 * g ^ k * ftiny prec emax in
  let s := @rms_fast32 _ (SFNum prec emax szero) y in
  finite prec emax s /\ 0 <= fval s /\
  Rabs (fval s - sqrt M) <= g * sqrt D + uround prec * sqrt M /\
  (0 < M -> Rabs (fval s - sqrt M) <= sqrt_error prec M D).
Proof. intros prec emax sz y B Hpe NE N Fy B1 HB HM. exact (rms_final prec emax Hpe sz y B Fy NE N B1 HB HM). Qed.

(** Differences: one rounding each, none when the neighbours differ by at most a factor 2. *)
Theorem C85_lag_diff_rounding : forall prec emax szero (y : list spec_float),
  (1 < prec < emax)%Z -> Forall (finite prec emax) y ->
  length (@lag_diff _ (SFNum prec emax szero) y) = (length y - 1)%nat /\
  forall i a b, nth_error y i = Some a -> nth_error y (S i) = Some b ->
  exists r, nth_error (@lag_diff _ (SFNum prec emax szero) y) i = Some r /\
    (Rabs (fval b - fval a) <= fmax prec emax -> finite prec emax r /\
       Rabs (fval r - (fval b - fval a)) <= uround prec * Rabs (fval b - fval a)) /\
    (fval a / 2 <= fval b <= 2 * fval a -> finite prec emax r /\ fval r = fval b - fval a).
Proof.
  intros prec emax sz y Hpe Fy. split; [unfold lag_diff; rewrite map_length, zip_len, skipn_length; lia|].
  intros i a b Ha Hb. rewrite Forall_forall in Fy. pose proof (Fy a (nth_error_In _ _ Ha)) as Fa. pose proof (Fy b (nth_error_In _ _ Hb)) as Fb.
  exists (SFsub prec emax b a). split; [|split].
  - unfold lag_diff. change (SFsub prec emax b a) with ((fun p : spec_float * spec_float => SFsub prec emax (snd p) (fst p)) (a, b)).
    apply map_nth_error. assert (Hs : nth_error (skipn 1 y) i = Some b) by (destruct y; [destruct i; discriminate|exact Hb]).
    clear - Ha Hs. revert i Ha Hs. generalize (skipn 1 y) as m. induction y as [|c y IH]; intros [|d m] [|i] Ha Hs; try discriminate.
    + cbn in *. congruence.
    + cbn in *. apply IH; assumption.
  - intros HM. exact (sub_rel prec emax Hpe b a Fb Fa HM).
  - intros H. destruct (sub_exact prec emax Hpe b a Fb Fa H) as [E F]. split; assumption.
Qed.

(** Root mean square of the successive differences. *)
Theorem C85_rmssd_rounding : forall prec emax szero (y : list spec_float) B,
  (1 < prec < emax)%Z -> (2 <= length y)%nat -> (Z.of_nat (length y) <= 2 ^ prec)%Z ->
  Forall (finite prec emax) y ->
  1 <= B -> (forall x, In x y -> Rabs (fval x) <= B) -> 256 * INR (length y) * B ^ 2 <= fmax prec emax ->
  let g := 1 + uround prec in
  let k := (length y + 3)%nat in
  let M := Rmean (sq_diffs y) in
  let D := (g ^ k - 1) * M + 2 * g ^ k * ftiny prec emax in
  let s := @rmssd _ (SFNum prec emax szero) y in
  finite prec emax s /\ 0 <= fval s /\
  Rabs (fval s - sqrt M) <= g * sqrt D + uround prec * sqrt M /\
  (0 < M -> Rabs (fval s - sqrt M) <= sqrt_error prec M D).
Proof.
  intros prec emax sz y B Hpe L2 N Fy B1 HB HM. unfold sq_diffs. rewrite <- dsq_nth. exact (rmssd_final prec emax Hpe sz y B Fy L2 N B1 HB HM).
Qed.

(** Standard deviation, relative form: about (n + 3) u relative error when the mean is not
    large against the deviation. *)
Theorem C85_stdev_rounding : forall prec emax szero (y : list spec_float) B,
  (1 < prec < emax)%Z -> y <> [] -> (Z.of_nat (length y) <= 2 ^ prec)%Z ->
  Forall (finite prec emax) y ->
  1 <= B -> (forall x, In x y -> Rabs (fval x) <= B) -> 256 * INR (length y) * B ^ 2 <= fmax prec emax ->
  0 < Rvar (map fval y) ->
  let s := fst (@stdev _ (SFNum prec emax szero) y) in
  finite prec emax s /\ 0 <= fval s /\ Rabs (fval s - sqrt (Rvar (map fval y))) <= stdev_error prec emax y.
Proof. intros prec emax sz y B Hpe NE N Fy B1 HB HM HV. exact (stdev_rel prec emax Hpe sz y B Fy NE N B1 HB HM HV). Qed.

(** Autocorrelation, when the variance is at least twice its own error bound. *)
Theorem C85_autocorr_rounding : forall prec emax szero (y : list spec_float) B,
  (1 < prec < emax)%Z -> y <> [] -> (Z.of_nat (length y) <= 2 ^ prec)%Z ->
  Forall (finite prec emax) y ->
  1 <= B -> (forall x, In x y -> Rabs (fval x) <= B) -> 256 * INR (length y) * B ^ 2 <= fmax prec emax ->
  let V := Rvar (map fval y) in
  2 * var_error prec emax y <= V ->
  forall k, let r := @autocorr _ (SFNum prec emax szero) y k in
  finite prec emax r /\
  Rabs (fval r - autocov_exact y k / V)
    <= quot_error prec emax (autocov_exact y k) V (autocov_error prec emax y) (var_error prec emax y).
Proof. intros prec emax sz y B Hpe NE N Fy B1 HB HM V HV k. exact (autocorr_final prec emax Hpe sz y k B Fy NE N B1 HB HM HV). Qed.

(** At lag 0 there is no error at all: numerator and denominator are the same float. *)
Theorem C85_autocorr_lag0_exact : forall prec emax szero (y : list spec_float),
  (1 < prec < emax)%Z -> y <> [] ->
  let v := fst (@variance _ (SFNum prec emax szero) y) in
  finite prec emax v -> fval v <> 0 ->
  let r := @autocorr _ (SFNum prec emax szero) y 0 in
  finite prec emax r /\ fval r = 1.
Proof.
  intros prec emax sz y Hpe NE v Fv Nv r. unfold r. rewrite (autocorr_lag0 prec emax sz y NE). exact (div_self prec emax Hpe v Fv Nv).
Qed.

(** Standard scores, when the deviation is at least twice its own error bound. *)
Theorem C85_zscore_rounding : forall prec emax szero (y : list spec_float) B,
  (1 < prec < emax)%Z -> y <> [] -> (Z.of_nat (length y) <= 2 ^ prec)%Z ->
  Forall (finite prec emax) y ->
  1 <= B -> (forall x, In x y -> Rabs (fval x) <= B) -> 256 * INR (length y) * B ^ 2 <= fmax prec emax ->
  let M := Rmean (map fval y) in
  let S := sqrt (Rvar (map fval y)) in
  0 < S -> 2 * stdev_error prec emax y <= S ->
  length (@zscore _ (SFNum prec emax szero) y) = length y /\
  forall i x, nth_error y i = Some x ->
  exists r, nth_error (@zscore _ (SFNum prec emax szero) y) i = Some r /\ finite prec emax r /\
    Rabs (fval r - (fval x - M) / S)
      <= quot_error prec emax (fval x - M) S
           (uround prec * Rabs (fval x - M) + (1 + uround prec) * mean_error prec emax y) (stdev_error prec emax y).
Proof.
  intros prec emax sz y B Hpe NE N Fy B1 HB HM M S S0 HS. split; [unfold zscore; apply map_length|]. intros i x Hx.
  assert (HV : 0 < Rvar (map fval y)).
  { destruct (Rle_or_lt (Rvar (map fval y)) 0) as [L|L]; [|exact L]. unfold S in S0. rewrite (sqrt_neg_0 _ L) in S0. lra. }
  eexists. split; [unfold zscore; apply map_nth_error; exact Hx|].
  exact (zscore_final prec emax Hpe sz y x B Fy NE N B1 HB HM (nth_error_In _ _ Hx) HV HS).
Qed.

(** * C86 *)
Theorem C86_mad_rounding : forall prec emax szero (y : list spec_float) B,
  (24 <= prec < emax)%Z -> y <> [] -> Forall (finite prec emax) y ->
  (forall x, In x y -> Rabs (fval x) <= B) -> 5 * B <= fmax prec emax ->
  exists c D f, is_median (map fval y) c /\ is_median (map (fun x => Rabs (fval x - c)) y) D /\
    @median_abs_deviation _ (SFNum prec emax szero) y = Ok (f, length y) /\ finite prec emax f /\
    Rabs (fval f - D) <= mad_error prec emax c D.
Proof.
  intros prec emax sz y B Hpe NE Fy HB HM. destruct (mad_final prec emax Hpe sz y B Fy NE HB HM) as (m & c & f & D & _ & _ & Mc & _ & _ & _ & Ef & Ff & MD & _ & Df).
  exists c, D, f. repeat split; try assumption; apply Ff.
Qed.
Theorem C86_mod_zscore_rounding : forall prec emax szero (y : list spec_float) B,
  (24 <= prec < emax)%Z -> y <> [] -> Forall (finite prec emax) y ->
  (forall x, In x y -> Rabs (fval x) <= B) -> 5 * B <= fmax prec emax ->
  forall c D, is_median (map fval y) c -> is_median (map (fun x => Rabs (fval x - c)) y) D ->
  mad_error prec emax c D < D ->
  let g := 1 + uround prec in
  let tn := ftiny prec emax in
  let k := 6745 / 10000 in
  let dn d := g ^ 3 * ((Rabs d + median_error prec emax c) * (k + tn) + tn) - Rabs d * k in
  (forall x, In x y -> quot_error prec emax ((fval x - c) * k) D (dn (fval x - c)) (mad_error prec emax c D)
                        + Rabs ((fval x - c) * k / D) <= fmax prec emax) ->
  exists zs, @mod_zscore _ (SFNum prec emax szero) y = Ok zs /\ length zs = length y /\
  forall i x, nth_error y i = Some x ->
  exists r, nth_error zs i = Some r /\ finite prec emax r /\
    Rabs (fval r - k * (fval x - c) / D)
      <= quot_error prec emax ((fval x - c) * k) D (dn (fval x - c)) (mad_error prec emax c D).
Proof.
  intros prec emax sz y B Hpe NE Fy HB HM c D Mc MD Hd g tn k dn HR.
  destruct (mad_final prec emax Hpe sz y B Fy NE HB HM) as (m & c' & f & D' & Em & _ & _ & _ & _ & _ & Ef & _).
  exists (map (fun yi => SFdiv prec emax (SFmul prec emax (SFsub prec emax yi m) (@nofQ _ (SFNum prec emax sz) (6745 # 10000))) f) y).
  split; [unfold mod_zscore; rewrite Em; cbn [bind]; rewrite Ef; reflexivity|]. split; [apply map_length|]. intros i x Hx.
  eexists. split; [apply map_nth_error; exact Hx|]. pose proof (nth_error_In _ _ Hx) as Ix.
  destruct (modz_final prec emax Hpe sz y x B Fy NE HB HM Ix) as (c1 & D1 & Mc1 & MD1 & Z). cbv zeta in Z.
  rewrite <- (P_Stats2.is_median_unique _ _ _ Mc Mc1) in *. rewrite <- (P_Stats2.is_median_unique _ _ _ MD MD1) in *.
  assert (kE : Q2R (6745 # 10000) = k) by (unfold k, Q2R; cbn; lra). rewrite kE in Z.
  specialize (HR x Ix). unfold quot_error in HR.
  assert (U : 0 < uround prec) by apply u_pos. assert (T0 : 0 < tn) by apply tn0.
  set (q := Rabs ((fval x - c) * k / D)) in *. assert (q0 : 0 <= q) by apply Rabs_pos.
  set (E := (dn (fval x - c) + q * mad_error prec emax c D) / (D - mad_error prec emax c D)) in *.
  assert (dn0 : 0 <= dn (fval x - c)).
  { unfold dn. pose proof (G1 prec 3) as G3. fold g in G3. pose proof (Rabs_pos (fval x - c)) as a0. set (a := Rabs (fval x - c)) in *.
    assert (m0 : 0 <= median_error prec emax c) by (unfold median_error; pose proof (G1 prec 2); pose proof (Rabs_pos c); assert (0 <= ((1 + uround prec) ^ 2 - 1) * Rabs c) by (apply Rmult_le_pos; lra); fold tn; lra).
    assert (k0 : 0 < k) by (unfold k; lra).
    assert (a * k <= (a + median_error prec emax c) * (k + tn)) by (apply Rmult_le_compat; lra).
    assert (0 <= a * k) by (apply Rmult_le_pos; lra). set (w := (a + median_error prec emax c) * (k + tn)) in *. clearbody w. nra. }
  assert (me0 : 0 <= mad_error prec emax c D).
  { unfold mad_error. pose proof (G1 prec 3) as G3. assert (D0 : 0 <= D) by (apply (P_Stats2.is_median_nonneg _ _ ltac:(intros z Hz; apply in_map_iff in Hz as [? [<- _]]; apply Rabs_pos) MD)).
    assert (m0 : 0 <= median_error prec emax c) by (unfold median_error; pose proof (G1 prec 2); pose proof (Rabs_pos c); assert (0 <= ((1 + uround prec) ^ 2 - 1) * Rabs c) by (apply Rmult_le_pos; lra); fold tn; lra).
    assert (0 <= ((1 + uround prec) ^ 3 - 1) * D) by (apply Rmult_le_pos; lra). assert (0 <= (1 + uround prec) ^ 3 * median_error prec emax c) by (apply Rmult_le_pos; lra). fold tn. lra. }
  assert (E0 : 0 <= E).
  { unfold E. apply Rmult_le_pos; [|left; apply Rinv_0_lt_compat; lra]. assert (0 <= q * mad_error prec emax c D) by (apply Rmult_le_pos; lra). lra. }
  destruct (Z Hd) as (m2 & f2 & Em2 & Ef2 & F & R); [fold q; change (q + E <= fmax prec emax); assert (0 <= uround prec * q) by (apply Rmult_le_pos; lra); assert (0 <= uround prec * E) by (apply Rmult_le_pos; lra); fold tn in HR; lra|].
  rewrite Em in Em2. rewrite Ef in Ef2. injection Em2 as <-. injection Ef2 as <-. split; [exact F|].
  replace (k * (fval x - c) / D) with ((fval x - c) * k / D) by (unfold Rdiv; ring). exact R.
Qed.

(** The hypotheses are met, e.g. by 1, 2, 3 in f64. *)
Definition y3 : list spec_float := [f64_1; f64_2; f64_3].
Lemma y3_val : map fval y3 = [1; 2; 3].
Proof. exact (proj1 (proj2 (proj2 C83_ex))). Qed.
Lemma f64_small : 0 < uround 53 <= / 1024 /\ 0 < ftiny 53 1024 <= / 1024 /\ 1000000 <= fmax 53 1024.
Proof.
  assert (P : forall k, (10 <= k)%nat -> powerRZ 2 (- Z.of_nat k) <= / 1024).
  { intros k Hk. rewrite powerRZ_neg', <- pow_powerRZ by lra. replace 1024 with (2 ^ 10) by (cbn; lra). apply Rinv_le_contravar; [apply pow_lt; lra|apply Rle_pow; [lra|exact Hk]]. }
  split; [split; [apply u_pos|apply (P 53%nat); lia]|]. split.
  - split; [apply tn0|]. unfold ftiny. pose proof (P 1074%nat ltac:(lia)) as Q. change (- Z.of_nat 1074)%Z with (3 - 1024 - 53)%Z in Q.
    assert (0 < powerRZ 2 (3 - 1024 - 53)) by (apply powerRZ_lt; lra). lra.
  - eapply Rle_trans; [|exact (FM2p 53 1024 ltac:(lia))]. change 53%Z with (Z.of_nat 53). rewrite <- pow_powerRZ. replace 53%nat with (20 + 33)%nat by reflexivity. rewrite pow_add.
    assert (1 <= 2 ^ 33) by (apply pow_R1_Rle; lra). lra.
Qed.
Lemma g_small u k : 0 < u <= / 1024 -> (k <= 8)%nat -> 1 <= (1 + u) ^ k <= 1 + / 100.
Proof.
  intros U K. split; [apply pow_R1_Rle; lra|]. apply Rle_trans with ((1 + u) ^ 8); [apply Rle_pow; [lra|exact K]|].
  apply Rle_trans with ((1 + / 1024) ^ 8); [apply pow_incr; lra|]. cbn. lra.
Qed.
Lemma y3_errors : Rvar (map fval y3) = 2 / 3 /\ 0 <= mean_error 53 1024 y3 <= / 40 /\ 0 <= var_error 53 1024 y3 <= / 40.
Proof.
  destruct f64_small as [U [T _]]. set (u := uround 53) in *. set (t := ftiny 53 1024) in *.
  assert (V : Rvar (map fval y3) = 2 / 3) by (rewrite y3_val; unfold Rvar, Rmean; cbn; field).
  assert (A : Rmean (map (fun x => Rabs (fval x)) y3) = 2).
  { rewrite <- (map_map fval Rabs), y3_val. cbn [map]. rewrite !Rabs_pos_eq by lra. unfold Rmean. cbn. lra. }
  split; [exact V|]. assert (M : 0 <= mean_error 53 1024 y3 <= / 40).
  { unfold mean_error. rewrite A. fold u t. pose proof (g_small u (length y3) U ltac:(cbn; lia)). lra. }
  split; [exact M|]. unfold var_error. rewrite V. fold u t. set (e := mean_error 53 1024 y3) in *. clearbody e.
  pose proof (g_small u (length y3 + 3) U ltac:(cbn; lia)) as G6. pose proof (g_small u (length y3) U ltac:(cbn; lia)) as G3.
  set (a := (1 + u) ^ (length y3 + 3)) in *. set (b := (1 + u) ^ length y3) in *. clearbody a b.
  assert (E2 : 0 <= e ^ 2 <= / 1600) by (cbn; nra). set (q := e ^ 2) in *. clearbody q.
  assert (0 <= (a - 1) * (2 / 3 + q) <= / 100 * 1) by (split; [apply Rmult_le_pos; lra|apply Rmult_le_compat; lra]).
  assert (0 <= (b + 1) * t <= 3 * / 1024) by (split; [apply Rmult_le_pos; lra|apply Rmult_le_compat; lra]). lra.
Qed.
Example C85_ex : Forall (finite 53 1024) y3 /\ (forall x, In x y3 -> Rabs (fval x) <= 3) /\
  256 * INR (length y3) * 3 ^ 2 <= fmax 53 1024 /\ 0 < sqrt (Rvar (map fval y3)) /\
  2 * var_error 53 1024 y3 <= Rvar (map fval y3) /\ 2 * stdev_error 53 1024 y3 <= sqrt (Rvar (map fval y3)) /\
  finite 53 1024 (fst (@variance _ F64Num y3)) /\ fst (@variance _ F64Num y3) = S754_finite false 6004799503160661 (-53) /\
  0 < Rmean (sq_diffs y3) /\ 0 < Rmean (map (fun x => fval x ^ 2) y3).
Proof.
  destruct f64_small as [U [T FB]]. destruct y3_errors as [V [M D]].
  split; [repeat constructor; vm_compute; reflexivity|]. split.
  { intros x Hx. apply (in_map fval) in Hx. rewrite y3_val in Hx. destruct Hx as [<-|[<-|[<-|[]]]]; rewrite Rabs_pos_eq; lra. }
  split; [cbn; lra|]. rewrite V. assert (S1 : 3 / 4 < sqrt (2 / 3)).
  { rewrite <- (sqrt_pow2 (3 / 4)) by lra. apply sqrt_lt_1_alt. cbn. lra. }
  assert (S2 : sqrt (2 / 3) <= 1) by (apply Rle_trans with (sqrt 1); [apply sqrt_le_1_alt; lra|rewrite sqrt_1; lra]).
  split; [lra|]. split; [lra|]. split.
  { unfold stdev_error. rewrite V. set (s := sqrt (2 / 3)) in *. set (d := var_error 53 1024 y3) in *. clearbody d s. set (u := uround 53) in *.
    assert (Q : 0 <= d / s <= / 20). { split; [apply Rmult_le_pos; [lra|left; apply Rinv_0_lt_compat; lra]|]. apply Rmult_le_reg_r with s; [lra|]. replace (d / s * s) with d by (field; lra). lra. }
    assert ((1 + u) * (d / s) <= 2 * / 20) by (apply Rmult_le_compat; lra). assert (u * s <= / 1024 * 1) by (apply Rmult_le_compat; lra). lra. }
  split; [split; [vm_compute; reflexivity|vm_compute; exact I]|]. split; [vm_compute; reflexivity|]. split.
  - unfold sq_diffs. rewrite y3_val. unfold Rmean. cbn. lra.
  - rewrite <- (map_map fval (fun x => x ^ 2)), y3_val. unfold Rmean. cbn. lra.
Qed.
Example C86_ex : is_median (map fval y3) 2 /\ is_median (map (fun x => Rabs (fval x - 2)) y3) 1 /\
  mad_error 53 1024 2 1 < 1 /\ 5 * 3 <= fmax 53 1024 /\
  let k := 6745 / 10000 in
  let dn d := (1 + uround 53) ^ 3 * ((Rabs d + median_error 53 1024 2) * (k + ftiny 53 1024) + ftiny 53 1024) - Rabs d * k in
  forall x, In x y3 -> quot_error 53 1024 ((fval x - 2) * k) 1 (dn (fval x - 2)) (mad_error 53 1024 2 1)
    + Rabs ((fval x - 2) * k / 1) <= fmax 53 1024.
Proof.
  destruct f64_small as [U [T FB]].
  assert (Me : 0 <= median_error 53 1024 2 <= / 30).
  { unfold median_error. rewrite Rabs_pos_eq by lra. pose proof (g_small _ 2 U ltac:(lia)). lra. }
  assert (Ma : 0 <= mad_error 53 1024 2 1 <= / 4).
  { unfold mad_error. pose proof (g_small _ 3 U ltac:(lia)) as G3. set (m := median_error 53 1024 2) in *. set (w := (1 + uround 53) ^ 3) in *. clearbody m w.
    assert (0 <= w * m <= 2 * / 30) by (split; [apply Rmult_le_pos; lra|apply Rmult_le_compat; lra]). lra. }
  split; [|split].
  - rewrite y3_val. exists [1; 2; 3]. split; [apply Permutation.Permutation_refl|]. split; [repeat constructor; lra|]. left. exists 1%nat. split; reflexivity.
  - rewrite <- (map_map fval (fun x => Rabs (x - 2))), y3_val. cbn [map].
    replace (Rabs (1 - 2)) with 1 by (rewrite <- Rabs_Ropp, Rabs_pos_eq; lra). replace (Rabs (2 - 2)) with 0 by (rewrite Rabs_pos_eq; lra). replace (Rabs (3 - 2)) with 1 by (rewrite Rabs_pos_eq; lra).
    exists [0; 1; 1]. split; [apply Permutation.perm_swap|]. split; [repeat constructor; lra|]. left. exists 1%nat. split; reflexivity.
  - split; [lra|]. split; [lra|]. intros k dn x Hx. pose proof (g_small _ 3 U ltac:(lia)) as G3.
    assert (A : 0 <= Rabs (fval x - 2) <= 1). { split; [apply Rabs_pos|]. apply (in_map fval) in Hx. rewrite y3_val in Hx. apply Rabs_le. destruct Hx as [<-|[<-|[<-|[]]]]; lra. }
    unfold quot_error. replace ((fval x - 2) * k / 1) with ((fval x - 2) * k) by field. rewrite Rabs_mult, (Rabs_pos_eq k) by (unfold k; lra).
    assert (D : 0 <= dn (fval x - 2) + 1 /\ dn (fval x - 2) <= 3).
    { unfold dn. set (m := median_error 53 1024 2) in *. set (w := (1 + uround 53) ^ 3) in *. set (a := Rabs (fval x - 2)) in *. set (t := ftiny 53 1024) in *. clearbody m w a t.
      assert (0 <= (a + m) * (k + t) <= 2 * 1) by (unfold k; split; [apply Rmult_le_pos; lra|apply Rmult_le_compat; lra]). set (z := (a + m) * (k + t)) in *. clearbody z.
      assert (0 <= w * (z + t) <= 1.01 * (2 + / 1024)) by (split; [apply Rmult_le_pos; lra|apply Rmult_le_compat; lra]). assert (0 <= a * k <= 1) by (unfold k; lra). lra. }
    set (d := dn (fval x - 2)) in *. set (a := Rabs (fval x - 2)) in *. set (m := mad_error 53 1024 2 1) in *. set (u := uround 53) in *. clearbody d a m.
    assert (Q0 : 0 <= a * k * m <= 1) by (unfold k in *; split; [apply Rmult_le_pos; nra|nra]).
    assert (Q : -2 <= (d + a * k * m) / (1 - m) <= 6).
    { split; apply Rmult_le_reg_r with (1 - m); try lra; (replace ((d + a * k * m) / (1 - m) * (1 - m)) with (d + a * k * m) by (field; lra)); nra. }
    set (q := (d + a * k * m) / (1 - m)) in *. clearbody q. unfold k in *. nra.
Qed.
Print Assumptions C85_rms_rounding.
Print Assumptions C85_lag_diff_rounding.
Print Assumptions C85_rmssd_rounding.
Print Assumptions C85_stdev_rounding.
Print Assumptions C85_autocorr_rounding.
Print Assumptions C85_autocorr_lag0_exact.
Print Assumptions C85_zscore_rounding.
Print Assumptions C86_mad_rounding.
Print Assumptions C86_mod_zscore_rounding.
