(** C132: changing the unit of a signal by a power of two. *)
From Coq Require Import Reals ZArith QArith SpecFloat List Lia Lra.
From Flocq Require Import Core.
From Verif Require Import Base Num M_Stats S_Float P_Float S_Mirror S_Units P_Units P_Units2.
Import ListNotations.
Local Open Scope R_scope.

Lemma Rk_times prec emax k l h a b : Rk prec emax k l h a b -> times_power prec emax k a b.
Proof. intros (A & B & C & _). split; [exact A|]. split; [exact B|]. rewrite <- P_Float.bpow_powerRZ. exact C. Qed.

Lemma Rk_times_list prec emax k l h a b : Forall2 (Rk prec emax k l h) a b -> Forall2 (times_power prec emax k) a b.
Proof. intros Q. induction Q as [|u v a b Huv Q IH]; constructor; [eapply Rk_times, Huv|exact IH]. Qed.

(** Location and size scale with the unit, exactly. *)
Theorem C132_scale prec emax szero c lo hi k x y :
  let NF := SFNum prec emax szero in
  range_fits prec emax c lo hi -> (2 <= c)%Z -> x <> [] -> (Z.of_nat (length x) <= 2 ^ c)%Z ->
  Forall2 (times_power prec emax k) x y -> Forall (ordinary prec emax lo hi) x -> Forall (ordinary prec emax lo hi) y ->
  times_power prec emax k (fst (@mean _ NF x)) (fst (@mean _ NF y)) /\
  times_power prec emax (2 * k) (fst (@variance _ NF x)) (fst (@variance _ NF y)) /\
  times_power prec emax k (fst (@stdev _ NF x)) (fst (@stdev _ NF y)) /\
  times_power prec emax k (@rms_fast32 _ NF x) (@rms_fast32 _ NF y) /\
  times_power prec emax k (@rmssd _ NF x) (@rmssd _ NF y) /\
  Forall2 (times_power prec emax k) (@lag_diff _ NF x) (@lag_diff _ NF y) /\
  (exists m m', @median _ NF x = Ok (m, length x) /\ @median _ NF y = Ok (m', length y) /\ times_power prec emax k m m') /\
  (exists d d', @median_abs_deviation _ NF x = Ok (d, length x) /\ @median_abs_deviation _ NF y = Ok (d', length y) /\ times_power prec emax k d d').
Proof.
  intros NF RF C2 N Hn Hxy Ox Oy. pose proof RF as (PP & _). pose proof (len_y _ _ _ _ _ Hxy) as Ly.
  split; [eapply Rk_times, (mean_units prec emax szero PP c lo hi k RF x y); assumption|].
  split; [replace (2 * k)%Z with (k + k)%Z by ring; eapply Rk_times, (variance_units prec emax szero PP c lo hi k RF x y); assumption|].
  split; [destruct (stdev_units prec emax szero PP c lo hi k RF x y Hn Hxy Ox Oy N) as (? & ? & Q); eapply Rk_times, Q|].
  split. { assert (C4 : (4 <= 2 ^ c)%Z) by (change 4%Z with (2 ^ 2)%Z; apply Z.pow_le_mono_r; lia). destruct (rms_units prec emax szero PP c lo hi k RF x y Hn Hxy Ox Oy C4 N) as (? & ? & Q). eapply Rk_times, Q. }
  split; [destruct (rmssd_units prec emax szero PP c lo hi k RF x y Hn Hxy Ox Oy) as (? & ? & Q); eapply Rk_times, Q|].
  split; [eapply Rk_times_list, (lag_diff_units prec emax szero PP c lo hi k RF x y Hxy Ox Oy)|].
  split.
  - destruct (median_units prec emax szero PP c lo hi k RF x y Hxy Ox Oy) as (m & m' & A & B & Q). exists m, m'. rewrite Ly. split; [exact A|]. split; [exact B|]. eapply Rk_times, Q.
  - destruct (mad_units prec emax szero PP c lo hi k RF x y Hxy Ox Oy) as (m & m' & A & B & Q). exists m, m'. rewrite Ly. split; [exact A|]. split; [exact B|]. eapply Rk_times, Q.
Qed.
Print Assumptions C132_scale.

(** Standardised values and autocorrelations do not see the unit: the same numbers, bit for bit
    (up to the sign of zeros), unless the divisor vanishes. *)
Theorem C132_unit_free prec emax szero c lo hi k x y :
  let NF := SFNum prec emax szero in
  range_fits prec emax c lo hi -> (Z.of_nat (length x) <= 2 ^ c)%Z ->
  Forall2 (times_power prec emax k) x y -> Forall (ordinary prec emax lo hi) x -> Forall (ordinary prec emax lo hi) y ->
  (fval (fst (@stdev _ NF x)) <> 0 -> Forall2 same_number (@zscore _ NF x) (@zscore _ NF y)) /\
  (fval (fst (@variance _ NF x)) <> 0 -> forall j, same_number (@autocorr _ NF x j) (@autocorr _ NF y j)) /\
  (ordinary prec emax (-1) 0 (@nofQ _ NF (6745 # 10000)%Q) ->
   (forall d n, @median_abs_deviation _ NF x = Ok (d, n) -> fval d <> 0) ->
   exists z w, @mod_zscore _ NF x = Ok z /\ @mod_zscore _ NF y = Ok w /\ Forall2 same_number z w).
Proof.
  intros NF RF Hn Hxy Ox Oy. pose proof RF as (PP & _).
  split; [intros Z; apply (zscore_units prec emax szero PP c lo hi k RF x y); assumption|].
  split; [intros Z j; apply (autocorr_units prec emax szero PP c lo hi k RF x y); assumption|].
  intros Oq Z. apply (mod_zscore_units prec emax szero PP c lo hi k RF x y); assumption.
Qed.
Print Assumptions C132_unit_free.

(** f64 and f32 have room: a million f64 samples between 2^-400 and 2^400, 1024 f32 samples between 2^-12 and 2^40. *)
Example C132_range_ex : range_fits 53 1024 20 (-400) 400 /\ range_fits 24 128 10 (-12) 40.
Proof. unfold range_fits. lia. Qed.

(** The literal of [mod_zscore] is ordinary in both formats. *)
Ltac conc := unfold ordinary, times_power, finite; vm_compute valid_binary;
  repeat match goal with |- context [@nofQ ?a ?b ?c] => let v := eval vm_compute in (@nofQ a b c) in change (@nofQ a b c) with v end;
  unfold fval; rewrite <- ?P_Float.bpow_powerRZ; cbn [bpow Z.pow_pos Pos.iter Z.mul Pos.mul radix_val radix2];
  rewrite ?Rabs_mult, ?Rabs_R1, ?(Rabs_pos_eq (IZR _)), ?(Rabs_pos_eq (/ IZR _)) by lra; repeat split; try lra.
Example C132_literal_ex : ordinary 53 1024 (-1) 0 (@nofQ _ F64Num (6745 # 10000)%Q) /\ ordinary 24 128 (-1) 0 (@nofQ _ F32Num (6745 # 10000)%Q).
Proof. conc. Qed.
(** One, three and two, then eight times that: the hypotheses hold, and the deviations do not vanish. *)
Definition units_x : list spec_float := [S754_finite false 4503599627370496 (-52); S754_finite false 6755399441055744 (-51); S754_finite false 4503599627370496 (-51)].
Definition units_y : list spec_float := [S754_finite false 4503599627370496 (-49); S754_finite false 6755399441055744 (-48); S754_finite false 4503599627370496 (-48)].
Example C132_ex : range_fits 53 1024 20 (-400) 400 /\ range_fits 53 1024 20 (-2) 6 /\ (Z.of_nat (length units_x) <= 2 ^ 20)%Z /\
  Forall2 (times_power 53 1024 3) units_x units_y /\ Forall (ordinary 53 1024 (-2) 6) units_x /\ Forall (ordinary 53 1024 (-2) 6) units_y /\
  fval (fst (@stdev _ F64Num units_x)) <> 0 /\ fval (fst (@variance _ F64Num units_x)) <> 0 /\
  (forall d n, @median_abs_deviation _ F64Num units_x = Ok (d, n) -> fval d <> 0).
Proof.
  assert (NZ : forall s m e, fval (S754_finite s m e) <> 0).
  { intros s m e. unfold fval. pose proof (powerRZ_lt 2 e ltac:(lra)). assert (0 < IZR (Zpos m)) by (apply IZR_lt; reflexivity).
    apply Rmult_integral_contrapositive_currified; [apply Rmult_integral_contrapositive_currified; [destruct s; lra|lra]|lra]. }
  split; [unfold range_fits; lia|]. split; [unfold range_fits; lia|]. split; [cbn; lia|].
  split; [unfold units_x, units_y; repeat constructor; try conc; unfold fval; rewrite <- ?P_Float.bpow_powerRZ; cbn; try lra|].
  split; [unfold units_x; repeat (constructor; [conc|]); constructor|].
  split; [unfold units_y; repeat (constructor; [conc|]); constructor|].
  split; [let v := eval vm_compute in (fst (@stdev _ F64Num units_x)) in replace (fst (@stdev _ F64Num units_x)) with v by (vm_compute; reflexivity); apply NZ|].
  split; [let v := eval vm_compute in (fst (@variance _ F64Num units_x)) in replace (fst (@variance _ F64Num units_x)) with v by (vm_compute; reflexivity); apply NZ|].
  intros d n E. let v := eval vm_compute in (@median_abs_deviation _ F64Num units_x) in replace (@median_abs_deviation _ F64Num units_x) with v in E by (vm_compute; reflexivity).
  injection E as <- _. apply NZ.
Qed.
(** The range matters: the mean of the smallest positive f64 and zero is zero, that of twice the numbers is not. *)
Example C132_underflow_ex : let t := S754_finite false 1 (-1074) in let z := S754_zero false in
  fst (@mean _ F64Num [t; z]) = z /\ fst (@mean _ F64Num [S754_finite false 2 (-1074); z]) = t.
Proof. vm_compute. split; reflexivity. Qed.
