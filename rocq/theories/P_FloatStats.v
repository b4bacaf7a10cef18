(** Rounding error of sums, mean, variance and standard deviation. *)
From Coq Require Import Reals ZArith SpecFloat List Lia Lra Psatz Bool.
From Flocq Require Import Core BinarySingleNaN.
From Verif Require Import Base Num M_Stats S_Stats P_Stats S_Float P_Float.
Import ListNotations.
Local Open Scope R_scope.

Section Err.
Variables prec emax : Z.
Hypothesis Hpe : (1 < prec < emax)%Z.
Local Instance Hp : Prec_gt_0 prec.
Proof. unfold Prec_gt_0. lia. Qed.
Local Instance He : Prec_lt_emax prec emax.
Proof. unfold Prec_lt_emax. lia. Qed.
Notation u := (uround prec).
Notation FM := (fmax prec emax).
Notation tn := (ftiny prec emax).
Notation fin := (finite prec emax).
Notation "a ⊕ b" := (SFadd prec emax a b) (at level 50, left associativity).
Notation rnd := (round radix2 (FLT_exp (SpecFloat.emin prec emax) prec) ZnearestE).

Lemma u0 : 0 < u. Proof. exact (u_pos prec). Qed.
Lemma u14 : u <= / 4.
Proof. unfold uround. rewrite <- bpow_powerRZ. change (/ 4) with (bpow radix2 (-2)). apply bpow_le. lia. Qed.
Lemma tn0 : 0 < tn. Proof. exact (tiny_pos prec emax). Qed.
Lemma tn1 : tn <= / 8.
Proof.
  rewrite <- tiny_eq. replace (/ 8) with (/ 2 * bpow radix2 (-2)) by (cbn; lra). apply Rmult_le_compat_l; [lra|].
  apply bpow_le. unfold SpecFloat.emin. lia.
Qed.
Lemma FM2p : powerRZ 2 prec <= FM.
Proof.
  unfold fmax. assert (A : 4 <= powerRZ 2 prec).
  { rewrite <- bpow_powerRZ. change 4 with (bpow radix2 2). apply bpow_le. lia. }
  assert (B : 2 <= powerRZ 2 (emax - prec)).
  { rewrite <- bpow_powerRZ. change 2 with (bpow radix2 1) at 1. apply bpow_le. lia. }
  nra.
Qed.
Lemma FM4 : 4 <= FM.
Proof.
  eapply Rle_trans; [|exact FM2p]. rewrite <- bpow_powerRZ. change 4 with (bpow radix2 2). apply bpow_le. lia.
Qed.
Lemma G1 n : 1 <= (1 + u) ^ n.
Proof. apply pow_R1_Rle. pose proof u0. lra. Qed.

Lemma add_step x y : fin x -> fin y -> Rabs (fval x) + Rabs (fval y) <= FM ->
  fin (x ⊕ y) /\ Rabs (fval (x ⊕ y) - (fval x + fval y)) <= u * (Rabs (fval x) + Rabs (fval y)) /\
  Rabs (fval (x ⊕ y)) <= (1 + u) * (Rabs (fval x) + Rabs (fval y)).
Proof.
  intros Fx Fy B. pose proof (Rabs_triang (fval x) (fval y)) as T.
  destruct (fadd_ok prec emax Hp He x y Fx Fy) as [F V]; [lra|]. split; [exact F|].
  assert (E : Rabs (fval (x ⊕ y) - (fval x + fval y)) <= u * (Rabs (fval x) + Rabs (fval y))).
  { rewrite V. eapply Rle_trans; [apply (add_err prec emax Hp); apply (finite_format prec emax); assumption|].
    apply Rmult_le_compat_l; [pose proof u0; lra|exact T]. }
  split; [exact E|].
  replace (fval (x ⊕ y)) with ((fval (x ⊕ y) - (fval x + fval y)) + (fval x + fval y)) by ring.
  eapply Rle_trans; [apply Rabs_triang|]. lra.
Qed.

Lemma rnd_nonneg x : 0 <= x -> 0 <= rnd x.
Proof. intros P. apply round_ge_generic; [apply FLT_exp_valid; exact Hp|apply valid_rnd_N|apply generic_format_0|exact P]. Qed.
Lemma add_nonneg x y : fin x -> fin y -> Rabs (fval x) + Rabs (fval y) <= FM -> 0 <= fval x -> 0 <= fval y -> 0 <= fval (x ⊕ y).
Proof.
  intros Fx Fy B Px Py. pose proof (Rabs_triang (fval x) (fval y)) as T.
  destruct (fadd_ok prec emax Hp He x y Fx Fy) as [F V]; [lra|]. rewrite V. apply rnd_nonneg. lra.
Qed.

Definition fv := map fval.
Definition fa l := map (fun x => Rabs (fval x)) l.
Lemma fa_nonneg l : 0 <= Rsum (fa l).
Proof. apply Rsum_nonneg. intros x Hx. apply in_map_iff in Hx as [y [<- _]]. apply Rabs_pos. Qed.
Lemma fv_fa l : Rabs (Rsum (fv l)) <= Rsum (fa l).
Proof.
  induction l as [|a l IH]; [cbn; rewrite Rabs_R0; lra|]. unfold fv, fa in *. cbn [map]. rewrite !Rsum_cons.
  eapply Rle_trans; [apply Rabs_triang|]. lra.
Qed.

Lemma fold_err l : forall acc, fin acc -> Forall fin l ->
  (1 + u) ^ (length l) * (Rabs (fval acc) + Rsum (fa l)) <= FM ->
  let s := fold_left (SFadd prec emax) l acc in
  fin s /\ Rabs (fval s - (fval acc + Rsum (fv l))) <= ((1 + u) ^ (length l) - 1) * (Rabs (fval acc) + Rsum (fa l)) /\
  (0 <= fval acc -> Forall (fun x => 0 <= fval x) l -> 0 <= fval s).
Proof.
  induction l as [|a l IH]; intros acc Fa Fl B; cbv zeta.
  - cbn. split; [exact Fa|]. replace (fval acc - (fval acc + 0)) with 0 by ring. rewrite Rabs_R0. split; [lra|intros; assumption].
  - cbn [fold_left]. inversion Fl as [|? ? F1 F2]; subst. unfold fa, fv in *. cbn [map length] in B |- *. rewrite Rsum_cons in B |- *.
    rewrite Rsum_cons. pose proof (fa_nonneg l) as N. unfold fa in N.
    set (S := Rsum (map (fun x => Rabs (fval x)) l)) in *. set (A := Rabs (fval acc) + Rabs (fval a)).
    assert (A0 : 0 <= A) by (unfold A; pose proof (Rabs_pos (fval acc)); pose proof (Rabs_pos (fval a)); lra).
    replace (Rabs (fval acc) + (Rabs (fval a) + S)) with (A + S) in B |- * by (unfold A; ring).
    pose proof (G1 (length l)) as G. set (g := (1 + u) ^ length l) in *. pose proof u0 as U.
    assert (Pg : (1 + u) ^ Datatypes.S (length l) = (1 + u) * g) by reflexivity. rewrite Pg in B |- *.
    assert (AB : A <= FM).
    { assert (A + S <= (1 + u) * g * (A + S)); [|lra].
      rewrite <- (Rmult_1_l (A + S)) at 1. apply Rmult_le_compat_r; [lra|]. nra. }
    destruct (add_step acc a Fa F1 AB) as [F [E M]]. fold A in E, M.
    assert (Q : g * (Rabs (fval (acc ⊕ a)) + S) <= (1 + u) * g * (A + S)).
    { replace ((1 + u) * g * (A + S)) with (g * ((1 + u) * A + (1 + u) * S)) by ring.
      apply Rmult_le_compat_l; [lra|]. nra. }
    destruct (IH (acc ⊕ a) F F2) as [Fs [Es Ns]]; [fold S; lra|]. split; [exact Fs|].
    split; [|intros P1 P2; inversion P2; subst; apply Ns; [apply add_nonneg; assumption|assumption]].
    replace (fval (fold_left (SFadd prec emax) l (acc ⊕ a)) - (fval acc + (fval a + Rsum (map fval l))))
      with ((fval (fold_left (SFadd prec emax) l (acc ⊕ a)) - (fval (acc ⊕ a) + Rsum (map fval l))) +
            (fval (acc ⊕ a) - (fval acc + fval a))) by ring.
    eapply Rle_trans; [apply Rabs_triang|].
    assert (K : (g - 1) * (Rabs (fval (acc ⊕ a)) + S) <= (g - 1) * ((1 + u) * (A + S))).
    { apply Rmult_le_compat_l; [lra|]. nra. }
    fold S in Es. nra.
Qed.

(** From a zero of either sign, the first addition is exact. *)
Lemma sum_err sz l : Forall fin l -> l <> [] ->
  (1 + u) ^ (length l - 1) * Rsum (fa l) <= FM ->
  let s := fold_left (SFadd prec emax) l (S754_zero sz) in
  fin s /\ Rabs (fval s - Rsum (fv l)) <= ((1 + u) ^ (length l - 1) - 1) * Rsum (fa l) /\
  Rabs (fval s) <= (1 + u) ^ (length l - 1) * Rsum (fa l) /\
  (Forall (fun x => 0 <= fval x) l -> 0 <= fval s).
Proof.
  destruct l as [|a l]; intros Fl NE B; [congruence|]. inversion Fl as [|? ? F1 F2]; subst. cbv zeta. cbn [fold_left].
  cbn [length] in *. replace (Datatypes.S (length l) - 1)%nat with (length l) in * by lia.
  unfold fa, fv in *. cbn [map] in *. rewrite Rsum_cons in *. fold (fa l) (fv l) in *.
  pose proof (fa_nonneg l) as N. pose proof (G1 (length l)) as G. pose proof (Rabs_pos (fval a)) as P.
  assert (Z : fin (S754_zero sz)) by (split; [reflexivity|exact I]).
  assert (AB : Rabs (fval a) <= FM).
  { apply Rle_trans with ((1 + u) ^ length l * (Rabs (fval a) + Rsum (fa l))); [|exact B]. nra. }
  destruct (fadd_ok prec emax Hp He (S754_zero sz) a Z F1) as [F V].
  { cbn [fval]. rewrite Rplus_0_l. exact AB. }
  assert (V' : fval (S754_zero sz ⊕ a) = fval a).
  { rewrite V. cbn [fval]. rewrite Rplus_0_l. apply round_generic; [apply valid_rnd_N|apply (finite_format prec emax); assumption]. }
  destruct (fold_err l _ F F2) as [Fs [Es Ns]]; [rewrite V'; exact B|]. rewrite V' in Es, Ns. cbv zeta in Fs, Es, Ns.
  split; [exact Fs|]. rewrite !Rsum_cons. split; [exact Es|].
  split; [|intros Q; inversion Q; subst; apply Ns; assumption].
  set (s := fval (fold_left _ _ _)) in *.
  replace s with ((s - (fval a + Rsum (fv l))) + (fval a + Rsum (fv l))) by ring.
  eapply Rle_trans; [apply Rabs_triang|]. pose proof (Rabs_triang (fval a) (Rsum (fv l))). pose proof (fv_fa l). lra.
Qed.

Lemma IZR_nat n : IZR (Z.of_nat n) = INR n. Proof. symmetry. apply INR_IZR_INZ. Qed.
Lemma count_ok n : (Z.of_nat n <= 2 ^ prec)%Z ->
  fin (SpecFloat.binary_normalize prec emax (Z.of_nat n) 0 false) /\
  fval (SpecFloat.binary_normalize prec emax (Z.of_nat n) 0 false) = INR n.
Proof.
  intros B. rewrite <- IZR_nat. apply fofZ_ok; [exact Hp|exact He|lia|].
  rewrite Z.abs_eq by lia. apply Rle_trans with (IZR (2 ^ prec)); [apply IZR_le; exact B|].
  eapply Rle_trans; [|exact FM2p]. change (2 ^ prec)%Z with (radix2 ^ prec)%Z. rewrite (IZR_Zpower radix2 prec) by lia. rewrite bpow_powerRZ. lra.
Qed.

(** Sum divided by the count. *)
Lemma avg_err sz l : Forall fin l -> l <> [] -> (Z.of_nat (length l) <= 2 ^ prec)%Z ->
  (1 + u) ^ (length l - 1) * Rsum (fa l) <= FM ->
  let m := SFdiv prec emax (fold_left (SFadd prec emax) l (S754_zero sz))
             (SpecFloat.binary_normalize prec emax (Z.of_nat (length l)) 0 false) in
  fin m /\ Rabs (fval m - Rmean (fv l)) <= ((1 + u) ^ length l - 1) * Rmean (fa l) + tn /\
  (Forall (fun x => 0 <= fval x) l -> 0 <= fval m).
Proof.
  intros Fl NE N B. cbv zeta. destruct (sum_err sz l Fl NE B) as [Fs [Es [Ms Ns]]]. cbv zeta in Fs, Es, Ms, Ns.
  destruct (count_ok _ N) as [Fn Vn]. set (s := fold_left _ _ _) in *. set (c := SpecFloat.binary_normalize _ _ _ _ _) in *.
  pose proof (INR_len_pos l NE) as P. set (n := INR (length l)) in *.
  assert (n1 : 1 <= n).
  { unfold n. change 1 with (INR 1). apply le_INR. destruct l; [congruence|cbn; lia]. }
  assert (I : 0 < / n) by (apply Rinv_0_lt_compat; lra).
  assert (I1 : / n <= 1) by (rewrite <- Rinv_1; apply Rinv_le_contravar; lra).
  assert (D : Rabs (fval s / fval c) = Rabs (fval s) * / n).
  { rewrite Vn. unfold Rdiv. rewrite Rabs_mult, (Rabs_pos_eq (/ n)) by lra. reflexivity. }
  destruct (fdiv_ok prec emax Hp He s c Fs Fn) as [F V]; [rewrite Vn; lra| |].
  { rewrite D. pose proof (Rabs_pos (fval s)). apply Rle_trans with (Rabs (fval s) * 1); [apply Rmult_le_compat_l; lra|lra]. }
  split; [exact F|]. rewrite V.
  split; [|intros Q; apply rnd_nonneg; rewrite Vn; unfold Rdiv; apply Rmult_le_pos; [apply Ns; exact Q|lra]].
  replace (rnd (fval s / fval c) - Rmean (fv l)) with
    ((rnd (fval s / fval c) - fval s / fval c) + (fval s - Rsum (fv l)) * / n).
  2:{ rewrite Vn. unfold Rmean, fv. rewrite map_length. fold n. field. lra. }
  eapply Rle_trans; [apply Rabs_triang|]. rewrite Rabs_mult, (Rabs_pos_eq (/ n)) by lra.
  pose proof (rnd_err prec emax Hp (fval s / fval c)) as R1. rewrite D in R1.
  unfold Rmean, fa. rewrite map_length. fold n. fold (fa l). set (T := Rsum (fa l)) in *.
  pose proof (fa_nonneg l) as T0. fold T in T0. pose proof u0 as U.
  assert (Gn : (1 + u) ^ length l = (1 + u) * (1 + u) ^ (length l - 1)).
  { destruct l; [congruence|]. cbn [length]. replace (Datatypes.S (length l) - 1)%nat with (length l) by lia. reflexivity. }
  rewrite Gn. set (g := (1 + u) ^ (length l - 1)) in *.
  assert (K1 : u * (Rabs (fval s) * / n) <= u * (g * T * / n)).
  { apply Rmult_le_compat_l; [lra|]. apply Rmult_le_compat_r; [lra|exact Ms]. }
  assert (K2 : Rabs (fval s - Rsum (fv l)) * / n <= (g - 1) * T * / n) by (apply Rmult_le_compat_r; [lra|exact Es]).
  replace (((1 + u) * g - 1) * (T / n)) with (u * (g * T * / n) + (g - 1) * T * / n) by (unfold Rdiv; ring). lra.
Qed.

Lemma mean_run sz (y : list spec_float) : y <> [] ->
  @mean _ (SFNum prec emax sz) y =
  (SFdiv prec emax (fold_left (SFadd prec emax) y (S754_zero false))
     (SpecFloat.binary_normalize prec emax (Z.of_nat (length y)) 0 false), length y).
Proof.
  intros NE. unfold mean.
  assert (K : forall l s c, fold_left (fun (acc : spec_float * nat) yi => (@nadd _ (SFNum prec emax sz) (fst acc) yi, S (snd acc))) l (s, c)
     = (fold_left (SFadd prec emax) l s, (c + length l)%nat)).
  { induction l as [|a l IH]; intros s c; cbn [fold_left length fst snd]; [f_equal; lia|]. rewrite IH. f_equal. lia. }
  rewrite K. cbn [Nat.add]. destruct y; [congruence|]. cbn [length Nat.ltb Nat.leb]. reflexivity.
Qed.

(** Powers of 1+u stay below 3 up to n = 2^prec. *)
Lemma G3 n : (Z.of_nat n <= 2 ^ prec)%Z -> (1 + u) ^ n <= 3.
Proof.
  intros N. assert (nu : INR n * u <= 1).
  { apply Rle_trans with (powerRZ 2 prec * u).
    - apply Rmult_le_compat_r; [pose proof u0; lra|]. rewrite <- IZR_nat. rewrite <- bpow_powerRZ, <- (IZR_Zpower radix2 prec) by lia.
      apply IZR_le. exact N.
    - unfold uround. rewrite <- powerRZ_add by lra. replace (prec + - prec)%Z with 0%Z by lia. cbn. lra. }
  apply Rle_trans with (exp (INR n * u)).
  - clear nu N. induction n as [|n IH]; [cbn; rewrite Rmult_0_l, exp_0; lra|].
    replace (INR (S n) * u) with (u + INR n * u) by (rewrite S_INR; ring). rewrite exp_plus. cbn [pow].
    apply Rmult_le_compat; [pose proof u0; lra|pose proof (G1 n); lra| |exact IH].
    apply Rlt_le, exp_ineq1. apply Rgt_not_eq, u0.
  - apply Rle_trans with (exp 1); [|apply exp_le_3]. destruct nu as [L|E]; [left; apply exp_increasing; exact L|rewrite E; lra].
Qed.

(** One squared deviation. *)
Definition sqdev (m x : spec_float) : spec_float := let d := SFsub prec emax x m in SFmul prec emax d d.
Lemma sqdev_err m x : fin x -> fin m -> Rabs (fval x - fval m) <= FM ->
  (1 + u) ^ 2 * (fval x - fval m) ^ 2 <= FM ->
  fin (sqdev m x) /\ 0 <= fval (sqdev m x) /\
  Rabs (fval (sqdev m x) - (fval x - fval m) ^ 2) <= ((1 + u) ^ 3 - 1) * (fval x - fval m) ^ 2 + tn /\
  fval (sqdev m x) <= (1 + u) ^ 3 * (fval x - fval m) ^ 2 + tn.
Proof.
  intros Fx Fm B1 B2. unfold sqdev. cbv zeta.
  destruct (fsub_ok prec emax Hp He x m Fx Fm B1) as [Fd Vd]. set (d := SFsub prec emax x m) in *.
  set (D := fval x - fval m) in *. pose proof u0 as U.
  assert (Ed : Rabs (fval d - D) <= u * Rabs D).
  { rewrite Vd. unfold D, Rminus at 1 2 3. apply (add_err prec emax Hp).
    - apply (finite_format prec emax); assumption.
    - apply (finite_opp_format prec emax), (finite_format prec emax); assumption. }
  assert (Sq : Rabs D ^ 2 = D ^ 2) by (rewrite <- !Rsqr_pow2; symmetry; apply Rsqr_abs).
  assert (Md : Rabs (fval d) <= (1 + u) * Rabs D).
  { replace (fval d) with ((fval d - D) + D) by ring. eapply Rle_trans; [apply Rabs_triang|]. lra. }
  assert (Qd : fval d ^ 2 <= (1 + u) ^ 2 * D ^ 2).
  { rewrite <- Sq, <- Rpow_mult_distr. replace (fval d ^ 2) with (Rabs (fval d) ^ 2) by (rewrite <- !Rsqr_pow2; symmetry; apply Rsqr_abs).
    apply pow_incr. split; [apply Rabs_pos|exact Md]. }
  assert (Pd : fval d * fval d = fval d ^ 2) by ring.
  destruct (fmul_ok prec emax Hp He d d Fd Fd) as [Fp Vp].
  { rewrite Pd, Rabs_pos_eq by apply pow2_ge_0. lra. }
  split; [exact Fp|]. rewrite Vp, Pd. split; [apply rnd_nonneg, pow2_ge_0|].
  assert (E : Rabs (rnd (fval d ^ 2) - D ^ 2) <= ((1 + u) ^ 3 - 1) * D ^ 2 + tn).
  { replace (rnd (fval d ^ 2) - D ^ 2) with ((rnd (fval d ^ 2) - fval d ^ 2) + (fval d - D) * (fval d + D)) by ring.
    eapply Rle_trans; [apply Rabs_triang|]. rewrite Rabs_mult.
    pose proof (rnd_err prec emax Hp (fval d ^ 2)) as R1. rewrite (Rabs_pos_eq (fval d ^ 2)) in R1 by apply pow2_ge_0.
    assert (R2 : Rabs (fval d - D) * Rabs (fval d + D) <= (u * Rabs D) * ((2 + u) * Rabs D)).
    { apply Rmult_le_compat; try apply Rabs_pos; [exact Ed|]. eapply Rle_trans; [apply Rabs_triang|]. lra. }
    replace ((u * Rabs D) * ((2 + u) * Rabs D)) with (u * (2 + u) * Rabs D ^ 2) in R2 by ring. rewrite Sq in R2.
    assert (R3 : u * fval d ^ 2 <= u * ((1 + u) ^ 2 * D ^ 2)) by (apply Rmult_le_compat_l; [lra|exact Qd]).
    replace (((1 + u) ^ 3 - 1) * D ^ 2) with (u * ((1 + u) ^ 2 * D ^ 2) + u * (2 + u) * D ^ 2) by ring. lra. }
  split; [exact E|]. apply Rabs_le_between in E || apply Rabs_le_inv in E. lra.
Qed.

Lemma var_run sz (y : list spec_float) : y <> [] ->
  @variance _ (SFNum prec emax sz) y =
  (SFdiv prec emax (fold_left (SFadd prec emax) (map (sqdev (fst (@mean _ (SFNum prec emax sz) y))) y) (S754_zero sz))
     (SpecFloat.binary_normalize prec emax (Z.of_nat (length y)) 0 false), length y).
Proof.
  intros NE. unfold variance. rewrite mean_run by exact NE. cbn [fst].
  destruct y; [congruence|]. cbn [length Nat.ltb Nat.leb]. reflexivity.
Qed.

Definition dev2 (m : R) (l : list spec_float) : R := Rmean (map (fun x => (fval x - m) ^ 2) l).
Lemma dev2_eq m l : l <> [] -> dev2 m l = Rvar (fv l) + (m - Rmean (fv l)) ^ 2.
Proof.
  intros NE. assert (NF : fv l <> []) by (destruct l; [congruence|discriminate]).
  rewrite Rvar_moments by exact NF. unfold dev2.
  pose proof (INR_len_pos l NE) as P. unfold Rmean, fv. rewrite !map_map, !map_length. set (n := INR (length l)) in *.
  rewrite (map_ext (fun x => (fval x - m) ^ 2) (fun x => fval x ^ 2 + (- (2 * m) * fval x + m ^ 2))) by (intros; ring).
  rewrite (Rsum_plus (fun x => fval x ^ 2) (fun x => - (2 * m) * fval x + m ^ 2) l),
    (Rsum_plus (fun x => - (2 * m) * fval x) (fun _ => m ^ 2) l), Rsum_map_scale, Rsum_const. fold n. field. lra.
Qed.

Lemma mean_le {A} (f g : A -> R) l : l <> [] -> (forall x, In x l -> f x <= g x) -> Rmean (map f l) <= Rmean (map g l).
Proof.
  intros NE H. unfold Rmean. rewrite !map_length. apply Rmult_le_compat_r; [|apply Rsum_le; exact H].
  left. apply Rinv_0_lt_compat, INR_len_pos. exact NE.
Qed.
Lemma mean_plus_c {A} (f : A -> R) a c l : l <> [] -> Rmean (map (fun x => a * f x + c) l) = a * Rmean (map f l) + c.
Proof.
  intros NE. unfold Rmean. rewrite !map_length. pose proof (INR_len_pos l NE) as P.
  rewrite (Rsum_plus (fun x => a * f x) (fun _ => c) l), Rsum_map_scale, Rsum_const. field. lra.
Qed.
Lemma mean_abs_diff {A} (f g h : A -> R) l : l <> [] -> (forall x, In x l -> Rabs (f x - g x) <= h x) ->
  Rabs (Rmean (map f l) - Rmean (map g l)) <= Rmean (map h l).
Proof.
  intros NE H.
  assert (E : Rmean (map f l) - Rmean (map g l) = Rmean (map (fun x => f x - g x) l)).
  { unfold Rmean. rewrite !map_length. replace (Rsum (map (fun x => f x - g x) l)) with (Rsum (map f l) - Rsum (map g l)).
    - unfold Rdiv. ring.
    - clear. induction l as [|a l IH]; [cbn; ring|]. cbn [map]. rewrite !Rsum_cons, <- IH. ring. }
  rewrite E. apply Rabs_le. split.
  - replace (- Rmean (map h l)) with (-1 * Rmean (map h l) + 0) by ring. rewrite <- mean_plus_c by exact NE.
    apply mean_le; [exact NE|]. intros x Hx. specialize (H x Hx). apply Rabs_le_inv in H. lra.
  - apply mean_le; [exact NE|]. intros x Hx. specialize (H x Hx). apply Rabs_le_inv in H. lra.
Qed.
Lemma Rsum_mean {A} (f : A -> R) l : l <> [] -> Rsum (map f l) = INR (length l) * Rmean (map f l).
Proof. intros NE. unfold Rmean. rewrite map_length. pose proof (INR_len_pos l NE). field. lra. Qed.

(** Squared deviations from any float [m], averaged. *)
Lemma dev_err sz m y D : Forall fin y -> y <> [] -> (Z.of_nat (length y) <= 2 ^ prec)%Z -> fin m ->
  1 <= D -> (forall x, In x y -> Rabs (fval x - fval m) <= D) -> 10 * INR (length y) * D ^ 2 <= FM ->
  let v := SFdiv prec emax (fold_left (SFadd prec emax) (map (sqdev m) y) (S754_zero sz))
             (SpecFloat.binary_normalize prec emax (Z.of_nat (length y)) 0 false) in
  fin v /\ 0 <= fval v /\
  Rabs (fval v - dev2 (fval m) y) <= ((1 + u) ^ (length y + 3) - 1) * dev2 (fval m) y + ((1 + u) ^ length y + 1) * tn.
Proof.
  intros Fy NE N Fm D1 HD HB. cbv zeta.
  assert (n1 : 1 <= INR (length y)).
  { change 1 with (INR 1). apply le_INR. destruct y; [congruence|cbn; lia]. }
  assert (D2 : D ^ 2 <= INR (length y) * D ^ 2) by (pose proof (pow2_ge_0 D); nra).
  assert (DD : D <= D ^ 2) by nra. pose proof u0 as U. pose proof u14 as U4.
  assert (Q : forall x, In x y -> (fval x - fval m) ^ 2 <= D ^ 2).
  { intros x Hx. specialize (HD x Hx). rewrite <- !Rsqr_pow2. apply Rsqr_le_abs_1. rewrite (Rabs_pos_eq D) by lra. exact HD. }
  assert (u2 : (1 + u) ^ 2 <= 2) by nra. assert (u3 : (1 + u) ^ 3 <= 2) by nra.
  assert (E : forall x, In x y -> fin (sqdev m x) /\ 0 <= fval (sqdev m x) /\
    Rabs (fval (sqdev m x) - (fval x - fval m) ^ 2) <= ((1 + u) ^ 3 - 1) * (fval x - fval m) ^ 2 + tn /\
    fval (sqdev m x) <= (1 + u) ^ 3 * (fval x - fval m) ^ 2 + tn).
  { intros x Hx. apply sqdev_err; [rewrite Forall_forall in Fy; apply Fy, Hx|exact Fm|specialize (HD x Hx); lra|].
    specialize (Q x Hx). pose proof (pow2_ge_0 (fval x - fval m)). nra. }
  set (l := map (sqdev m) y).
  assert (Fl : Forall fin l) by (apply Forall_forall; intros z Hz; apply in_map_iff in Hz as [x [<- Hx]]; apply E, Hx).
  assert (Pl : Forall (fun x => 0 <= fval x) l) by (apply Forall_forall; intros z Hz; apply in_map_iff in Hz as [x [<- Hx]]; apply E, Hx).
  assert (Ll : length l = length y) by apply map_length.
  assert (NEl : l <> []) by (intros C; rewrite C in Ll; destruct y; [congruence|discriminate]).
  assert (Fal : fa l = map (fun x => fval (sqdev m x)) y).
  { unfold fa, l. rewrite map_map. apply map_ext_in. intros x Hx. apply Rabs_pos_eq, E, Hx. }
  pose proof (G3 _ N) as G. pose proof tn0 as T0. pose proof tn1 as T1.
  assert (M : Rmean (fa l) <= (1 + u) ^ 3 * dev2 (fval m) y + tn).
  { rewrite Fal. unfold dev2. rewrite <- mean_plus_c by exact NE. apply mean_le; [exact NE|]. intros x Hx. apply E, Hx. }
  assert (V0 : 0 <= dev2 (fval m) y).
  { apply Rmult_le_pos; [apply Rsum_nonneg; intros z Hz; apply in_map_iff in Hz as [x [<- _]]; apply pow2_ge_0|].
    rewrite map_length. left. apply Rinv_0_lt_compat. lra. }
  assert (VD : dev2 (fval m) y <= D ^ 2).
  { unfold dev2. replace (D ^ 2) with (Rmean (map (fun _ : spec_float => D ^ 2) y)).
    - apply mean_le; [exact NE|exact Q].
    - unfold Rmean. rewrite Rsum_const, map_length. field. lra. }
  destruct (avg_err sz l Fl NEl) as [Fv [Ev Pv]]; [rewrite Ll; exact N| |].
  { rewrite Fal, Rsum_mean, <- Fal by exact NE. rewrite Ll.
    assert (Gm : (1 + u) ^ (length y - 1) <= 3).
    { eapply Rle_trans; [|exact G]. apply Rle_pow; [lra|lia]. }
    assert (0 <= Rmean (fa l)).
    { apply Rmult_le_pos; [apply fa_nonneg|]. left. apply Rinv_0_lt_compat. unfold fa. rewrite map_length, Ll. lra. }
    assert (M2 : Rmean (fa l) <= 3 * D ^ 2) by nra.
    apply Rle_trans with (3 * (INR (length y) * (3 * D ^ 2))); [|nra].
    apply Rmult_le_compat; [pose proof (G1 (length y - 1)); lra|apply Rmult_le_pos; lra|exact Gm|].
    apply Rmult_le_compat_l; lra. }
  cbv zeta in Fv, Ev, Pv. rewrite Ll in Fv, Ev, Pv. split; [exact Fv|]. split; [apply Pv, Pl|].
  set (v := fval (SFdiv _ _ _ _)) in *.
  assert (E2 : Rabs (Rmean (fv l) - dev2 (fval m) y) <= ((1 + u) ^ 3 - 1) * dev2 (fval m) y + tn).
  { unfold dev2 at 2. rewrite <- mean_plus_c by exact NE. unfold fv, l. rewrite map_map. apply mean_abs_diff; [exact NE|].
    intros x Hx. apply E, Hx. }
  replace (v - dev2 (fval m) y) with ((v - Rmean (fv l)) + (Rmean (fv l) - dev2 (fval m) y)) by ring.
  eapply Rle_trans; [apply Rabs_triang|]. pose proof (G1 (length y)) as G1'. rewrite pow_add. set (g := (1 + u) ^ length y) in *.
  assert (K : (g - 1) * Rmean (fa l) <= (g - 1) * ((1 + u) ^ 3 * dev2 (fval m) y + tn)) by (apply Rmult_le_compat_l; lra).
  lra.
Qed.

(** Mean, variance, standard deviation of the float code. *)
Lemma mean_final sz y : Forall fin y -> y <> [] -> (Z.of_nat (length y) <= 2 ^ prec)%Z ->
  (1 + u) ^ (length y - 1) * Rsum (fa y) <= FM ->
  fin (fst (@mean _ (SFNum prec emax sz) y)) /\
  Rabs (fval (fst (@mean _ (SFNum prec emax sz) y)) - Rmean (fv y)) <= ((1 + u) ^ length y - 1) * Rmean (fa y) + tn.
Proof. intros Fy NE N B. rewrite mean_run by exact NE. cbn [fst]. destruct (avg_err false y Fy NE N B) as [A [C _]]. split; assumption. Qed.

Lemma Rmean_abs_le y B : y <> [] -> (forall x, In x y -> Rabs (fval x) <= B) -> Rmean (fa y) <= B.
Proof.
  intros NE HB. apply Rle_trans with (Rmean (map (fun _ : spec_float => B) y)); [apply mean_le; assumption|].
  unfold Rmean. rewrite Rsum_const, map_length. pose proof (INR_len_pos y NE). right. field. lra.
Qed.

Lemma var_final sz y B : Forall fin y -> y <> [] -> (Z.of_nat (length y) <= 2 ^ prec)%Z ->
  1 <= B -> (forall x, In x y -> Rabs (fval x) <= B) -> 256 * INR (length y) * B ^ 2 <= FM ->
  let e := ((1 + u) ^ length y - 1) * Rmean (fa y) + tn in
  let v := fst (@variance _ (SFNum prec emax sz) y) in
  fin v /\ 0 <= fval v /\
  Rabs (fval v - Rvar (fv y)) <= ((1 + u) ^ (length y + 3) - 1) * (Rvar (fv y) + e ^ 2) + e ^ 2 + ((1 + u) ^ length y + 1) * tn.
Proof.
  intros Fy NE N B1 HB HM. cbv zeta.
  assert (n1 : 1 <= INR (length y)).
  { change 1 with (INR 1). apply le_INR. destruct y; [congruence|cbn; lia]. }
  assert (B2 : B ^ 2 <= INR (length y) * B ^ 2) by (pose proof (pow2_ge_0 B); nra).
  assert (BB : B <= B ^ 2) by nra. pose proof u0 as U. pose proof (G3 _ N) as G. pose proof tn0 as T0. pose proof tn1 as T1.
  assert (A0 : 0 <= Rmean (fa y)).
  { apply Rmult_le_pos; [apply fa_nonneg|]. left. apply Rinv_0_lt_compat. unfold fa. rewrite map_length. lra. }
  pose proof (Rmean_abs_le y B NE HB) as AB.
  assert (Hsum : Rsum (fa y) <= INR (length y) * B).
  { unfold fa. rewrite Rsum_mean by exact NE. apply Rmult_le_compat_l; [lra|exact AB]. }
  destruct (mean_final sz y Fy NE N) as [Fm Em].
  { apply Rle_trans with (3 * (INR (length y) * B)).
    - apply Rmult_le_compat; [pose proof (G1 (length y - 1)); lra|apply fa_nonneg| |exact Hsum].
      eapply Rle_trans; [|exact G]. apply Rle_pow; [lra|lia].
    - assert (INR (length y) * B <= INR (length y) * B ^ 2) by (apply Rmult_le_compat_l; lra). nra. }
  rewrite var_run by exact NE. cbn [fst]. set (m := fst (@mean _ (SFNum prec emax sz) y)) in *.
  set (e := ((1 + u) ^ length y - 1) * Rmean (fa y) + tn) in *.
  assert (eB : e <= 2 * B + / 8).
  { unfold e. assert (((1 + u) ^ length y - 1) * Rmean (fa y) <= 2 * B); [|lra].
    apply Rmult_le_compat; [pose proof (G1 (length y)); lra|exact A0|lra|exact AB]. }
  assert (mB : Rabs (fval m) <= 4 * B).
  { replace (fval m) with ((fval m - Rmean (fv y)) + Rmean (fv y)) by ring. eapply Rle_trans; [apply Rabs_triang|].
    assert (Rabs (Rmean (fv y)) <= B); [|lra].
    unfold Rmean, Rdiv. rewrite Rabs_mult. unfold fv. rewrite map_length. fold (fv y).
    rewrite (Rabs_pos_eq (/ INR (length y))) by (left; apply Rinv_0_lt_compat; lra).
    apply Rle_trans with (Rsum (fa y) * / INR (length y)).
    - apply Rmult_le_compat_r; [left; apply Rinv_0_lt_compat; lra|apply fv_fa].
    - unfold Rmean, fa in AB. rewrite map_length in AB. exact AB. }
  destruct (dev_err sz m y (5 * B) Fy NE N Fm) as [Fv [Pv Ev]]; [lra| |nra|].
  { intros x Hx. specialize (HB x Hx). unfold Rminus. eapply Rle_trans; [apply Rabs_triang|]. rewrite Rabs_Ropp. lra. }
  cbv zeta in Fv, Pv, Ev. split; [exact Fv|]. split; [exact Pv|].
  rewrite dev2_eq in Ev by exact NE. set (V := Rvar (fv y)) in *. set (d := fval m - Rmean (fv y)) in *.
  assert (d2 : d ^ 2 <= e ^ 2).
  { rewrite <- !Rsqr_pow2. apply Rsqr_le_abs_1. rewrite (Rabs_pos_eq e); [exact Em|]. eapply Rle_trans; [apply Rabs_pos|exact Em]. }
  set (v := fval (SFdiv _ _ _ _)) in *. pose proof (G1 (length y + 3)) as G'. set (g := (1 + u) ^ (length y + 3)) in *.
  replace (v - V) with ((v - (V + d ^ 2)) + d ^ 2) by ring. eapply Rle_trans; [apply Rabs_triang|].
  rewrite (Rabs_pos_eq (d ^ 2)) by apply pow2_ge_0.
  assert ((g - 1) * (V + d ^ 2) <= (g - 1) * (V + e ^ 2)) by (apply Rmult_le_compat_l; lra). lra.
Qed.

Lemma stdev_run sz y : y <> [] ->
  @stdev _ (SFNum prec emax sz) y = (SFsqrt prec emax (fst (@variance _ (SFNum prec emax sz) y)), length y).
Proof.
  intros NE. unfold stdev. rewrite var_run by exact NE. destruct y; [congruence|]. reflexivity.
Qed.
Lemma sqrt_diff a b d : 0 <= a -> 0 <= b -> 0 <= d -> Rabs (a - b) <= d -> Rabs (sqrt a - sqrt b) <= sqrt d.
Proof.
  intros A B D H. apply Rsqr_incr_0_var; [|apply sqrt_pos]. rewrite <- Rsqr_abs, (Rsqr_sqrt d) by exact D.
  eapply Rle_trans; [|exact H].
  replace (a - b) with ((sqrt a - sqrt b) * (sqrt a + sqrt b)).
  2:{ replace ((sqrt a - sqrt b) * (sqrt a + sqrt b)) with (sqrt a * sqrt a - sqrt b * sqrt b) by ring. rewrite !sqrt_sqrt by assumption. reflexivity. }
  rewrite Rsqr_abs. unfold Rsqr. rewrite Rabs_mult. apply Rmult_le_compat_l; [apply Rabs_pos|].
  rewrite (Rabs_pos_eq (sqrt a + sqrt b)) by (pose proof (sqrt_pos a); pose proof (sqrt_pos b); lra).
  apply Rabs_le. pose proof (sqrt_pos a). pose proof (sqrt_pos b). lra.
Qed.
Lemma stdev_final sz y : y <> [] ->
  let v := fst (@variance _ (SFNum prec emax sz) y) in
  fin v -> 0 <= fval v ->
  let s := fst (@stdev _ (SFNum prec emax sz) y) in
  fin s /\ 0 <= fval s /\ Rabs (fval s - sqrt (fval v)) <= u * sqrt (fval v).
Proof.
  intros NE. cbv zeta. intros Fv Pv. rewrite stdev_run by exact NE. cbn [fst].
  destruct (fsqrt_ok prec emax Hp He _ Fv Pv) as [Fs Vs]. split; [exact Fs|]. rewrite Vs.
  split; [apply rnd_nonneg, sqrt_pos|]. apply (sqrt_err prec emax Hp); [exact He|lia| |exact Pv]. apply (finite_format prec emax). exact Fv.
Qed.

(** Integer-valued samples: the sum is exact. *)
Definition intval (x : spec_float) : Prop := exists z, fval x = IZR z.
Lemma intfold l : forall acc, fin acc -> intval acc -> Forall fin l -> Forall intval l ->
  Rabs (fval acc) + Rsum (fa l) <= powerRZ 2 prec ->
  fin (fold_left (SFadd prec emax) l acc) /\ fval (fold_left (SFadd prec emax) l acc) = fval acc + Rsum (fv l).
Proof.
  induction l as [|a l IH]; intros acc Fa Ia Fl Il B.
  - cbn. split; [exact Fa|ring].
  - cbn [fold_left]. inversion Fl as [|? ? F1 F2]; subst. inversion Il as [|? ? I1 I2]; subst.
    unfold fa, fv in *. cbn [map] in *. rewrite Rsum_cons in *. pose proof (fa_nonneg l) as N. unfold fa in N.
    pose proof (Rabs_triang (fval acc) (fval a)) as T. pose proof FM2p as M.
    destruct (fadd_ok prec emax Hp He acc a Fa F1) as [F V]; [lra|].
    destruct Ia as [za Ea]. destruct I1 as [z1 E1].
    assert (V' : fval (acc ⊕ a) = fval acc + fval a).
    { rewrite V. apply round_generic; [apply valid_rnd_N|]. rewrite Ea, E1, <- plus_IZR. apply int_format; [exact Hp|exact He|].
      apply le_IZR. rewrite abs_IZR, plus_IZR, <- Ea, <- E1. change (2 ^ prec)%Z with (radix2 ^ prec)%Z.
      rewrite (IZR_Zpower radix2 prec) by lia. rewrite bpow_powerRZ. lra. }
    destruct (IH (acc ⊕ a) F) as [Fs Vs]; [exists (za + z1)%Z; rewrite V', plus_IZR, Ea, E1; reflexivity|exact F2|exact I2|rewrite V'; lra|].
    split; [exact Fs|]. rewrite Vs, V'. ring.
Qed.
Lemma int_mean sz y : Forall fin y -> Forall intval y -> y <> [] -> (Z.of_nat (length y) <= 2 ^ prec)%Z ->
  Rsum (fa y) <= powerRZ 2 prec ->
  let m := fst (@mean _ (SFNum prec emax sz) y) in
  fin m /\ fval m = rnd (Rmean (fv y)).
Proof.
  intros Fy Iy NE N B. cbv zeta. rewrite mean_run by exact NE. cbn [fst].
  assert (Z : fin (S754_zero false)) by (split; [reflexivity|exact I]).
  destruct (intfold y (S754_zero false) Z) as [Fs Vs]; [exists 0%Z; reflexivity|exact Fy|exact Iy|cbn [fval]; rewrite Rabs_R0; lra|].
  cbn [fval] in Vs. rewrite Rplus_0_l in Vs. destruct (count_ok _ N) as [Fn Vn]. pose proof (INR_len_pos y NE) as P.
  assert (n1 : 1 <= INR (length y)).
  { change 1 with (INR 1). apply le_INR. destruct y; [congruence|cbn; lia]. }
  assert (Q : fval (fold_left (SFadd prec emax) y (S754_zero false)) / fval (SpecFloat.binary_normalize prec emax (Z.of_nat (length y)) 0 false) = Rmean (fv y)).
  { rewrite Vs, Vn. unfold Rmean, fv. rewrite map_length. reflexivity. }
  destruct (fdiv_ok prec emax Hp He _ _ Fs Fn) as [F V]; [rewrite Vn; lra| |].
  { rewrite Vs, Vn. unfold Rdiv. rewrite Rabs_mult. rewrite (Rabs_pos_eq (/ _)) by (left; apply Rinv_0_lt_compat; lra).
    apply Rle_trans with (Rabs (Rsum (fv y)) * 1).
    - apply Rmult_le_compat_l; [apply Rabs_pos|]. rewrite <- Rinv_1. apply Rinv_le_contravar; lra.
    - pose proof (fv_fa y). pose proof FM2p. lra. }
  split; [exact F|]. rewrite V, Q. reflexivity.
Qed.
Lemma int_mean_range sz y lo hi : Forall fin y -> Forall intval y -> y <> [] -> (Z.of_nat (length y) <= 2 ^ prec)%Z ->
  Rsum (fa y) <= powerRZ 2 prec -> fin lo -> fin hi -> (forall x, In x y -> fval lo <= fval x <= fval hi) ->
  fval lo <= fval (fst (@mean _ (SFNum prec emax sz) y)) <= fval hi.
Proof.
  intros Fy Iy NE N B Fl Fh H. destruct (int_mean sz y Fy Iy NE N B) as [_ ->].
  assert (NF : fv y <> []) by (destruct y; [congruence|discriminate]).
  assert (R : fval lo <= Rmean (fv y) <= fval hi).
  { apply Rmean_bounds; [exact NF|]. intros x Hx. apply in_map_iff in Hx as [z [<- Hz]]. apply H, Hz. }
  split.
  - apply round_ge_generic; [apply FLT_exp_valid; exact Hp|apply valid_rnd_N|apply (finite_format prec emax); exact Fl|lra].
  - apply round_le_generic; [apply FLT_exp_valid; exact Hp|apply valid_rnd_N|apply (finite_format prec emax); exact Fh|lra].
Qed.
Lemma fold_zero l : forall acc, fin acc -> fval acc = 0 -> Forall (fun x => fin x /\ fval x = 0) l ->
  fin (fold_left (SFadd prec emax) l acc) /\ fval (fold_left (SFadd prec emax) l acc) = 0.
Proof.
  induction l as [|a l IH]; intros acc Fa Va Hl; [split; assumption|]. inversion Hl as [|? ? [F V] Hl']; subst. cbn [fold_left].
  pose proof FM4. destruct (fadd_ok prec emax Hp He acc a Fa F) as [F' V']; [rewrite Va, V, Rplus_0_l, Rabs_R0; lra|].
  apply IH; [exact F'| |exact Hl']. rewrite V', Va, V, Rplus_0_l. apply round_0, valid_rnd_N.
Qed.
Lemma int_var_zero sz y c : Forall fin y -> Forall intval y -> y <> [] -> (Z.of_nat (length y) <= 2 ^ prec)%Z ->
  Rsum (fa y) <= powerRZ 2 prec -> In c y -> (forall x, In x y -> fval x = fval c) ->
  fval (fst (@mean _ (SFNum prec emax sz) y)) = fval c /\ fval (fst (@variance _ (SFNum prec emax sz) y)) = 0.
Proof.
  intros Fy Iy NE N B Ic H. rewrite Forall_forall in Fy.
  assert (Fc : fin c) by (apply Fy, Ic).
  assert (FyF : Forall fin y) by (apply Forall_forall; exact Fy).
  destruct (int_mean sz y FyF Iy NE N B) as [Fm _].
  destruct (int_mean_range sz y c c FyF Iy NE N B Fc Fc) as [A1 A2]; [intros x Hx; rewrite (H x Hx); lra|].
  assert (E : fval (fst (@mean _ (SFNum prec emax sz) y)) = fval c) by lra. split; [exact E|].
  rewrite var_run by exact NE. cbn [fst]. set (m := fst (@mean _ (SFNum prec emax sz) y)) in *. pose proof FM4 as M.
  destruct (fold_zero (map (sqdev m) y) (S754_zero sz)) as [Fs Vs]; [split; [reflexivity|exact I]|reflexivity| |].
  { apply Forall_forall. intros z Hz. apply in_map_iff in Hz as [x [<- Hx]]. unfold sqdev. cbv zeta.
    assert (D : fval x - fval m = 0) by (rewrite E, (H x Hx); ring).
    destruct (fsub_ok prec emax Hp He x m (Fy x Hx) Fm) as [Fd Vd]; [rewrite D, Rabs_R0; lra|].
    rewrite D, round_0 in Vd by apply valid_rnd_N.
    destruct (fmul_ok prec emax Hp He _ _ Fd Fd) as [Fp Vp]; [rewrite Vd, Rmult_0_l, Rabs_R0; lra|].
    rewrite Vd, Rmult_0_l, round_0 in Vp by apply valid_rnd_N. split; assumption. }
  destruct (count_ok _ N) as [Fn Vn]. pose proof (INR_len_pos y NE) as P.
  destruct (fdiv_ok prec emax Hp He _ _ Fs Fn) as [F V]; [rewrite Vn; lra|rewrite Vs; unfold Rdiv; rewrite Rmult_0_l, Rabs_R0; lra|].
  rewrite V, Vs. unfold Rdiv. rewrite Rmult_0_l. apply round_0, valid_rnd_N.
Qed.
End Err.
