(** Rounded operations commute with powers of two inside the normal range. *)
From Coq Require Import Reals ZArith QArith SpecFloat List Lia Lra Bool Arith.
From Flocq Require Import Core BinarySingleNaN.
From Verif Require Import Base Num M_Stats S_Float P_Float P_FloatStats P_FloatCplx S_Mirror S_Units.
Import ListNotations.
Local Open Scope R_scope.

Section Units.
Variables (prec emax : Z) (szero : bool).
Hypothesis PP : (1 < prec < emax)%Z.
Local Instance NU : Num spec_float := SFNum prec emax szero.
Let Hp : Prec_gt_0 prec. Proof. unfold Prec_gt_0; lia. Qed.
Let He : Prec_lt_emax prec emax. Proof. unfold Prec_lt_emax; lia. Qed.
Notation emin := (SpecFloat.emin prec emax).
Notation rnd := (round radix2 (FLT_exp emin prec) ZnearestE).
Notation fin := (finite prec emax).
Notation b2 := (bpow radix2).

Lemma rnd_shift x k : b2 (2 - emax) <= Rabs x -> b2 (2 - emax) <= Rabs (x * b2 k) -> rnd (x * b2 k) = rnd x * b2 k.
Proof.
  intros A B. assert (Em : (emin + prec - 1 = 2 - emax)%Z) by (unfold SpecFloat.emin; lia).
  rewrite !round_FLT_FLX by (rewrite Em; assumption).
  assert (N : x <> 0) by (intros ->; rewrite Rabs_R0 in A; pose proof (bpow_gt_0 radix2 (2 - emax)); lra).
  unfold round, scaled_mantissa, cexp, F2R. cbn [Fnum Fexp]. rewrite mag_mult_bpow by exact N. unfold FLX_exp.
  replace (x * b2 k * b2 (- (mag radix2 x + k - prec))) with (x * b2 (- (mag radix2 x - prec))).
  - replace (mag radix2 x + k - prec)%Z with (mag radix2 x - prec + k)%Z by ring. rewrite bpow_plus. ring.
  - rewrite Rmult_assoc, <- bpow_plus. f_equal. f_equal. ring.
Qed.
(** Zero or at least [2^l]. *)
Definition big (l : Z) (x : R) : Prop := x = 0 \/ b2 l <= Rabs x.
Lemma big_le l l' x : (l' <= l)%Z -> big l x -> big l' x.
Proof. intros H [->|A]; [left; reflexivity|right]. eapply Rle_trans; [apply bpow_le, H|exact A]. Qed.
Lemma rnd_scaled x y k : y = x * b2 k -> big (2 - emax) x -> big (2 - emax) y -> rnd y = rnd x * b2 k.
Proof.
  intros -> [->|A] B; [rewrite Rmult_0_l, round_0 by apply valid_rnd_N; ring|]. apply rnd_shift; [exact A|]. destruct B as [B|B]; [|exact B].
  exfalso. apply Rmult_integral in B. destruct B as [->|B]; [rewrite Rabs_R0 in A; pose proof (bpow_gt_0 radix2 (2 - emax)); lra|pose proof (bpow_gt_0 radix2 k); lra].
Qed.
Lemma rnd_big l x : (emin <= l)%Z -> big l x -> big l (rnd x).
Proof.
  intros H [->|A]; [left; apply round_0, valid_rnd_N|right]. apply abs_round_ge_generic; [apply FLT_exp_valid, Hp|apply valid_rnd_N| |exact A].
  apply generic_format_bpow. unfold FLT_exp. lia.
Qed.
(** Multiples of [j 2^h] of few bits are in the format. *)
Lemma fmt_mult j h : (0 <= j <= 2 ^ prec)%Z -> (emin <= h)%Z -> generic_format radix2 (FLT_exp emin prec) (IZR j * b2 h).
Proof.
  intros J H. destruct (Z.eq_dec j (2 ^ prec)) as [->|N].
  - change (2 ^ prec)%Z with (radix2 ^ prec)%Z. rewrite (IZR_Zpower radix2) by lia. rewrite <- bpow_plus. apply generic_format_bpow. unfold FLT_exp. lia.
  - apply generic_format_FLT. exists (Float radix2 j h); [reflexivity| |exact H]. cbn [Fnum]. change (radix_val radix2) with 2%Z. lia.
Qed.
Lemma rnd_upper x j h : (0 <= j <= 2 ^ prec)%Z -> (emin <= h)%Z -> Rabs x <= IZR j * b2 h -> Rabs (rnd x) <= IZR j * b2 h.
Proof. intros J H B. apply abs_round_le_generic; [apply FLT_exp_valid, Hp|apply valid_rnd_N|apply fmt_mult; assumption|exact B]. Qed.
Lemma rnd_upper1 x h : (emin <= h)%Z -> Rabs x <= b2 h -> Rabs (rnd x) <= b2 h.
Proof. intros H B. rewrite <- (Rmult_1_l (b2 h)) in *. apply (rnd_upper x 1 h); [|exact H|exact B]. pose proof (Z.pow_le_mono_r 2 0 prec). lia. Qed.
(** The grid [2^g Z]. *)
Definition grid (g : Z) (x : R) : Prop := exists z, x = IZR z * b2 g.
Lemma grid_big g x : grid g x -> big g x.
Proof.
  intros [z ->]. destruct (Z.eq_dec z 0) as [->|N]; [left; ring|right]. rewrite Rabs_mult, (Rabs_pos_eq (b2 g)) by apply bpow_ge_0.
  rewrite <- (Rmult_1_l (b2 g)) at 1. apply Rmult_le_compat_r; [apply bpow_ge_0|]. rewrite <- abs_IZR. apply (IZR_le 1). lia.
Qed.
Lemma grid_weaken g g' x : (g' <= g)%Z -> grid g x -> grid g' x.
Proof. intros H [z ->]. exists (z * 2 ^ (g - g'))%Z. rewrite mult_IZR. change (2 ^ (g - g'))%Z with (radix2 ^ (g - g'))%Z. rewrite (IZR_Zpower radix2) by lia. rewrite Rmult_assoc, <- bpow_plus. f_equal. f_equal. ring. Qed.
Lemma grid_add g x y : grid g x -> grid g y -> grid g (x + y).
Proof. intros [a ->] [b ->]. exists (a + b)%Z. rewrite plus_IZR. ring. Qed.
Lemma grid_opp g x : grid g x -> grid g (- x).
Proof. intros [a ->]. exists (- a)%Z. rewrite opp_IZR. ring. Qed.
Lemma big_grid l x : generic_format radix2 (FLT_exp emin prec) x -> (2 - emax <= l)%Z -> big l x -> grid (l - prec + 1) x.
Proof.
  intros G H [->|A]; [exists 0%Z; ring|]. rewrite G. unfold F2R. cbn [Fnum Fexp]. apply (grid_weaken (cexp radix2 (FLT_exp emin prec) x)).
  - unfold cexp, FLT_exp. assert (l + 1 <= mag radix2 x)%Z by (apply mag_ge_bpow; replace (l + 1 - 1)%Z with l by ring; exact A). lia.
  - eexists. reflexivity.
Qed.
Lemma rnd_grid g x : (emin <= g)%Z -> grid g x -> grid g (rnd x).
Proof.
  intros H [z ->]. set (x := IZR z * b2 g). destruct (Z_le_gt_dec (cexp radix2 (FLT_exp emin prec) x) g) as [L|L].
  - rewrite round_generic; [exists z; reflexivity|apply valid_rnd_N|]. unfold x. change (IZR z * b2 g) with (F2R (Float radix2 z g)). apply generic_format_F2R. intros _. exact L.
  - apply (grid_weaken (cexp radix2 (FLT_exp emin prec) x)); [lia|]. unfold round, F2R. cbn [Fnum Fexp]. eexists. reflexivity.
Qed.

(** Pairs of floats that differ by the factor [2^k]: zero or at least [2^l], at most [2^h]. *)
Definition Rk (k l : Z) (H : R) (a b : spec_float) : Prop :=
  fin a /\ fin b /\ fval b = fval a * b2 k /\ big l (fval a) /\ big l (fval b) /\ Rabs (fval a) <= H /\ Rabs (fval b) <= H.
Lemma Rk_weaken k l l' H H' a b : (l' <= l)%Z -> H <= H' -> Rk k l H a b -> Rk k l' H' a b.
Proof. intros L U (A & B & C & D & E & F & G). split; [exact A|]. split; [exact B|]. split; [exact C|]. split; [apply (big_le l); assumption|]. split; [apply (big_le l); assumption|]. split; lra. Qed.
Lemma fmax_ge h : (h < emax)%Z -> b2 h <= fmax prec emax.
Proof.
  intros H. rewrite (fmax_eq prec emax). assert (b2 h <= b2 (emax - 1)) by (apply bpow_le; lia). assert (b2 (emax - prec) <= b2 (emax - 1)) by (apply bpow_le; lia).
  assert (E : b2 emax = b2 (emax - 1) * 2) by (change (b2 (emax - 1) * 2) with (b2 (emax - 1) * b2 1); rewrite <- bpow_plus; f_equal; ring). lra.
Qed.
(** One operation, whatever it is, given its exact results. *)
Lemma op_Rk (op : spec_float) (op' : spec_float) (X Y : R) k l h :
  (Rabs X <= fmax prec emax -> fin op /\ fval op = rnd X) -> (Rabs Y <= fmax prec emax -> fin op' /\ fval op' = rnd Y) ->
  Y = X * b2 k -> (2 - emax <= l)%Z -> big l X -> big l Y -> (emin <= h < emax)%Z -> Rabs X <= b2 h -> Rabs Y <= b2 h -> Rk k l (b2 h) op op'.
Proof.
  intros A B E L U V [H1 H2] M N. pose proof (fmax_ge h H2) as FM.
  destruct A as [A1 A2]; [lra|]. destruct B as [B1 B2]; [lra|]. assert (Le : (emin <= l)%Z) by (unfold SpecFloat.emin; lia).
  unfold Rk. rewrite A2, B2. split; [exact A1|]. split; [exact B1|]. split; [apply rnd_scaled; [exact E|apply (big_le l); assumption|apply (big_le l); assumption]|].
  split; [apply rnd_big; assumption|]. split; [apply rnd_big; assumption|]. split; apply rnd_upper1; assumption.
Qed.
Lemma abs_mul_b2 x k : Rabs (x * b2 k) = Rabs x * b2 k.
Proof. rewrite Rabs_mult, (Rabs_pos_eq (b2 k)) by apply bpow_ge_0. reflexivity. Qed.
Lemma big_mul l l' x y : big l x -> big l' y -> big (l + l') (x * y).
Proof.
  intros [->|A] [->|B]; try (left; ring). right. rewrite bpow_plus, Rabs_mult. apply Rmult_le_compat; try assumption; apply bpow_ge_0.
Qed.
Lemma mul_Rk k k' l l' h h' a b a' b' : Rk k l (b2 h) a b -> Rk k' l' (b2 h') a' b' -> (2 - emax <= l + l')%Z -> (emin <= h + h' < emax)%Z ->
  Rk (k + k') (l + l') (b2 (h + h')) (SFmul prec emax a a') (SFmul prec emax b b').
Proof.
  intros (A1 & A2 & A3 & A4 & A5 & A6 & A7) (B1 & B2 & B3 & B4 & B5 & B6 & B7) L H.
  apply (op_Rk _ _ (fval a * fval a') (fval b * fval b')); try (apply big_mul; assumption); try assumption.
  - intros M. apply (fmul_ok prec emax Hp He a a' A1 B1 M).
  - intros M. apply (fmul_ok prec emax Hp He b b' A2 B2 M).
  - rewrite A3, B3, bpow_plus. ring.
  - rewrite Rabs_mult, bpow_plus. apply Rmult_le_compat; try assumption; apply Rabs_pos.
  - rewrite Rabs_mult, bpow_plus. apply Rmult_le_compat; try assumption; apply Rabs_pos.
Qed.
(** The difference of a sample and something of the size of a mean or median. *)
Lemma sub_big lo l x m : generic_format radix2 (FLT_exp emin prec) x -> generic_format radix2 (FLT_exp emin prec) m ->
  (2 - emax < lo)%Z -> (l <= lo - prec)%Z -> big lo x -> big l m -> big l (x - m).
Proof.
  intros Gx Gm L0 L [->|A] B.
  { replace (0 - m) with (- m) by ring. destruct B as [->|B]; [left; ring|right; rewrite Rabs_Ropp; exact B]. }
  destruct (Rle_lt_dec (b2 (lo - 1)) (Rabs m)) as [C|C].
  - apply (big_le (lo - prec)); [exact L|]. apply grid_big. replace (lo - prec)%Z with (lo - 1 - prec + 1)%Z by ring. apply grid_add.
    + apply big_grid; [exact Gx|lia|]. apply (big_le lo); [lia|right; exact A].
    + apply grid_opp, big_grid; [exact Gm|lia|right; exact C].
  - right. apply Rle_trans with (b2 (lo - 1)); [apply bpow_le; lia|]. pose proof (Rabs_triang_inv x m) as T.
    replace lo with (lo - 1 + 1)%Z in A by ring. rewrite bpow_plus in A. change (b2 1) with 2 in A. lra.
Qed.
Lemma sub_Rk k lo l h a b m m' : Rk k lo (b2 h) a b -> Rk k l (b2 h) m m' -> (2 - emax < lo)%Z -> (2 - emax <= l <= lo - prec)%Z -> (emin <= h)%Z -> (h + 1 < emax)%Z ->
  Rk k l (b2 (h + 1)) (SFsub prec emax a m) (SFsub prec emax b m').
Proof.
  intros (A1 & A2 & A3 & A4 & A5 & A6 & A7) (B1 & B2 & B3 & B4 & B5 & B6 & B7) L0 L H1 H2.
  apply (op_Rk _ _ (fval a - fval m) (fval b - fval m')); try lia.
  - intros M. apply (fsub_ok prec emax Hp He a m A1 B1 M).
  - intros M. apply (fsub_ok prec emax Hp He b m' A2 B2 M).
  - rewrite A3, B3. ring.
  - apply (sub_big lo); try assumption; try lia; apply (finite_format prec emax); assumption.
  - apply (sub_big lo); try assumption; try lia; apply (finite_format prec emax); assumption.
  - rewrite bpow_plus. change (b2 1) with 2. pose proof (Rabs_triang (fval a) (- fval m)) as T. rewrite Rabs_Ropp in T. unfold Rminus. lra.
  - rewrite bpow_plus. change (b2 1) with 2. pose proof (Rabs_triang (fval b) (- fval m')) as T. rewrite Rabs_Ropp in T. unfold Rminus. lra.
Qed.
(** Division by a count, by two. *)
Lemma div_Rk k l h a b n c : Rk k l (b2 h) a b -> (1 <= Z.of_nat n <= 2 ^ c)%Z -> (0 <= c <= prec)%Z -> (2 - emax <= l - c)%Z -> (emin <= h < emax)%Z ->
  Rk k (l - c) (b2 h) (SFdiv prec emax a (SpecFloat.binary_normalize prec emax (Z.of_nat n) 0 false)) (SFdiv prec emax b (SpecFloat.binary_normalize prec emax (Z.of_nat n) 0 false)).
Proof.
  intros (A1 & A2 & A3 & A4 & A5 & A6 & A7) Nn Hc L H.
  destruct (count_ok prec emax PP n) as [Fn Vn]. { apply Z.le_trans with (2 ^ c)%Z; [lia|]. apply Z.pow_le_mono_r; lia. }
  assert (In1 : 1 <= INR n). { change 1 with (INR 1). apply le_INR. lia. }
  assert (In2 : INR n <= b2 c). { rewrite INR_IZR_INZ. rewrite <- (IZR_Zpower radix2) by lia. apply IZR_le. change (radix_val radix2) with 2%Z. lia. }
  assert (Bd : forall x, big l x -> big (l - c) (x / INR n)).
  { intros x [->|U]; [left; unfold Rdiv; ring|right]. unfold Rdiv. rewrite Rabs_mult, (Rabs_pos_eq (/ INR n)) by (left; apply Rinv_0_lt_compat; lra).
    unfold Zminus. rewrite bpow_plus, bpow_opp. apply Rmult_le_compat; try apply bpow_ge_0; [left; apply Rinv_0_lt_compat, bpow_gt_0|exact U|]. apply Rinv_le; lra. }
  assert (Ub : forall x, Rabs x <= b2 h -> Rabs (x / INR n) <= b2 h).
  { intros x U. unfold Rdiv. rewrite Rabs_mult, (Rabs_pos_eq (/ INR n)) by (left; apply Rinv_0_lt_compat; lra). apply Rle_trans with (Rabs x * 1); [|lra]. apply Rmult_le_compat_l; [apply Rabs_pos|]. rewrite <- Rinv_1. apply Rinv_le; lra. }
  set (d := SpecFloat.binary_normalize _ _ _ _ _) in *.
  apply (op_Rk _ _ (fval a / INR n) (fval b / INR n)); try assumption; auto.
  - intros M. rewrite <- Vn in *. apply (fdiv_ok prec emax Hp He a d A1 Fn); [lra|exact M].
  - intros M. rewrite <- Vn in *. apply (fdiv_ok prec emax Hp He b d A2 Fn); [lra|exact M].
  - rewrite A3. unfold Rdiv. ring.
Qed.
(** Square root. *)
Lemma sqrt_b2 k : sqrt (b2 (2 * k)) = b2 k.
Proof. replace (2 * k)%Z with (k + k)%Z by ring. rewrite bpow_plus. apply sqrt_square, bpow_ge_0. Qed.
Lemma sqrt_Rk k l h a b : Rk (2 * k) (2 * l) (b2 (2 * h)) a b -> 0 <= fval a -> 0 <= fval b -> (2 - emax <= l)%Z -> (emin <= h < emax)%Z ->
  Rk k l (b2 h) (SFsqrt prec emax a) (SFsqrt prec emax b).
Proof.
  intros (A1 & A2 & A3 & A4 & A5 & A6 & A7) Pa Pb L H.
  assert (Bd : forall x, 0 <= x -> big (2 * l) x -> big l (sqrt x)).
  { intros x Px [->|U]; [left; apply sqrt_0|right]. rewrite (Rabs_pos_eq (sqrt x)) by apply sqrt_pos. rewrite <- (sqrt_b2 l). apply sqrt_le_1_alt. rewrite Rabs_pos_eq in U by exact Px. exact U. }
  assert (Ub : forall x, 0 <= x -> Rabs x <= b2 (2 * h) -> Rabs (sqrt x) <= b2 h).
  { intros x Px U. rewrite (Rabs_pos_eq (sqrt x)) by apply sqrt_pos. rewrite <- (sqrt_b2 h). apply sqrt_le_1_alt. rewrite Rabs_pos_eq in U by exact Px. exact U. }
  apply (op_Rk _ _ (sqrt (fval a)) (sqrt (fval b))); auto.
  - intros _. apply (fsqrt_ok prec emax Hp He a A1 Pa).
  - intros _. apply (fsqrt_ok prec emax Hp He b A2 Pb).
  - rewrite A3, sqrt_mult_alt by exact Pa. rewrite sqrt_b2. reflexivity.
Qed.
(** Sums.  Partial sums of [j] terms stay below [j 2^h] and on the grid of the terms. *)
Lemma sum_Rk k l h x y : Forall2 (Rk k l (b2 h)) x y -> (2 - emax <= l - prec + 1)%Z -> (emin <= h)%Z ->
  forall c j a b, (Z.of_nat (length x) + j <= 2 ^ c)%Z -> (0 <= j)%Z -> (0 <= c <= prec)%Z -> (h + c < emax)%Z ->
  fin a -> fin b -> fval b = fval a * b2 k -> grid (l - prec + 1) (fval a) -> grid (l - prec + 1) (fval b) -> Rabs (fval a) <= IZR j * b2 h -> Rabs (fval b) <= IZR j * b2 h ->
  Rk k (l - prec + 1) (b2 (h + c)) (fold_left (SFadd prec emax) x a) (fold_left (SFadd prec emax) y b).
Proof.
  intros Hxy L Hh. set (g := (l - prec + 1)%Z) in *. induction Hxy as [|u v x y Huv Hxy IH]; intros c j a b Hc Hj Cp HC Fa Fb E Ga Gb Ba Bb; cbn [fold_left].
  - cbn in Hc. assert (K : IZR j * b2 h <= b2 (h + c)).
    { rewrite Zplus_comm, bpow_plus. apply Rmult_le_compat_r; [apply bpow_ge_0|]. rewrite <- (IZR_Zpower radix2) by lia. apply IZR_le. change (radix_val radix2) with 2%Z. lia. }
    split; [exact Fa|]. split; [exact Fb|]. split; [exact E|]. split; [apply grid_big, Ga|]. split; [apply grid_big, Gb|]. split; lra.
  - destruct Huv as (U1 & U2 & U3 & U4 & U5 & U6 & U7). cbn [length] in Hc. rewrite Nat2Z.inj_succ in Hc.
    assert (J1 : (0 <= j + 1 <= 2 ^ prec)%Z) by (pose proof (Z.pow_le_mono_r 2 c prec ltac:(lia) ltac:(lia)); lia).
    assert (Gu : grid g (fval u)) by (apply big_grid; [apply (finite_format prec emax), U1|lia|exact U4]).
    assert (Gv : grid g (fval v)) by (apply big_grid; [apply (finite_format prec emax), U2|lia|exact U5]).
    assert (K : IZR (j + 1) * b2 h <= fmax prec emax).
    { eapply Rle_trans; [|apply (fmax_ge (h + c)); exact HC]. rewrite Zplus_comm, (Zplus_comm h c), bpow_plus. apply Rmult_le_compat_r; [apply bpow_ge_0|]. rewrite <- (IZR_Zpower radix2) by lia. apply IZR_le. change (radix_val radix2) with 2%Z. lia. }
    assert (Ia : Rabs (fval a + fval u) <= IZR (j + 1) * b2 h) by (rewrite plus_IZR; pose proof (Rabs_triang (fval a) (fval u)); lra).
    assert (Ib : Rabs (fval b + fval v) <= IZR (j + 1) * b2 h) by (rewrite plus_IZR; pose proof (Rabs_triang (fval b) (fval v)); lra).
    destruct (fadd_ok prec emax Hp He a u Fa U1) as [F1 V1]; [lra|]. destruct (fadd_ok prec emax Hp He b v Fb U2) as [F2 V2]; [lra|].
    assert (Ee : (emin <= g)%Z) by (unfold SpecFloat.emin; lia).
    apply (IH c (j + 1)%Z); try assumption; try lia.
    + rewrite V1, V2. apply rnd_scaled; [rewrite E, U3; ring| |]; apply (big_le g); try exact L; apply grid_big, grid_add; assumption.
    + rewrite V1. apply rnd_grid; [exact Ee|]. apply grid_add; assumption.
    + rewrite V2. apply rnd_grid; [exact Ee|]. apply grid_add; assumption.
    + rewrite V1. apply rnd_upper; assumption.
    + rewrite V2. apply rnd_upper; assumption.
Qed.
Lemma zero_fin s : fin (S754_zero s).
Proof. split; [reflexivity|exact I]. Qed.
Lemma nsum_Rk k l h x y c z : Forall2 (Rk k l (b2 h)) x y -> (2 - emax <= l - prec + 1)%Z -> (emin <= h)%Z -> (Z.of_nat (length x) <= 2 ^ c)%Z -> (0 <= c <= prec)%Z -> (h + c < emax)%Z ->
  Rk k (l - prec + 1) (b2 (h + c)) (fold_left (SFadd prec emax) x (S754_zero z)) (fold_left (SFadd prec emax) y (S754_zero z)).
Proof.
  intros H L Hh N C HC. apply (sum_Rk k l h x y H L Hh c 0%Z); try lia; try apply zero_fin; cbn [fval]; try (rewrite Rabs_R0; lra); try ring; exists 0%Z; ring.
Qed.
End Units.
