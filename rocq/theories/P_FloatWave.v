(** Proofs about the remainder of floats and the square wave in floating point. *)
From Coq Require Import Reals ZArith SpecFloat List Lia Lra Bool.
From Flocq Require Import Core Relative Plus_error Div_sqrt_error BinarySingleNaN.
From Coquelicot Require Rcomplements.
From Verif Require Import Base Num M_Wave S_Float P_Float P_Wave.
Import ListNotations.
Local Open Scope R_scope.

Section W.
Variables prec emax : Z.
Hypothesis Hp : Prec_gt_0 prec.
Hypothesis He : Prec_lt_emax prec emax.
Notation emin := (SpecFloat.emin prec emax).
Notation rnd := (round radix2 (FLT_exp emin prec) ZnearestE).
Notation fin := (finite prec emax).

Lemma lt_fv a b : fin a -> fin b -> SFltb a b = Rltb (fval a) (fval b).
Proof.
  intros Fa Fb. destruct (finite_B prec emax a Fa) as [x [-> [Fx Vx]]]. destruct (finite_B prec emax b Fb) as [y [-> [Fy Vy]]].
  rewrite Vx, Vy. change (SFltb (B2SF x) (B2SF y)) with (Bltb x y). rewrite Bltb_correct by assumption.
  unfold Rltb. destruct (Rlt_dec _ _); [apply Rlt_bool_true; assumption|apply Rlt_bool_false; lra].
Qed.
Lemma le_fv a b : fin a -> fin b -> SFleb a b = Rleb (fval a) (fval b).
Proof.
  intros Fa Fb. destruct (finite_B prec emax a Fa) as [x [-> [Fx Vx]]]. destruct (finite_B prec emax b Fb) as [y [-> [Fy Vy]]].
  rewrite Vx, Vy. change (SFleb (B2SF x) (B2SF y)) with (Bleb x y). rewrite Bleb_correct by assumption.
  unfold Rleb. destruct (Rle_dec _ _); [apply Rle_bool_true; assumption|apply Rle_bool_false; lra].
Qed.

(** Significand and exponent of a float of the format. *)
Lemma fin_bounds s m e : fin (S754_finite s m e) -> (Z.pos m < 2 ^ prec)%Z /\ (emin <= e)%Z.
Proof.
  intros [V _]. cbn in V. unfold bounded in V. apply andb_prop in V. destruct V as [V1 V2].
  unfold canonical_mantissa in V1. apply Zeq_bool_eq in V1. unfold SpecFloat.fexp in V1.
  assert (D : (Z.pos (digits2_pos m) <= prec)%Z) by lia. split; [|lia].
  assert (Q : Z.pos (digits2_pos m) = Zdigits radix2 (Z.pos m)) by exact (Zpos_digits2_pos m).
  rewrite Q in D. change (Z.pos m) with (Z.abs (Z.pos m)). apply Z.lt_le_trans with (2 ^ Zdigits radix2 (Z.pos m))%Z.
  - change 2%Z with (radix_val radix2). apply Zdigits_correct.
  - apply Z.pow_le_mono_r; lia.
Qed.

Lemma norm_exact m e z : (Z.abs m < 2 ^ prec)%Z -> (emin <= e)%Z -> Rabs (IZR m * bpow radix2 e) <= fmax prec emax ->
  fin (SpecFloat.binary_normalize prec emax m e z) /\
  fval (SpecFloat.binary_normalize prec emax m e z) = IZR m * bpow radix2 e.
Proof.
  intros B E M. rewrite (normalize_equiv prec emax Hp He).
  pose proof (binary_normalize_correct prec emax Hp He mode_NE m e z) as C. cbv zeta in C.
  change (F2R (Float radix2 m e)) with (IZR m * bpow radix2 e) in C.
  assert (G : generic_format radix2 (FLT_exp emin prec) (IZR m * bpow radix2 e)).
  { apply generic_format_FLT. exists (Float radix2 m e); [reflexivity|exact B|exact E]. }
  assert (R : rnd (IZR m * bpow radix2 e) = IZR m * bpow radix2 e) by (apply round_generic; [apply valid_rnd_N|exact G]).
  rewrite Rlt_bool_true in C.
  - destruct C as [C1 [C2 _]]. destruct (B_finite _ _ _ C2) as [D1 D2]. split; [exact D1|]. rewrite D2, C1. exact R.
  - apply rnd_bound; assumption.
Qed.
Lemma fin_max x : fin x -> Rabs (fval x) <= fmax prec emax.
Proof.
  intros F. destruct (finite_B prec emax x F) as [b [_ [_ ->]]]. rewrite (fmax_eq prec emax).
  apply (abs_B2R_le_emax_minus_prec prec emax Hp b).
Qed.

Lemma rem_exact x y : fin x -> fin y -> fval y <> 0 ->
  fin (SFrem prec emax x y) /\
  exists k : Z, fval (SFrem prec emax x y) = fval x - IZR k * fval y /\
    Rabs (fval (SFrem prec emax x y)) < Rabs (fval y) /\
    0 <= fval (SFrem prec emax x y) * fval x /\
    (fval (SFrem prec emax x y) = 0 -> exists s, SFrem prec emax x y = S754_zero s /\
      match x with S754_zero s' | S754_finite s' _ _ => s = s' | _ => True end).
Proof.
  intros Fx Fy Ny. destruct y as [sy|sy| |sy my ey]; try (exfalso; apply Ny; reflexivity).
  destruct x as [sx|sx| |sx mx ex]; try (exfalso; destruct Fx as [_ Fx]; exact Fx).
  { cbn [SFrem]. split; [exact Fx|]. exists 0%Z. cbn [fval]. rewrite Rabs_R0. split; [ring|].
    split; [apply Rabs_pos_lt; exact Ny|]. split; [lra|]. intros _. exists sx. split; reflexivity. }
  destruct (fin_bounds _ _ _ Fx) as [Bx Ex]. destruct (fin_bounds _ _ _ Fy) as [By Ey].
  pose proof (fin_max _ Fy) as My.
  cbn [SFrem]. set (e := Z.min ex ey).
  rewrite !Z.shiftl_mul_pow2 by lia.
  set (a := (Z.pos mx * 2 ^ (ex - e))%Z). set (b := (Z.pos my * 2 ^ (ey - e))%Z).
  assert (Pex : (0 < 2 ^ (ex - e))%Z) by (apply Z.pow_pos_nonneg; lia).
  assert (Pey : (0 < 2 ^ (ey - e))%Z) by (apply Z.pow_pos_nonneg; lia).
  assert (Pa : (0 < a)%Z) by (unfold a; lia). assert (Pb : (0 < b)%Z) by (unfold b; lia).
  pose proof (Z.mod_pos_bound a b Pb) as Br. pose proof (Z.div_mod a b) as Dm.
  pose proof (Z.mod_le a b) as Ma.
  set (r := (a mod b)%Z) in *. set (q := (a / b)%Z) in *.
  assert (Rp : (r < 2 ^ prec)%Z).
  { destruct (Z.le_gt_cases ex ey) as [L|L].
    - apply Z.le_lt_trans with (Z.pos mx); [|exact Bx]. assert (e = ex) by lia.
      assert (a = Z.pos mx) by (unfold a; replace (ex - e)%Z with 0%Z by lia; lia). lia.
    - apply Z.lt_trans with (Z.pos my); [|exact By].
      assert (b = Z.pos my) by (unfold b; replace (ey - e)%Z with 0%Z by lia; lia). lia. }
  assert (sc : forall m e0, (e <= e0)%Z -> IZR (Z.pos m) * powerRZ 2 e0 = IZR (Z.pos m * 2 ^ (e0 - e)) * bpow radix2 e).
  { intros m e0 L. rewrite mult_IZR. change (2 ^ (e0 - e))%Z with (radix2 ^ (e0 - e))%Z.
    rewrite (IZR_Zpower radix2) by lia. rewrite Rmult_assoc, <- bpow_plus, bpow_powerRZ. do 2 f_equal. lia. }
  assert (Vx : fval (S754_finite sx mx ex) = (if sx then -1 else 1) * (IZR a * bpow radix2 e)).
  { cbn [fval]. rewrite Rmult_assoc, (sc mx ex) by lia. reflexivity. }
  assert (Vy : fval (S754_finite sy my ey) = (if sy then -1 else 1) * (IZR b * bpow radix2 e)).
  { cbn [fval]. rewrite Rmult_assoc, (sc my ey) by lia. reflexivity. }
  pose proof (bpow_gt_0 radix2 e) as Pe.
  assert (Ay : Rabs (fval (S754_finite sy my ey)) = IZR b * bpow radix2 e).
  { rewrite Vy. assert (0 < IZR b) by (apply (IZR_lt 0); exact Pb).
    assert (0 < IZR b * bpow radix2 e) by (apply Rmult_lt_0_compat; assumption).
    destruct sy; [rewrite <- Rabs_Ropp|]; rewrite Rabs_pos_eq by lra; lra. }
  assert (Rb : IZR r * bpow radix2 e < IZR b * bpow radix2 e).
  { apply Rmult_lt_compat_r; [exact Pe|]. apply IZR_lt. lia. }
  assert (R0 : 0 <= IZR r * bpow radix2 e) by (apply Rmult_le_pos; [apply (IZR_le 0); lia|lra]).
  assert (Va : IZR a = IZR b * IZR q + IZR r) by (rewrite <- mult_IZR, <- plus_IZR; f_equal; apply Dm; lia).
  (* the quotient, with its sign *)
  set (k := (if xorb sx sy then - q else q)%Z).
  assert (Key : (if sx then -1 else 1) * (IZR r * bpow radix2 e) = fval (S754_finite sx mx ex) - IZR k * fval (S754_finite sy my ey)).
  { rewrite Vx, Vy, Va. unfold k. destruct sx, sy; cbn [xorb]; rewrite ?opp_IZR; ring. }
  assert (Pas : 0 <= IZR a * bpow radix2 e) by (apply Rmult_le_pos; [apply (IZR_le 0); lia|lra]).
  destruct (Z.eq_dec r 0) as [Z0|NZ].
  - rewrite Z0. split; [split; [reflexivity|exact I]|]. exists k. rewrite <- Key, Z0. cbn [fval]. rewrite Rabs_R0.
    split; [ring|]. split; [apply Rabs_pos_lt; exact Ny|]. split; [lra|]. intros _. exists sx. split; reflexivity.
  - assert (M : (match r with Z0 => S754_zero sx | _ => SpecFloat.binary_normalize prec emax (if sx then - r else r) e sx end)
             = SpecFloat.binary_normalize prec emax (if sx then - r else r)%Z e sx) by (destruct r; [congruence|reflexivity..]).
    rewrite M.
    assert (Vr : IZR (if sx then - r else r) * bpow radix2 e = (if sx then -1 else 1) * (IZR r * bpow radix2 e))
      by (destruct sx; rewrite ?opp_IZR; ring).
    assert (Ar : Rabs ((if sx then -1 else 1) * (IZR r * bpow radix2 e)) = IZR r * bpow radix2 e).
    { destruct sx; [rewrite <- Rabs_Ropp|]; rewrite Rabs_pos_eq by lra; lra. }
    destruct (norm_exact (if sx then - r else r)%Z e sx) as [F V].
    + destruct sx; lia.
    + lia.
    + rewrite Vr, Ar. rewrite Ay in My. lra.
    + split; [exact F|]. exists k. rewrite V, Vr. split; [exact Key|]. split; [rewrite Ar, Ay; exact Rb|].
      split; [rewrite Vx; destruct sx; nra|].
      intros Q. exfalso. assert (0 < IZR r) by (apply (IZR_lt 0); lia).
      assert (0 < IZR r * bpow radix2 e) by (apply Rmult_lt_0_compat; assumption). destruct sx; lra.
Qed.

Variable (P : spec_float) (sz : bool).
Hypothesis FP : fin P.
Hypothesis PP : 0 < fval P.
Hypothesis TP : ftiny prec emax <= uround prec * fval P.
Notation NFx := (SFNum prec emax sz).
Notation u := (uround prec).

(** The position in the period that the code computes. *)
Definition fpos (t : spec_float) : spec_float :=
  let x := SFrem prec emax t P in if SFltb x (S754_zero false) then SFadd prec emax x P else x.
Lemma fin0 : fin (S754_zero false).
Proof. split; [reflexivity|exact I]. Qed.

Lemma fpos_ok t (k : Z) pos : fin t -> fval t = fval P * IZR k + pos -> 0 <= pos < fval P ->
  fin (fpos t) /\ 0 <= fval (fpos t) <= fval P /\ Rabs (fval (fpos t) - pos) <= u * fval P /\
  (0 <= fval t -> fval (fpos t) = pos).
Proof.
  intros Ft E Hpos. destruct (rem_exact t P Ft FP ltac:(lra)) as [Fr [j [Vr [Br [Sr _]]]]]. unfold fpos. cbv zeta.
  set (x := SFrem prec emax t P) in *. rewrite (lt_fv _ _ Fr fin0). cbn [fval].
  rewrite (Rabs_pos_eq (fval P)) in Br by lra. apply Rabs_def2 in Br. pose proof (u_pos prec) as Up.
  assert (UP : 0 <= u * fval P) by (apply Rmult_le_pos; lra).
  unfold Rltb. destruct (Rlt_dec (fval x) 0) as [L|L].
  - (* negative remainder: one period is added *)
    assert (A : Rabs (fval x + fval P) <= fmax prec emax).
    { rewrite Rabs_pos_eq by lra. pose proof (fin_max P FP) as M. rewrite Rabs_pos_eq in M by lra. lra. }
    destruct (fadd_ok prec emax Hp He x P Fr FP A) as [Fs Vs].
    destruct (wrapped_unique (fval P) (j - 1) k (fval x + fval P) pos PP) as [_ Q].
    { rewrite <- E, minus_IZR, Vr. ring. } { lra. } { exact Hpos. }
    pose proof (add_err prec emax Hp (fval x) (fval P) (finite_format prec emax x Fr) (finite_format prec emax P FP)) as Er.
    split; [exact Fs|]. rewrite Vs. split; [split|split].
    + rewrite <- (round_0 radix2 (FLT_exp emin prec) ZnearestE). apply round_le; [apply FLT_exp_valid; exact Hp|apply valid_rnd_N|lra].
    + apply round_le_generic; [apply FLT_exp_valid; exact Hp|apply valid_rnd_N|exact (finite_format prec emax P FP)|lra].
    + rewrite <- Q. eapply Rle_trans; [exact Er|]. apply Rmult_le_compat_l; [lra|]. rewrite Rabs_pos_eq; lra.
    + intros T. exfalso. destruct (Req_dec (fval t) 0) as [Z|Z].
      * destruct (wrapped_unique (fval P) 0 k 0 pos PP) as [Ek Q2]; [rewrite <- E, Z; ring|lra|exact Hpos|].
        (* remainder of zero is zero *)
        assert (fval x = - IZR j * fval P) by (rewrite Vr, Z; ring).
        assert (J1 : IZR j < 1) by nra. assert (J2 : 0 < IZR j) by nra. apply lt_IZR in J1. apply lt_IZR in J2. lia.
      * assert (0 < fval t) by lra. nra.
  - destruct (Rle_dec 0 (fval x)) as [L'|]; [|lra].
    destruct (wrapped_unique (fval P) j k (fval x) pos PP) as [_ Q]; [rewrite <- E, Vr; ring|lra|exact Hpos|].
    split; [exact Fr|]. split; [lra|]. rewrite Q. split; [|reflexivity].
    replace (pos - pos) with 0 by ring. rewrite Rabs_R0. exact UP.
Qed.

Lemma period_split t : exists (k : Z) pos, fval t = fval P * IZR k + pos /\ 0 <= pos < fval P.
Proof.
  exists (Int_part (fval t / fval P)), (fval t - fval P * IZR (Int_part (fval t / fval P))).
  split; [ring|]. pose proof (Int_part_spec (fval t / fval P)) as I.
  assert (fval t = fval P * (fval t / fval P)) by (field; lra). set (q := fval t / fval P) in *.
  set (n := IZR (Int_part q)) in *. rewrite H. split; nra.
Qed.

Lemma thr_ok d : fin d -> 0 <= fval d <= 1 ->
  fin (SFmul prec emax P d) /\ 0 <= fval (SFmul prec emax P d) <= fval P /\
  Rabs (fval (SFmul prec emax P d) - fval P * fval d) <= 2 * u * fval P /\
  (fval d = 0 -> fval (SFmul prec emax P d) = 0) /\ (fval d = 1 -> fval (SFmul prec emax P d) = fval P).
Proof.
  intros Fd Hd. pose proof (fin_max P FP) as M. rewrite Rabs_pos_eq in M by lra.
  assert (B : 0 <= fval P * fval d <= fval P) by (split; nra).
  destruct (fmul_ok prec emax Hp He P d FP Fd) as [F V]; [rewrite Rabs_pos_eq; lra|].
  split; [exact F|]. rewrite V. pose proof (u_pos prec) as Up. split; [split|split; [|split]].
  - rewrite <- (round_0 radix2 (FLT_exp emin prec) ZnearestE). apply round_le; [apply FLT_exp_valid; exact Hp|apply valid_rnd_N|lra].
  - apply round_le_generic; [apply FLT_exp_valid; exact Hp|apply valid_rnd_N|exact (finite_format prec emax P FP)|lra].
  - eapply Rle_trans; [apply (rnd_err prec emax Hp)|]. rewrite Rabs_pos_eq by lra.
    assert (u * (fval P * fval d) <= u * fval P) by (apply Rmult_le_compat_l; lra). lra.
  - intros Z. rewrite Z, Rmult_0_r. apply round_0. apply valid_rnd_N.
  - intros Z. rewrite Z, Rmult_1_r. apply round_generic; [apply valid_rnd_N|exact (finite_format prec emax P FP)].
Qed.

Lemma square_at_float debug d t : fin d -> 0 <= fval d <= 1 -> fin t ->
  exists v, @square_at _ NFx P (SFrem prec emax) debug (SFmul prec emax P d) t = Ok v /\
    (v = @none _ NFx \/ v = @nneg _ NFx (@none _ NFx)) /\
    (fval d = 0 -> v = @nneg _ NFx (@none _ NFx)) /\
    (fval d = 1 -> 0 <= fval t -> v = @none _ NFx) /\
    (forall (k : Z) pos, fval t = fval P * IZR k + pos -> 0 <= pos < fval P ->
      (pos < fval P * fval d - 3 * u * fval P -> v = @none _ NFx) /\
      (fval P * fval d + 3 * u * fval P <= pos -> v = @nneg _ NFx (@none _ NFx))).
Proof.
  intros Fd Hd Ft. destruct (thr_ok d Fd Hd) as [FT [BT [ET [T0 T1]]]]. set (T := SFmul prec emax P d) in *.
  destruct (period_split t) as [k [pos [E Hpos]]]. destruct (fpos_ok t k pos Ft E Hpos) as [Fx [Bx [Ex Xx]]].
  unfold square_at. cbv zeta. cbn [nltb nadd nzero nleb SFNum].
  change (if SFltb (SFrem prec emax t P) (S754_zero false) then SFadd prec emax (SFrem prec emax t P) P else SFrem prec emax t P) with (fpos t).
  set (x := fpos t) in *.
  rewrite (le_fv _ _ fin0 Fx), (le_fv _ _ Fx FP), (lt_fv _ _ Fx FT). cbn [fval].
  assert (A : rassert (negb debug || Rleb 0 (fval x) && Rleb (fval x) (fval P)) = Ok tt).
  { unfold Rleb. destruct (Rle_dec 0 (fval x)); [|lra]. destruct (Rle_dec (fval x) (fval P)); [|lra]. destruct debug; reflexivity. }
  rewrite A. cbn [bind]. eexists. split; [reflexivity|]. apply Rcomplements.Rabs_le_between in ET, Ex.
  unfold Rltb. destruct (Rlt_dec (fval x) (fval T)) as [L|L].
  - split; [left; reflexivity|]. split; [intros Z; rewrite (T0 Z) in L; lra|]. split; [reflexivity|].
    intros k' pos' E' Hp'. destruct (wrapped_unique (fval P) k' k pos' pos PP) as [_ ->]; [lra|exact Hp'|exact Hpos|].
    split; [reflexivity|]. intros H. exfalso. lra.
  - split; [right; reflexivity|]. split; [reflexivity|].
    split; [intros Z Tt; rewrite (T1 Z), (Xx Tt) in L; lra|].
    intros k' pos' E' Hp'. destruct (wrapped_unique (fval P) k' k pos' pos PP) as [_ ->]; [lra|exact Hp'|exact Hpos|].
    split; [|reflexivity]. intros H. exfalso. lra.
Qed.
End W.
