(** Property C111: the remainder operator on floats and the square wave in floating point. *)
From Coq Require Import Reals ZArith QArith Qreals SpecFloat List Lia Lra Bool.
From Flocq Require Import Core BinarySingleNaN.
From Verif Require Import Base Num M_Wave S_Float P_Float P_Wave P_FloatWave P_Pi.
Import ListNotations.
Local Open Scope R_scope.

Section S.
Variables prec emax : Z.
(** The float [P] is a finite float within 4 unit roundoffs of 2 pi, which is half of the
    distance between floats near 2 pi: the constant of the format. *)
Definition is_two_pi (P : spec_float) : Prop :=
  finite prec emax P /\ Rabs (fval P - 2 * PI) <= 4 * uround prec.
End S.

(** The remainder of two finite floats is exact: it is x - k y for an integer k, smaller
    than y, with the sign of x (also when it is zero). *)
Theorem C111_remainder_exact prec emax x y : (0 < prec < emax)%Z ->
  finite prec emax x -> finite prec emax y -> fval y <> 0 ->
  finite prec emax (SFrem prec emax x y) /\
  exists k : Z, fval (SFrem prec emax x y) = fval x - IZR k * fval y /\
    Rabs (fval (SFrem prec emax x y)) < Rabs (fval y) /\
    0 <= fval (SFrem prec emax x y) * fval x /\
    (fval (SFrem prec emax x y) = 0 -> exists s, SFrem prec emax x y = S754_zero s /\
      match x with S754_zero s' | S754_finite s' _ _ => s = s' | _ => True end).
Proof. intros H. apply rem_exact; unfold Prec_gt_0, Prec_lt_emax; lia. Qed.
Print Assumptions C111_remainder_exact.

Lemma tiny_le prec emax P : (5 <= prec < emax)%Z -> 1 <= fval P -> ftiny prec emax <= uround prec * fval P.
Proof.
  intros H HP. apply Rle_trans with (uround prec * 1).
  - unfold ftiny, uround. rewrite <- !bpow_powerRZ, Rmult_1_r. apply Rle_trans with (bpow radix2 (3 - emax - prec)).
    + pose proof (bpow_gt_0 radix2 (3 - emax - prec)). lra.
    + apply bpow_le. lia.
  - apply Rmult_le_compat_l; [|exact HP]. pose proof (u_pos prec). lra.
Qed.
Lemma PI_rough : 3 < PI < 16 / 5.
Proof. destruct PI_bounds as [A B]. unfold Q2R, pi_lo, pi_hi in A, B. cbn [Qnum Qden] in A, B. lra. Qed.
Lemma u_small prec : (5 <= prec)%Z -> uround prec <= / 32.
Proof.
  intros H. unfold uround. rewrite <- bpow_powerRZ. change (/ 32) with (bpow radix2 (-5)). apply bpow_le. lia.
Qed.
Lemma one_ok prec emax : (5 <= prec < emax)%Z ->
  fval (SpecFloat.binary_normalize prec emax 1 0 false) = 1 /\ fval (SFopp (SpecFloat.binary_normalize prec emax 1 0 false)) = -1.
Proof.
  intros H. assert (Hp : Prec_gt_0 prec) by (unfold Prec_gt_0; lia). assert (He : Prec_lt_emax prec emax) by (unfold Prec_lt_emax; lia).
  assert (V : fval (SpecFloat.binary_normalize prec emax 1 0 false) = 1).
  { apply (fofZ_ok prec emax Hp He).
    - assert (2 ^ 0 <= 2 ^ prec)%Z by (apply Z.pow_le_mono_r; lia). cbn in *. lia.
    - cbn. unfold fmax. rewrite <- !bpow_powerRZ.
      assert (bpow radix2 1 <= bpow radix2 prec) by (apply bpow_le; lia). change (bpow radix2 1) with 2 in H0.
      assert (bpow radix2 0 <= bpow radix2 (emax - prec)) by (apply bpow_le; lia). change (bpow radix2 0) with 1 in H1. nra. }
  split; [exact V|]. rewrite !fval_SF2R in *. destruct (SpecFloat.binary_normalize prec emax 1 0 false) as [s|s| |s m e]; cbn in *; try lra.
  unfold F2R in *. cbn [Fnum Fexp] in *. destruct s; cbn [negb cond_Zopp] in *;
    (change (Z.neg m) with (- Z.pos m)%Z in *; rewrite opp_IZR in *; lra).
Qed.

(** The square wave in a float format, against the wave of period 2 pi: every finite
    sample succeeds (the debug assertion holds) and gives 1 or -1; the value is the one of
    the exact wave at every t that is further than u (|t| + 40) from the edges of the
    wave.  With duty 0 it is always -1, with duty 1 always 1 for t >= 0. *)
Theorem C111_square_float prec emax P sz debug (ts : list spec_float) duty : (5 <= prec < emax)%Z ->
  is_two_pi prec emax P -> Forall (finite prec emax) ts -> finite prec emax duty -> 0 <= fval duty <= 1 ->
  exists r, @square _ (SFNum prec emax sz) P (SFrem prec emax) debug ts duty = Ok r /\
    Forall2 (fun t v =>
      (fval v = 1 \/ fval v = -1) /\
      (forall k : Z, 2 * PI * IZR k + uround prec * (Rabs (fval t) + 40) <= fval t ->
         (fval t <= 2 * PI * IZR k + 2 * PI * fval duty - uround prec * (Rabs (fval t) + 40) -> fval v = 1)) /\
      (forall k : Z, 2 * PI * IZR k + 2 * PI * fval duty + uround prec * (Rabs (fval t) + 40) <= fval t ->
         (fval t <= 2 * PI * IZR k + 2 * PI - uround prec * (Rabs (fval t) + 40) -> fval v = -1)) /\
      (fval duty = 0 -> fval v = -1) /\
      (fval duty = 1 -> 0 <= fval t -> fval v = 1)) ts r.
Proof.
  intros H [FP NP] Ft Fd Hd.
  assert (Hp : Prec_gt_0 prec) by (unfold Prec_gt_0; lia). assert (He : Prec_lt_emax prec emax) by (unfold Prec_lt_emax; lia).
  destruct PI_rough as [P3 P4]. pose proof (u_small prec ltac:(lia)) as U32. pose proof (u_pos prec) as Up.
  destruct (one_ok prec emax H) as [V1 V2].
  set (u := uround prec) in *. apply Rcomplements.Rabs_le_between in NP.
  assert (B1 : 1 <= fval P) by lra.
  pose proof (tiny_le prec emax P H B1) as TP. fold u in TP.
  unfold square. cbn [nleb nzero none nmul SFNum].
  assert (A : rassert (SFleb (S754_zero false) duty && SFleb duty (SpecFloat.binary_normalize prec emax 1 0 false)) = Ok tt).
  { rewrite (le_fv prec emax _ _ (fin0 prec emax) Fd), (le_fv prec emax _ _ Fd).
    - rewrite V1. cbn [fval]. unfold Rleb. destruct (Rle_dec 0 (fval duty)); [|lra]. destruct (Rle_dec (fval duty) 1); [|lra]. reflexivity.
    - destruct (SpecFloat.binary_normalize prec emax 1 0 false) eqn:E; cbn in V1; try lra. split; [|exact I].
      rewrite <- E. rewrite (normalize_equiv prec emax Hp He). apply valid_binary_B2SF. }
  rewrite A. cbn [bind].
  induction Ft as [|t ts Ht _ IH]; [exists []; split; [reflexivity|constructor]|].
  destruct (square_at_float prec emax Hp He P sz FP ltac:(lra) TP debug duty t Fd Hd Ht) as [v [Ev [Ov [Zv [Iv Kv]]]]].
  destruct IH as [r [Er Fr]]. exists (v :: r). cbn [rmap]. rewrite Ev. cbn [bind]. rewrite Er. cbn [bind].
  split; [reflexivity|]. constructor; [|exact Fr]. clear Er Fr Ev.
  change (@none _ (SFNum prec emax sz)) with (SpecFloat.binary_normalize prec emax 1 0 false) in *.
  change (@nneg _ (SFNum prec emax sz)) with SFopp in *.
  fold u in Kv.
  assert (Hdrift : forall k : Z, 2 * PI * IZR k <= fval t <= 2 * PI * IZR k + 2 * PI ->
    Rabs (IZR k * (fval P - 2 * PI)) <= u * (Rabs (fval t) + 7)).
  { intros k Hk. rewrite Rabs_mult. assert (Rabs (fval P - 2 * PI) <= 4 * u) by (apply Rcomplements.Rabs_le_between; exact NP).
    assert (2 * PI * Rabs (IZR k) <= Rabs (fval t) + 7).
    { unfold Rabs at 1. destruct (Rcase_abs (IZR k)); unfold Rabs; destruct (Rcase_abs (fval t)); lra. }
    assert (4 * Rabs (IZR k) <= Rabs (fval t) + 7) by (pose proof (Rabs_pos (IZR k)); nra).
    apply Rle_trans with (Rabs (IZR k) * (4 * u)); [apply Rmult_le_compat_l; [apply Rabs_pos|assumption]|].
    replace (Rabs (IZR k) * (4 * u)) with (u * (4 * Rabs (IZR k))) by ring. apply Rmult_le_compat_l; lra. }
  pose proof (Rabs_pos (fval t)) as Pt. set (at_ := Rabs (fval t)) in *.
  assert (Put : 0 <= u * at_) by (apply Rmult_le_pos; lra).
  assert (Pd : fval P * fval duty - 2 * PI * fval duty <= 4 * u /\ - (4 * u) <= fval P * fval duty - 2 * PI * fval duty).
  { replace (fval P * fval duty - 2 * PI * fval duty) with ((fval P - 2 * PI) * fval duty) by ring. split; nra. }
  assert (uP : u * fval P <= 7 * u) by nra.
  split; [destruct Ov as [->| ->]; [left; exact V1|right; exact V2]|].
  split; [|split; [|split]].
  - intros k K1 K2. assert (D : Rabs (IZR k * (fval P - 2 * PI)) <= u * (at_ + 7)).
    { apply Hdrift. split; [nra|]. assert (2 * PI * fval duty <= 2 * PI) by nra. nra. }
    apply Rcomplements.Rabs_le_between in D.
    destruct (Kv k (fval t - fval P * IZR k)) as [Q _]; [ring| |rewrite Q; [exact V1|]].
    + replace (fval P * IZR k) with (2 * PI * IZR k + IZR k * (fval P - 2 * PI)) by ring.
      assert (2 * PI * fval duty <= 2 * PI) by nra. split; lra.
    + replace (fval P * IZR k) with (2 * PI * IZR k + IZR k * (fval P - 2 * PI)) by ring. lra.
  - intros k K1 K2. assert (D : Rabs (IZR k * (fval P - 2 * PI)) <= u * (at_ + 7)).
    { apply Hdrift. assert (0 <= 2 * PI * fval duty) by nra. split; nra. }
    apply Rcomplements.Rabs_le_between in D. assert (0 <= 2 * PI * fval duty) by nra.
    destruct (Kv k (fval t - fval P * IZR k)) as [_ Q]; [ring| |rewrite Q; [exact V2|]].
    + replace (fval P * IZR k) with (2 * PI * IZR k + IZR k * (fval P - 2 * PI)) by ring. split; lra.
    + replace (fval P * IZR k) with (2 * PI * IZR k + IZR k * (fval P - 2 * PI)) by ring. lra.
  - intros Z. rewrite (Zv Z). exact V2.
  - intros Z T0. rewrite (Iv Z T0). exact V1.
Qed.
Print Assumptions C111_square_float.

(** The constants of both types meet the hypothesis. *)
Lemma two_pi_aux prec emax m e (lo hi : Q) : valid_binary prec emax (S754_finite false m e) = true ->
  IZR (Z.pos m) * powerRZ 2 e = Q2R lo -> 4 * uround prec = Q2R hi ->
  (Qle_bool (lo - hi) (2 * pi_lo) && Qle_bool (2 * pi_hi) (lo + hi))%Q = true ->
  is_two_pi prec emax (S754_finite false m e).
Proof.
  intros V El Eh B. split; [split; [exact V|exact I]|]. apply andb_prop in B. destruct B as [B1 B2].
  apply Qle_bool_iff, Qle_Rle in B1. apply Qle_bool_iff, Qle_Rle in B2.
  rewrite Q2R_minus, Q2R_mult in B1. rewrite Q2R_plus, Q2R_mult in B2. replace (Q2R 2) with 2 in B1, B2 by (unfold Q2R; cbn; lra).
  destruct PI_bounds as [L H]. cbn [fval]. rewrite Rmult_1_l, El, Eh. apply Rcomplements.Rabs_le_between. lra.
Qed.
Example C111_two_pi_f64 : is_two_pi 53 1024 two_pi_f64.
Proof.
  apply (two_pi_aux _ _ _ _ (7074237752028440 # (2 ^ 50))%Q (1 # (2 ^ 51))%Q); [reflexivity| | |vm_compute; reflexivity].
  - rewrite <- bpow_powerRZ. reflexivity.
  - unfold uround. rewrite <- bpow_powerRZ. unfold Q2R. cbn [Qnum Qden]. change (bpow radix2 (-(53))) with (/ 9007199254740992).
    change (Z.pos (2 ^ 51)) with 2251799813685248%Z. lra.
Qed.
Example C111_two_pi_f32 : is_two_pi 24 128 two_pi_f32.
Proof.
  apply (two_pi_aux _ _ _ _ (13176795 # (2 ^ 21))%Q (1 # (2 ^ 22))%Q); [reflexivity| | |vm_compute; reflexivity].
  - rewrite <- bpow_powerRZ. reflexivity.
  - unfold uround. rewrite <- bpow_powerRZ. unfold Q2R. cbn [Qnum Qden]. change (bpow radix2 (-(24))) with (/ 16777216).
    change (Z.pos (2 ^ 22)) with 4194304%Z. lra.
Qed.

(** The two instances of the library. *)
Theorem C111_square_f64_f32 debug (ts : list spec_float) duty :
  (Forall (finite 53 1024) ts -> finite 53 1024 duty -> 0 <= fval duty <= 1 ->
   exists r, square_f64 debug ts duty = Ok r /\ length r = length ts /\ Forall (fun v => fval v = 1 \/ fval v = -1) r) /\
  (Forall (finite 24 128) ts -> finite 24 128 duty -> 0 <= fval duty <= 1 ->
   exists r, square_f32 debug ts duty = Ok r /\ length r = length ts /\ Forall (fun v => fval v = 1 \/ fval v = -1) r).
Proof.
  assert (K : forall (R : spec_float -> spec_float -> Prop) l m, Forall2 R l m -> (forall t v, R t v -> fval v = 1 \/ fval v = -1) ->
    length m = length l /\ Forall (fun v => fval v = 1 \/ fval v = -1) m).
  { intros R l m F Hv. induction F as [|t v l m Ht F [IH1 IH2]]; [split; [reflexivity|constructor]|].
    split; [cbn; lia|]. constructor; [exact (Hv t v Ht)|exact IH2]. }
  split; intros Ft Fd Hd.
  - destruct (C111_square_float 53 1024 two_pi_f64 true debug ts duty ltac:(lia) C111_two_pi_f64 Ft Fd Hd) as [r [E F]].
    exists r. split; [exact E|]. apply (K _ ts r F). intros t v Q. exact (proj1 Q).
  - destruct (C111_square_float 24 128 two_pi_f32 true debug ts duty ltac:(lia) C111_two_pi_f32 Ft Fd Hd) as [r [E F]].
    exists r. split; [exact E|]. apply (K _ ts r F). intros t v Q. exact (proj1 Q).
Qed.
Print Assumptions C111_square_f64_f32.

(** Infinite or NaN samples: the assertion of a debug build fails on them; a release build
    gives -1. *)
Theorem C111_square_not_finite prec emax P sz (ts : list spec_float) t duty :
  finite prec emax P -> In t ts -> (t = S754_nan \/ exists s, t = S754_infinity s) ->
  (exists r, @square _ (SFNum prec emax sz) P (SFrem prec emax) false ts duty = Ok r) ->
  @square _ (SFNum prec emax sz) P (SFrem prec emax) true ts duty = Panic /\
  @square _ (SFNum prec emax sz) P (SFrem prec emax) false [t] duty = Ok [@nneg _ (SFNum prec emax sz) (@none _ (SFNum prec emax sz))].
Proof.
  intros FP Hi Ht [r Hr].
  assert (N : SFrem prec emax t P = S754_nan) by (destruct Ht as [->|[s ->]]; [reflexivity|destruct P; reflexivity]).
  unfold square in *. set (g := (_ && _)%bool) in *. destruct g; [|discriminate]. cbn [rassert bind] in *.
  set (th := nmul P duty) in *. clear Hr r. split.
  - revert Hi. induction ts as [|t0 ts IH]; intros Hi; [destruct Hi|]. cbn [rmap]. destruct Hi as [->|Hi].
    + unfold square_at at 1. rewrite N. cbn. reflexivity.
    + unfold square_at at 1. cbv zeta.
      match goal with |- context [rassert ?c] => destruct c end; cbn [rassert bind]; [|reflexivity].
      rewrite (IH Hi). reflexivity.
  - cbn [rmap]. unfold square_at. rewrite N. cbn. destruct th; reflexivity.
Qed.
Print Assumptions C111_square_not_finite.

(** 100 in f64 is 15.9 periods: the value is -1 with duty 1/2. *)
Example C111_concrete : exists v, square_f64 true [S754_finite false 7036874417766400 (-46)] (S754_finite false 4503599627370496 (-53)) = Ok [v] /\ fval v = -1.
Proof.
  eexists. split; [vm_compute; reflexivity|]. cbn [fval]. rewrite <- bpow_powerRZ. change (bpow radix2 (-52)) with (/ 4503599627370496). lra.
Qed.
Example C111_hyp_met : exists r, square_f64 true [S754_finite false 7036874417766400 (-46)] (S754_finite false 4503599627370496 (-53)) = Ok r /\ length r = 1%nat.
Proof.
  destruct (C111_square_float 53 1024 two_pi_f64 true true [S754_finite false 7036874417766400 (-46)] (S754_finite false 4503599627370496 (-53)))
    as [r [E F]]; [lia|exact C111_two_pi_f64| | | |].
  - repeat constructor.
  - split; [reflexivity|exact I].
  - cbn [fval]. rewrite <- bpow_powerRZ. change (bpow radix2 (-53)) with (/ 9007199254740992). lra.
  - exists r. split; [exact E|]. inversion F as [|? ? ? ? _ F1]; subst. inversion F1; subst. reflexivity.
Qed.
