(** No rounding happens on fixed-point numbers that stay small. *)
From Coq Require Import Reals ZArith SpecFloat List Lia Lra Bool.
From Flocq Require Import Core BinarySingleNaN.
From Verif Require Import Base Num M_Filter S_Float P_Float P_FloatStats P_FloatCplx S_Units P_Units P_Sosfilt S_Whole.
Import ListNotations.
Local Open Scope R_scope.

Section Whole.
Variables (prec emax : Z) (szero : bool) (g : Z).
Hypothesis PP : (1 < prec < emax)%Z.
Hypothesis G1 : (SpecFloat.emin prec emax <= g)%Z.
Hypothesis G2 : (g + prec < emax)%Z.
Local Instance NW : Num spec_float := SFNum prec emax szero.
Let Hp : Prec_gt_0 prec. Proof. unfold Prec_gt_0; lia. Qed.
Let He : Prec_lt_emax prec emax. Proof. unfold Prec_lt_emax; lia. Qed.
Notation emin := (SpecFloat.emin prec emax).
Notation rnd := (round radix2 (FLT_exp emin prec) ZnearestE).
Notation fin := (finite prec emax).
Notation b2 := (bpow radix2).
Notation B := (powerRZ 2 (prec + g)).

Lemma B_eq : B = b2 (prec + g). Proof. symmetry. apply bpow_powerRZ. Qed.
Lemma B_fmax : B <= fmax prec emax.
Proof. rewrite B_eq. apply (fmax_ge prec emax PP). lia. Qed.
Lemma fmt_grid v : on_grid g v -> Rabs v <= B -> generic_format radix2 (FLT_exp emin prec) v.
Proof.
  intros [z Ez] Hv. apply generic_format_abs_inv. assert (Ea : Rabs v = IZR (Z.abs z) * b2 g).
  { rewrite Ez, Rabs_mult, <- bpow_powerRZ, (Rabs_pos_eq (b2 g)) by apply bpow_ge_0. rewrite abs_IZR. reflexivity. }
  rewrite Ea. apply (fmt_mult prec emax PP); [|exact G1]. split; [apply Z.abs_nonneg|].
  apply le_IZR. rewrite Ea, B_eq, bpow_plus in Hv. apply Rmult_le_reg_r in Hv; [|apply bpow_gt_0].
  change (2 ^ prec)%Z with (radix2 ^ prec)%Z. rewrite (IZR_Zpower radix2 prec) by lia. exact Hv.
Qed.
Lemma rnd_grid_id v : on_grid g v -> Rabs v <= B -> rnd v = v.
Proof. intros A Hv. apply round_generic; [apply valid_rnd_N|]. apply fmt_grid; assumption. Qed.
Lemma on_add u v : on_grid g u -> on_grid g v -> on_grid g (u + v).
Proof. intros [a ->] [b ->]. exists (a + b)%Z. rewrite plus_IZR. ring. Qed.
Lemma on_sub u v : on_grid g u -> on_grid g v -> on_grid g (u - v).
Proof. intros [a ->] [b ->]. exists (a - b)%Z. rewrite minus_IZR. ring. Qed.
Lemma on_mul u v : on_grid 0 u -> on_grid g v -> on_grid g (u * v).
Proof. intros [a ->] [b ->]. exists (a * b)%Z. rewrite mult_IZR. cbn. ring. Qed.

Definition ok (x : spec_float) (v : R) : Prop := fin x /\ fval x = v /\ on_grid g v.
Lemma ex_add x y u v : ok x u -> ok y v -> Rabs (u + v) <= B -> ok (SFadd prec emax x y) (u + v).
Proof.
  intros (A1 & A2 & A3) (B1 & B2 & B3) H. subst u v. pose proof B_fmax.
  destruct (fadd_ok prec emax Hp He x y A1 B1) as [F V]; [lra|]. split; [exact F|]. split; [rewrite V; apply rnd_grid_id; [apply on_add; assumption|exact H]|apply on_add; assumption].
Qed.
Lemma ex_sub x y u v : ok x u -> ok y v -> Rabs (u - v) <= B -> ok (SFsub prec emax x y) (u - v).
Proof.
  intros (A1 & A2 & A3) (B1 & B2 & B3) H. subst u v. pose proof B_fmax.
  destruct (fsub_ok prec emax Hp He x y A1 B1) as [F V]; [lra|]. split; [exact F|]. split; [rewrite V; apply rnd_grid_id; [apply on_sub; assumption|exact H]|apply on_sub; assumption].
Qed.
Lemma ex_mul x y v : fin x -> on_grid 0 (fval x) -> ok y v -> Rabs (fval x * v) <= B -> ok (SFmul prec emax x y) (fval x * v).
Proof.
  intros A1 A3 (B1 & B2 & B3) H. subst v. pose proof B_fmax.
  destruct (fmul_ok prec emax Hp He x y A1 B1) as [F V]; [lra|]. split; [exact F|]. split; [rewrite V; apply rnd_grid_id; [apply on_mul; assumption|exact H]|apply on_mul; assumption].
Qed.
Lemma abs_mul_le c x X : Rabs x <= X -> Rabs (c * x) <= Rabs c * X.
Proof. intros H. rewrite Rabs_mult. apply Rmult_le_compat_l; [apply Rabs_pos|exact H]. Qed.

Definition whole_sos (s : Sos spec_float) : Prop :=
  Forall (fun c => fin c /\ on_grid 0 (fval c)) [M_Filter.b0 s; M_Filter.b1 s; M_Filter.b2 s; M_Filter.a1 s; M_Filter.a2 s].

(** One section. *)
Lemma section_exact X Y Z0 Z1 x : forall s xr,
  whole_sos s -> Forall2 ok x xr -> ok (zi0 s) (fval (zi0 s)) -> ok (zi1 s) (fval (zi1 s)) ->
  let c0 := Rabs (fval (M_Filter.b0 s)) in let c1 := Rabs (fval (M_Filter.b1 s)) in let c2 := Rabs (fval (M_Filter.b2 s)) in
  let d1 := Rabs (fval (M_Filter.a1 s)) in let d2 := Rabs (fval (M_Filter.a2 s)) in
  Forall (fun v => Rabs v <= X) xr -> Forall (fun v => Rabs v <= Y) (fst (filt xr [sos_val s])) -> 0 <= X -> 0 <= Y -> 0 <= Z0 -> 0 <= Z1 ->
  Rabs (fval (zi1 s)) <= c2 * X + d2 * Y + Z1 -> Rabs (fval (zi0 s)) <= c1 * X + d1 * Y + c2 * X + d2 * Y + Z0 + Z1 ->
  (c0 + c1 + c2) * X + (d1 + d2) * Y + Z0 + Z1 <= B ->
  Forall2 ok (fst (filt x [s])) (fst (filt xr [sos_val s])) /\ map sos_val (snd (filt x [s])) = snd (filt xr [sos_val s]) /\
  Forall (fun t => ok (zi0 t) (fval (zi0 t)) /\ ok (zi1 t) (fval (zi1 t))) (snd (filt x [s])).
Proof.
  induction x as [|a x IH]; intros s xr W Hx O0 O1 c0 c1 c2 d1 d2 BX BY X0 Y0 P0 P1 H1 H0 HB.
  - inversion Hx; subst. cbn. split; [constructor|]. split; [reflexivity|]. constructor; [split; assumption|constructor].
  - inversion Hx as [|? v ? xr' Ha Hx']; subst. inversion BX as [|? ? Bv BX']; subst.
    pose proof W as W'. unfold whole_sos in W'. rewrite !Forall_cons_iff in W'. destruct W' as ((W0 & V0) & (W1 & V1) & (W2 & V2) & (U1 & T1) & (U2 & T2) & _).
    rewrite (filt_one (F := R)) in BY |- *. rewrite filt_one. cbn [fst snd] in BY |- *.
    inversion BY as [|? ? By BY']; subst. clear BY.
    set (f0 := fval (M_Filter.b0 s)) in *. set (f1 := fval (M_Filter.b1 s)) in *. set (f2 := fval (M_Filter.b2 s)) in *.
    set (e1 := fval (M_Filter.a1 s)) in *. set (e2 := fval (M_Filter.a2 s)) in *. set (w0 := fval (zi0 s)) in *. set (w1 := fval (zi1 s)) in *.
    change (fst (biquad_fold v (sos_val s))) with (f0 * v + w0) in By |- *.
    assert (A0 : Rabs (f0 * v) <= c0 * X) by (apply abs_mul_le, Bv).
    assert (A1 : Rabs (f1 * v) <= c1 * X) by (apply abs_mul_le, Bv).
    assert (A2 : Rabs (f2 * v) <= c2 * X) by (apply abs_mul_le, Bv).
    assert (D1 : Rabs (e1 * (f0 * v + w0)) <= d1 * Y) by (apply abs_mul_le, By).
    assert (D2 : Rabs (e2 * (f0 * v + w0)) <= d2 * Y) by (apply abs_mul_le, By).
    assert (HB' : c0 * X + c1 * X + c2 * X + d1 * Y + d2 * Y + Z0 + Z1 <= B) by lra.
    assert (N0 : 0 <= c0 * X) by (apply Rmult_le_pos; [apply Rabs_pos|exact X0]). assert (N1 : 0 <= c1 * X) by (apply Rmult_le_pos; [apply Rabs_pos|exact X0]).
    assert (N2 : 0 <= c2 * X) by (apply Rmult_le_pos; [apply Rabs_pos|exact X0]). assert (M1 : 0 <= d1 * Y) by (apply Rmult_le_pos; [apply Rabs_pos|exact Y0]).
    assert (M2 : 0 <= d2 * Y) by (apply Rmult_le_pos; [apply Rabs_pos|exact Y0]).
    assert (tri : forall p q, Rabs (p + q) <= Rabs p + Rabs q) by (intros; apply Rabs_triang).
    assert (trs : forall p q, Rabs (p - q) <= Rabs p + Rabs q) by (intros p q; unfold Rminus; eapply Rle_trans; [apply Rabs_triang|rewrite Rabs_Ropp; apply Rle_refl]).
    assert (Q0 : ok (SFmul prec emax (M_Filter.b0 s) a) (f0 * v)) by (apply ex_mul; [assumption..|fold f0; lra]).
    assert (Oy : ok (SFadd prec emax (SFmul prec emax (M_Filter.b0 s) a) (zi0 s)) (f0 * v + w0)).
    { apply ex_add; [exact Q0|exact O0|]. pose proof (tri (f0 * v) w0). lra. }
    set (yf := SFadd prec emax (SFmul prec emax (M_Filter.b0 s) a) (zi0 s)) in *.
    assert (Q1 : ok (SFmul prec emax (M_Filter.b1 s) a) (f1 * v)) by (apply ex_mul; [assumption..|fold f1; lra]).
    assert (Q2 : ok (SFmul prec emax (M_Filter.b2 s) a) (f2 * v)) by (apply ex_mul; [assumption..|fold f2; lra]).
    assert (R1 : ok (SFmul prec emax (M_Filter.a1 s) yf) (e1 * (f0 * v + w0))) by (apply ex_mul; [assumption..|fold e1; lra]).
    assert (R2 : ok (SFmul prec emax (M_Filter.a2 s) yf) (e2 * (f0 * v + w0))) by (apply ex_mul; [assumption..|fold e2; lra]).
    assert (S1 : ok (SFsub prec emax (SFmul prec emax (M_Filter.b1 s) a) (SFmul prec emax (M_Filter.a1 s) yf)) (f1 * v - e1 * (f0 * v + w0))).
    { apply ex_sub; [exact Q1|exact R1|]. pose proof (trs (f1 * v) (e1 * (f0 * v + w0))). lra. }
    assert (S2 : ok (SFsub prec emax (SFmul prec emax (M_Filter.b2 s) a) (SFmul prec emax (M_Filter.a2 s) yf)) (f2 * v - e2 * (f0 * v + w0))).
    { apply ex_sub; [exact Q2|exact R2|]. pose proof (trs (f2 * v) (e2 * (f0 * v + w0))). lra. }
    assert (S3 : ok (SFadd prec emax (SFsub prec emax (SFmul prec emax (M_Filter.b1 s) a) (SFmul prec emax (M_Filter.a1 s) yf)) (zi1 s)) (f1 * v - e1 * (f0 * v + w0) + w1)).
    { apply ex_add; [exact S1|exact O1|]. pose proof (trs (f1 * v) (e1 * (f0 * v + w0))). pose proof (tri (f1 * v - e1 * (f0 * v + w0)) w1). lra. }
    set (z0 := SFadd prec emax (SFsub _ _ _ _) (zi1 s)) in *. set (z1 := SFsub prec emax (SFmul prec emax (M_Filter.b2 s) a) _) in *.
    change (snd (biquad_fold a s)) with (set_state s z0 z1). change (fst (biquad_fold a s)) with yf.
    assert (Es : snd (biquad_fold v (sos_val s)) = sos_val (set_state s z0 z1)).
    { unfold sos_val at 2. cbn [set_state M_Filter.b0 M_Filter.b1 M_Filter.b2 M_Filter.a0 M_Filter.a1 M_Filter.a2 zi0 zi1].
      rewrite (proj1 (proj2 S3)), (proj1 (proj2 S2)). reflexivity. }
    rewrite Es. assert (BY2 : Forall (fun v => Rabs v <= Y) (fst (filt xr' [sos_val (set_state s z0 z1)]))) by (rewrite <- Es; exact BY'). clear BY'.
    destruct (IH (set_state s z0 z1) xr') as (I1 & I2 & I3); try assumption.
    + cbn [set_state zi0]. rewrite (proj1 (proj2 S3)). exact S3.
    + cbn [set_state zi1]. rewrite (proj1 (proj2 S2)). exact S2.
    + cbn [set_state zi1 M_Filter.b2 M_Filter.a2]. rewrite (proj1 (proj2 S2)). pose proof (trs (f2 * v) (e2 * (f0 * v + w0))). fold f2 e2. fold c2 d2. lra.
    + cbn [set_state zi0 M_Filter.b1 M_Filter.a1 M_Filter.b2 M_Filter.a2]. rewrite (proj1 (proj2 S3)). pose proof (trs (f1 * v) (e1 * (f0 * v + w0))). pose proof (tri (f1 * v - e1 * (f0 * v + w0)) w1). fold f1 e1 f2 e2. fold c1 d1 c2 d2. lra.
    + split; [constructor; [exact Oy|exact I1]|]. split; [exact I2|exact I3].
Qed.
End Whole.
