(** Property theorems for special/xsf (C20, C21, C62). *)
From Coq Require Import List Arith ZArith QArith Qreals Reals Lra Lia SpecFloat.
From Verif Require Import Base Num Trans M_Bessel S_Bessel P_Bessel.
Import ListNotations.
Local Open Scope R_scope.

(** ** C20: the Chebyshev evaluator. *)
(** What it returns: the series plus one spurious term, the leading coefficient
    times the next Chebyshev polynomial; hence an error of at most the leading
    coefficient on the interval the series is meant for. *)
Theorem C20_chbevl_partial :
  (forall x, chbevl x [] = 0) /\
  (forall x c l, chbevl x (c :: l) =
     c * chebT (length (c :: l)) (x / 2) + chebyshev_series (c :: l) (x / 2)) /\
  (forall x coef, -2 <= x <= 2 ->
     Rabs (chbevl x coef - chebyshev_series coef (x / 2)) <= Rabs (hd 0 coef)).
Proof. split; [reflexivity|]. split; [exact chbevl_value|exact chbevl_error]. Qed.
Print Assumptions C20_chbevl_partial.
(** False as stated. *)
Theorem C20_chbevl_refuted : exists x coef, chbevl x coef <> chebyshev_series coef (x / 2).
Proof. exists 2, [1]. rewrite chbevl_value. cbn. lra. Qed.
Print Assumptions C20_chbevl_refuted.
(** The specification is the usual one: T_n(cos a) = cos(n a). *)
Theorem C20_chebT_is_cos : forall n a, chebT n (cos a) = cos (INR n * a).
Proof. exact chebT_cos. Qed.

(** ** C21: i0 and i0e. *)
(** Even, for any number type in which |-x| = |x| ... *)
Theorem C21_even :
  forall F (NF : Num F) (TF : Trans F) (x : F), nabs (nneg x) = nabs x ->
  i0_f64 (nneg x) = i0_f64 x /\ i0e_f64 (nneg x) = i0e_f64 x /\
  i0_f32 (nneg x) = i0_f32 x /\ i0e_f32 (nneg x) = i0e_f32 x.
Proof.
  intros F NF TF x H. unfold i0_f64, i0e_f64, i0_f32, i0e_f32.
  repeat split; apply i0_even_gen; exact H.
Qed.
Print Assumptions C21_even.
(** ... which holds of the reals and, bit for bit, of every IEEE format. *)
Theorem C21_abs_opp_real : forall x : R, nabs (nneg x) = nabs x.
Proof. exact Rabs_Ropp. Qed.
Theorem C21_abs_opp_float : forall prec emax sz (x : spec_float),
  @nabs _ (SFNum prec emax sz) (@nneg _ (SFNum prec emax sz) x) = @nabs _ (SFNum prec emax sz) x.
Proof. intros prec emax sz x. destruct x; reflexivity. Qed.
Print Assumptions C21_abs_opp_float.
Theorem C21_scaling : forall x : R,
  i0_f64 x = exp (Rabs x) * i0e_f64 x /\ i0_f32 x = exp (Rabs x) * i0e_f32 x.
Proof. intros x. split; apply i0_scaled. Qed.
Print Assumptions C21_scaling.
(** On [-8, 8] the relation is exact in any number type. *)
Theorem C21_scaling_small :
  forall F (NF : Num F) (TF : Trans F) (x : F), nleb (nabs x) (nofZ 8) = true ->
  i0_f64 x = nmul (texp (nabs x)) (i0e_f64 x) /\ i0_f32 x = nmul (texp (nabs x)) (i0e_f32 x).
Proof. intros F NF TF x H. split; apply i0_scaled_small; exact H. Qed.
Print Assumptions C21_scaling_small.
Theorem C21_elementwise : forall F (f : F -> F) (v : list F),
  length (bessel_vec f v) = length v /\
  forall i x, nth_error v i = Some x -> nth_error (bessel_vec f v) i = Some (f x).
Proof. intros F f v. split; [apply map_length|]. intros i x. apply map_nth_error. Qed.
Print Assumptions C21_elementwise.

(** ** C62: i0e against its coefficient tables. *)
(** The documented series with the tables in the source: A(x/2 - 2) on [0, 8] and
    B(32/x - 2)/sqrt x beyond; the spurious term of C20 is below 4.5e-18 resp. 7.3e-18. *)
Definition tabA : list R := map Q2R I0_A_F64.
Definition tabB : list R := map Q2R I0_B_F64.
Lemma hd_bound (t : list Q) (e : Q) : Qle_bool (- e) (hd 0%Q t) = true -> Qle_bool (hd 0%Q t) e = true ->
  t <> [] -> Rabs (hd 0 (map Q2R t)) <= Q2R e.
Proof.
  intros H1 H2 N. destruct t as [|q t]; [congruence|]. cbn [map hd] in *.
  apply Qle_bool_imp_le, Qle_Rle in H1, H2. rewrite Q2R_opp in H1. apply Rabs_le. lra.
Qed.
Lemma hdA : Rabs (hd 0 tabA) <= 4.5 / 10 ^ 18.
Proof.
  replace (4.5 / 10 ^ 18) with (Q2R (45 # 10000000000000000000)) by (unfold Q2R; simpl; lra).
  apply hd_bound; [vm_compute; reflexivity|vm_compute; reflexivity|discriminate].
Qed.
Lemma hdB : Rabs (hd 0 tabB) <= 7.3 / 10 ^ 18.
Proof.
  replace (7.3 / 10 ^ 18) with (Q2R (73 # 10000000000000000000)) by (unfold Q2R; simpl; lra).
  apply hd_bound; [vm_compute; reflexivity|vm_compute; reflexivity|discriminate].
Qed.
Theorem C62_i0e_series : forall x : R,
  (Rabs x <= 8 ->
     Rabs (i0e_f64 x - chebyshev_series tabA ((Rabs x / 2 - 2) / 2)) <= 4.5 / 10 ^ 18) /\
  (8 < Rabs x ->
     Rabs (i0e_f64 x - chebyshev_series tabB ((32 / Rabs x - 2) / 2) / sqrt (Rabs x)) <= 7.3 / 10 ^ 18).
Proof.
  intros x. destruct (i0e_error tabA tabB x) as [H1 H2]. split; intros H.
  - eapply Rle_trans; [apply H1; exact H|apply hdA].
  - eapply Rle_trans; [apply H2; exact H|].
    assert (S : 1 <= sqrt (Rabs x)) by (rewrite <- sqrt_1; apply sqrt_le_1; lra).
    eapply Rle_trans; [|apply hdB]. apply (Rmult_le_reg_r (sqrt (Rabs x))); [lra|].
    unfold Rdiv. rewrite Rmult_assoc, Rinv_l by lra. pose proof (Rabs_pos (hd 0 tabB)). nra.
Qed.
Print Assumptions C62_i0e_series.
(** exp(-0) I0(0) = 1, up to 6e-18. *)
Theorem C62_i0e_at_zero : Rabs (i0e_f64 0 - 1) <= 6 / 10 ^ 18.
Proof.
  unfold i0e_f64, i0e_gen. cbn [nabs RNum nleb nofZ ndiv nsub nofQ]. rewrite Rabs_R0.
  destruct (Rleb_spec 0 8); [|lra]. replace (0 / 2 - 2) with (Q2R (-2 # 1)) by (unfold Q2R; cbn; lra).
  rewrite <- chbevl_Q. set (q := @chbevl Q QNum (-2 # 1) I0_A_F64).
  assert (L : (1 - (6 # 1000000000000000000) <= q)%Q) by (vm_compute; discriminate).
  assert (U : (q <= 1)%Q) by (vm_compute; discriminate).
  clearbody q. apply Qle_Rle in L, U. rewrite Q2R_minus in L. unfold Q2R in L at 1 2. unfold Q2R in U at 2. cbn [Qnum Qden] in L, U.
  rewrite Rabs_left1; simpl; lra.
Qed.
Print Assumptions C62_i0e_at_zero.
(** The two branches meet at x = 8 up to 1e-17. *)
Theorem C62_i0e_branches_meet :
  Rabs (i0e_f64 8 - chbevl (32 / 8 - 2) tabB / sqrt 8) <= 1 / 10 ^ 17.
Proof.
  unfold i0e_f64, i0e_gen. cbn [nabs RNum nleb nofZ ndiv nsub nofQ]. rewrite (Rabs_pos_eq 8) by lra.
  destruct (Rleb_spec 8 8) as [_|HH]; [|lra].
  replace (8 / 2 - 2) with (Q2R (2 # 1)) by (unfold Q2R; cbn; lra).
  replace (32 / 8 - 2) with (Q2R (2 # 1)) by (unfold Q2R; cbn; lra).
  unfold tabB. rewrite <- !chbevl_Q.
  set (a := @chbevl Q QNum (2 # 1) I0_A_F64). set (b := @chbevl Q QNum (2 # 1) I0_B_F64).
  set (r := (2828427124746190097603 # 1000000000000000000000)%Q).
  set (d := (1 # 1000000000000000000000)%Q).
  assert (S1 : (b * 1 <= (a + (1 # 100000000000000000)) * r)%Q) by (vm_compute; discriminate).
  assert (S2 : ((a - (1 # 100000000000000000)) * (r + d) <= b * 1)%Q) by (vm_compute; discriminate).
  assert (P : (1 # 10 <= a)%Q) by (vm_compute; discriminate).
  assert (Q1 : (r * r <= 8)%Q) by (vm_compute; discriminate).
  assert (Q2 : (8 <= (r + d) * (r + d))%Q) by (vm_compute; discriminate).
  assert (Pr : (0 <= r)%Q) by (vm_compute; discriminate).
  assert (Pd : (0 <= d)%Q) by (vm_compute; discriminate).
  clearbody a b r d. apply Qle_Rle in S1, S2, P, Q1, Q2, Pr, Pd.
  rewrite ?Q2R_mult, ?Q2R_minus, ?Q2R_plus in *.
  set (A := Q2R a) in *. set (B := Q2R b) in *. set (r' := Q2R r) in *. set (d' := Q2R d) in *.
  replace (Q2R 0) with 0 in * by (unfold Q2R; cbn; lra).
  replace (Q2R 1) with 1 in * by (unfold Q2R; cbn; lra).
  replace (Q2R 8) with 8 in * by (unfold Q2R; cbn; lra).
  replace (Q2R (1 # 10)) with (1 / 10) in * by (unfold Q2R; cbn; lra).
  replace (Q2R (1 # 100000000000000000)) with (1 / 10 ^ 17) in * by (unfold Q2R; simpl; lra).
  assert (L : r' <= sqrt 8) by (rewrite <- (sqrt_square r') by lra; apply sqrt_le_1; nra).
  assert (U : sqrt 8 <= r' + d') by (rewrite <- (sqrt_square (r' + d')) by lra; apply sqrt_le_1; nra).
  assert (G : 0 < sqrt 8) by (apply sqrt_lt_R0; lra).
  set (e := 1 / 10 ^ 17) in *. assert (He : 0 < e < 1 / 100) by (unfold e; simpl; lra).
  apply Rabs_le. split; apply (Rmult_le_reg_r (sqrt 8)); try exact G; unfold Rdiv;
    rewrite Rmult_minus_distr_r, Rmult_assoc, Rinv_l, Rmult_1_r by lra; nra.
Qed.
Print Assumptions C62_i0e_branches_meet.
Theorem C62_f32_tables : I0_A_F32 = I0_A_F64 /\ I0_B_F32 = I0_B_F64.
Proof. split; vm_compute; reflexivity. Qed.
