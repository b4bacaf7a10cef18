(** Monotonicity of IEEE 754 arithmetic, overflow and NaN included. *)
From Coq Require Import Reals ZArith SpecFloat List Lia Lra Psatz Bool.
From Flocq Require Import Core BinarySingleNaN.
From Verif Require Import Base Num M_Stats M_Filter S_Stats S_Filter ListUtil P_Median S_Float P_Float P_FloatStats P_FloatMed P_Ext P_Sosfilt S_Order.
Import ListNotations.
Local Open Scope R_scope.

Section Ord.
Variables prec emax : Z.
Hypothesis Hpe : (1 < prec < emax)%Z.
Local Instance Hpo : Prec_gt_0 prec.
Proof. unfold Prec_gt_0. lia. Qed.
Local Instance Heo : Prec_lt_emax prec emax.
Proof. unfold Prec_lt_emax. lia. Qed.
Notation BF := (binary_float prec emax).
Notation fin := (finite prec emax).
Notation fmt := (format prec emax).
Notation nab := not_above.
Notation rnd := (round radix2 (FLT_exp (SpecFloat.emin prec emax) prec) ZnearestE).
Notation M := (bpow radix2 emax).
Notation "a ⊕ b" := (SFadd prec emax a b) (at level 50, left associativity).
Notation "a ⊖ b" := (SFsub prec emax a b) (at level 50, left associativity).
Notation "a ⊗ b" := (SFmul prec emax a b) (at level 40, left associativity).
Notation "a ⊘ b" := (SFdiv prec emax a b) (at level 40, left associativity).

(** ** The order *)
Lemma nab_nan_l y : nab S754_nan y.
Proof. unfold not_above, SFltb. destruct y as [s|s| |s m e]; try destruct s; reflexivity. Qed.
Lemma nab_nan_r x : nab x S754_nan.
Proof. reflexivity. Qed.
Lemma nab_bot y : nab (S754_infinity true) y.
Proof. unfold not_above, SFltb. destruct y as [s|s| |s m e]; try destruct s; reflexivity. Qed.
Lemma nab_top x : nab x (S754_infinity false).
Proof. unfold not_above, SFltb. destruct x as [s|s| |s m e]; try destruct s; reflexivity. Qed.
Lemma fin_not_top x : fin x -> ~ nab (S754_infinity false) x.
Proof. intros [_ F]. unfold not_above, SFltb. destruct x as [s|s| |s m e]; try contradiction; try destruct s; discriminate. Qed.
Lemma fin_not_bot x : fin x -> ~ nab x (S754_infinity true).
Proof. intros [_ F]. unfold not_above, SFltb. destruct x as [s|s| |s m e]; try contradiction; try destruct s; discriminate. Qed.
Lemma top_bot : ~ nab (S754_infinity false) (S754_infinity true).
Proof. discriminate. Qed.
Lemma nab_fin x y : fin x -> fin y -> (nab x y <-> fval x <= fval y).
Proof.
  intros Fx Fy. unfold not_above. rewrite (ltb_fval prec emax y x Fy Fx). unfold Rltb. destruct (Rlt_dec _ _); split; intros H; try discriminate; try reflexivity; lra.
Qed.
Lemma fmt_cases x : fmt x -> fin x \/ x = S754_infinity true \/ x = S754_infinity false \/ x = S754_nan.
Proof. intros V. destruct x as [s|s| |s m e]; [left; split; [exact V|exact I]|destruct s; auto|auto|left; split; [exact V|exact I]]. Qed.
Lemma fin_fmt x : fin x -> fmt x.
Proof. intros [V _]. exact V. Qed.

(** ** The rounded value of a real number, overflowing to an infinity *)
Definition rep (v : spec_float) (r : R) : Prop :=
  (fin v /\ fval v = rnd r) \/ (v = S754_infinity false /\ M <= rnd r) \/ (v = S754_infinity true /\ rnd r <= - M).
Lemma rep_fmt v r : rep v r -> fmt v.
Proof. intros [[F _]|[[-> _]|[-> _]]]; [apply fin_fmt, F|reflexivity|reflexivity]. Qed.
Lemma fin_lt_M x : fin x -> - M < fval x < M.
Proof. intros F. destruct (finite_B prec emax x F) as [b [_ [Fb ->]]]. pose proof (abs_B2R_lt_emax prec emax b) as A. apply Rabs_lt_inv in A. exact A. Qed.
Lemma M_pos : 0 < M.
Proof. apply bpow_gt_0. Qed.
Lemma rnd_mono r s : r <= s -> rnd r <= rnd s.
Proof. intros H. apply round_le; [apply FLT_exp_valid; exact Hpo|apply valid_rnd_N|exact H]. Qed.
Lemma rep_mono v w r s : rep v r -> rep w s -> r <= s -> nab v w.
Proof.
  intros A B H. pose proof (rnd_mono r s H) as L. pose proof M_pos as P.
  destruct A as [[Fv Vv]|[[-> Ov]|[-> Ov]]]; [| |apply nab_bot].
  - destruct B as [[Fw Vw]|[[-> Ow]|[-> Ow]]]; [apply nab_fin; auto; lra|apply nab_top|]. pose proof (fin_lt_M v Fv). lra.
  - destruct B as [[Fw Vw]|[[-> Ow]|[-> Ow]]]; [|apply nab_top|lra]. pose proof (fin_lt_M w Fw). lra.
Qed.
Lemma rnd_nonneg r : 0 <= r -> 0 <= rnd r.
Proof. intros H. rewrite <- (round_0 radix2 (FLT_exp (SpecFloat.emin prec emax) prec) ZnearestE). apply rnd_mono, H. Qed.
Lemma rnd_nonpos r : r <= 0 -> rnd r <= 0.
Proof. intros H. rewrite <- (round_0 radix2 (FLT_exp (SpecFloat.emin prec emax) prec) ZnearestE). apply rnd_mono, H. Qed.
(** Overflow with the sign of the exact value. *)
Lemma rep_over (s : bool) r : M <= Rabs (rnd r) -> (if s then r <= 0 else 0 <= r) -> rep (S754_infinity s) r.
Proof.
  intros O S0. right. destruct s; [right|left]; (split; [reflexivity|]).
  - pose proof (rnd_nonpos r S0) as N. rewrite Rabs_left1 in O by exact N. lra.
  - pose proof (rnd_nonneg r S0) as N. rewrite Rabs_pos_eq in O by exact N. exact O.
Qed.
Lemma sign_val (b : BF) : is_finite b = true -> if Bsign b then B2R b <= 0 else 0 <= B2R b.
Proof.
  intros F. destruct b as [s|s| |s m e B]; try discriminate; cbn [Bsign B2R]; [destruct s; lra|].
  destruct s; [apply F2R_le_0|apply F2R_ge_0]; cbn; lia.
Qed.
Lemma rep_B (c : BF) r : is_finite c = true -> B2R c = rnd r -> rep (B2SF c) r.
Proof. intros F V. destruct (B_finite prec emax c F) as [D1 D2]. left. split; [exact D1|]. rewrite D2. exact V. Qed.
Lemma add_rep x y : fin x -> fin y -> rep (x ⊕ y) (fval x + fval y).
Proof.
  intros Fx Fy. destruct (finite_B prec emax x Fx) as [a [-> [Fa Va]]]. destruct (finite_B prec emax y Fy) as [b [-> [Fb Vb]]]. rewrite Va, Vb, (add_equiv prec emax Hpo Heo).
  pose proof (Bplus_correct prec emax Hpo Heo mode_NE a b Fa Fb) as C.
  destruct (Rlt_bool_spec (Rabs (rnd (B2R a + B2R b))) M) as [L|L].
  - cbn [round_mode] in C. rewrite Rlt_bool_true in C by exact L. destruct C as [C1 [C2 _]]. apply rep_B; assumption.
  - cbn [round_mode] in C. rewrite Rlt_bool_false in C by exact L. destruct C as [C1 C2]. rewrite C1. apply rep_over; [exact L|].
    pose proof (sign_val a Fa) as Sa. pose proof (sign_val b Fb) as Sb. rewrite <- C2 in Sb. destruct (Bsign a); lra.
Qed.
Lemma sub_rep x y : fin x -> fin y -> rep (x ⊖ y) (fval x - fval y).
Proof.
  intros Fx Fy. destruct (finite_B prec emax x Fx) as [a [-> [Fa Va]]]. destruct (finite_B prec emax y Fy) as [b [-> [Fb Vb]]]. rewrite Va, Vb, (sub_equiv prec emax Hpo Heo).
  pose proof (Bminus_correct prec emax Hpo Heo mode_NE a b Fa Fb) as C.
  destruct (Rlt_bool_spec (Rabs (rnd (B2R a - B2R b))) M) as [L|L].
  - cbn [round_mode] in C. rewrite Rlt_bool_true in C by exact L. destruct C as [C1 [C2 _]]. apply rep_B; assumption.
  - cbn [round_mode] in C. rewrite Rlt_bool_false in C by exact L. destruct C as [C1 C2]. rewrite C1. apply rep_over; [exact L|].
    pose proof (sign_val a Fa) as Sa. pose proof (sign_val b Fb) as Sb. rewrite C2 in Sa |- *. destruct (Bsign b); cbn [negb] in *; lra.
Qed.
Lemma sign_prod (sa sb : bool) (p q : R) : (if sa then p <= 0 else 0 <= p) -> (if sb then q <= 0 else 0 <= q) -> if xorb sa sb then p * q <= 0 else 0 <= p * q.
Proof. destruct sa, sb; cbn [xorb]; intros; nra. Qed.
Lemma mul_rep x y : fin x -> fin y -> rep (x ⊗ y) (fval x * fval y).
Proof.
  intros Fx Fy. destruct (finite_B prec emax x Fx) as [a [-> [Fa Va]]]. destruct (finite_B prec emax y Fy) as [b [-> [Fb Vb]]]. rewrite Va, Vb, (mul_equiv prec emax Hpo Heo).
  pose proof (Bmult_correct prec emax Hpo Heo mode_NE a b) as C.
  destruct (Rlt_bool_spec (Rabs (rnd (B2R a * B2R b))) M) as [L|L].
  - cbn [round_mode] in C. rewrite Rlt_bool_true in C by exact L. destruct C as [C1 [C2 _]]. rewrite Fa, Fb in C2. apply rep_B; assumption.
  - cbn [round_mode] in C. rewrite Rlt_bool_false in C by exact L. rewrite C. apply rep_over; [exact L|]. apply sign_prod; apply sign_val; assumption.
Qed.
Lemma div_rep x y : fin x -> fin y -> fval y <> 0 -> rep (x ⊘ y) (fval x / fval y).
Proof.
  intros Fx Fy N. destruct (finite_B prec emax x Fx) as [a [-> [Fa Va]]]. destruct (finite_B prec emax y Fy) as [b [-> [Fb Vb]]]. rewrite Va, Vb in *. rewrite (div_equiv prec emax Hpo Heo).
  pose proof (Bdiv_correct prec emax Hpo Heo mode_NE a b N) as C.
  destruct (Rlt_bool_spec (Rabs (rnd (B2R a / B2R b))) M) as [L|L].
  - cbn [round_mode] in C. rewrite Rlt_bool_true in C by exact L. destruct C as [C1 [C2 _]]. rewrite Fa in C2. apply rep_B; assumption.
  - cbn [round_mode] in C. rewrite Rlt_bool_false in C by exact L. rewrite C. apply rep_over; [exact L|]. unfold Rdiv. apply sign_prod; [apply sign_val; assumption|].
    pose proof (sign_val b Fb) as Sb. destruct (Bsign b).
    + assert (/ B2R b < 0) by (apply Rinv_lt_0_compat; lra). lra.
    + assert (0 < / B2R b) by (apply Rinv_0_lt_compat; lra). lra.
Qed.

(** ** The operations *)
Lemma fmt_B x : fmt x -> exists b : BF, x = B2SF b.
Proof. intros V. exists (SF2B x V). rewrite B2SF_SF2B. reflexivity. Qed.
Lemma B_fmt (b : BF) : fmt (B2SF b).
Proof. apply valid_binary_B2SF. Qed.
Lemma add_fmt x y : fmt x -> fmt y -> fmt (x ⊕ y).
Proof. intros A B. destruct (fmt_B x A) as [a ->]. destruct (fmt_B y B) as [b ->]. rewrite (add_equiv prec emax Hpo Heo). apply B_fmt. Qed.
Lemma sub_fmt x y : fmt x -> fmt y -> fmt (x ⊖ y).
Proof. intros A B. destruct (fmt_B x A) as [a ->]. destruct (fmt_B y B) as [b ->]. rewrite (sub_equiv prec emax Hpo Heo). apply B_fmt. Qed.
Lemma mul_fmt x y : fmt x -> fmt y -> fmt (x ⊗ y).
Proof. intros A B. destruct (fmt_B x A) as [a ->]. destruct (fmt_B y B) as [b ->]. rewrite (mul_equiv prec emax Hpo Heo). apply B_fmt. Qed.
Lemma div_fmt x y : fmt x -> fmt y -> fmt (x ⊘ y).
Proof. intros A B. destruct (fmt_B x A) as [a ->]. destruct (fmt_B y B) as [b ->]. rewrite (div_equiv prec emax Hpo Heo). apply B_fmt. Qed.
Lemma sqrt_fmt x : fmt x -> fmt (SFsqrt prec emax x).
Proof. intros A. destruct (fmt_B x A) as [a ->]. rewrite (sqrt_equiv prec emax Hpo Heo). apply B_fmt. Qed.
Lemma ofZ_fmt z : fmt (SpecFloat.binary_normalize prec emax z 0 false).
Proof. rewrite (normalize_equiv prec emax Hpo Heo). apply B_fmt. Qed.
Lemma add_nan_r x : x ⊕ S754_nan = S754_nan. Proof. destruct x; reflexivity. Qed.
Lemma sub_nan_r x : x ⊖ S754_nan = S754_nan. Proof. destruct x; reflexivity. Qed.
Lemma mul_nan_r x : x ⊗ S754_nan = S754_nan. Proof. destruct x; reflexivity. Qed.
(** An operand at an end of the scale gives that end or NaN. *)
Definition low (v : spec_float) := v = S754_infinity true \/ v = S754_nan.
Definition high (v : spec_float) := v = S754_infinity false \/ v = S754_nan.
Lemma low_nab v w : low v -> nab v w.
Proof. intros [->| ->]; [apply nab_bot|apply nab_nan_l]. Qed.
Lemma high_nab v w : high w -> nab v w.
Proof. intros [->| ->]; [apply nab_top|apply nab_nan_r]. Qed.
Ltac sgn := repeat match goal with s : bool |- _ => destruct s end.
Lemma add_low_l y : low (S754_infinity true ⊕ y).
Proof. unfold low. destruct y as [s|s| |s m e]; sgn; cbn; auto. Qed.
Lemma add_low_r y : low (y ⊕ S754_infinity true).
Proof. unfold low. destruct y as [s|s| |s m e]; sgn; cbn; auto. Qed.
Lemma add_high_l y : high (S754_infinity false ⊕ y).
Proof. unfold high. destruct y as [s|s| |s m e]; sgn; cbn; auto. Qed.
Lemma add_high_r y : high (y ⊕ S754_infinity false).
Proof. unfold high. destruct y as [s|s| |s m e]; sgn; cbn; auto. Qed.
Lemma sub_low_l y : low (S754_infinity true ⊖ y).
Proof. unfold low. destruct y as [s|s| |s m e]; sgn; cbn; auto. Qed.
Lemma sub_low_r y : low (y ⊖ S754_infinity false).
Proof. unfold low. destruct y as [s|s| |s m e]; sgn; cbn; auto. Qed.
Lemma sub_high_l y : high (S754_infinity false ⊖ y).
Proof. unfold high. destruct y as [s|s| |s m e]; sgn; cbn; auto. Qed.
Lemma sub_high_r y : high (y ⊖ S754_infinity true).
Proof. unfold high. destruct y as [s|s| |s m e]; sgn; cbn; auto. Qed.
(** Two floats in order: both finite, or one at an end, or NaN. *)
Lemma nab_cases x y : fmt x -> fmt y -> nab x y ->
  (fin x /\ fin y /\ fval x <= fval y) \/ x = S754_infinity true \/ y = S754_infinity false \/ x = S754_nan \/ y = S754_nan.
Proof.
  intros A B N. destruct (fmt_cases x A) as [Fx|[->|[->| ->]]]; auto.
  - destruct (fmt_cases y B) as [Fy|[->|[->| ->]]]; auto. { left. split; [exact Fx|]. split; [exact Fy|]. apply nab_fin; assumption. } exfalso. apply (fin_not_bot x Fx N).
  - destruct (fmt_cases y B) as [Fy|[->|[->| ->]]]; auto. { exfalso. apply (fin_not_top y Fy N). } exfalso. apply (top_bot N).
Qed.
Lemma add_mono x x' y y' : fmt x -> fmt x' -> fmt y -> fmt y' -> nab x x' -> nab y y' -> nab (x ⊕ y) (x' ⊕ y').
Proof.
  intros A A' B B' N1 N2.
  destruct (nab_cases x x' A A' N1) as [[Fx [Fx' L1]]|[->|[->|[->| ->]]]]; [|apply low_nab, add_low_l|apply high_nab, add_high_l|apply nab_nan_l|apply nab_nan_r].
  destruct (nab_cases y y' B B' N2) as [[Fy [Fy' L2]]|[->|[->|[->| ->]]]]; [|apply low_nab, add_low_r|apply high_nab, add_high_r|rewrite add_nan_r; apply nab_nan_l|rewrite add_nan_r; apply nab_nan_r].
  eapply rep_mono; [apply add_rep; assumption|apply add_rep; assumption|lra].
Qed.
Lemma sub_mono x x' y y' : fmt x -> fmt x' -> fmt y -> fmt y' -> nab x x' -> nab y' y -> nab (x ⊖ y) (x' ⊖ y').
Proof.
  intros A A' B B' N1 N2.
  destruct (nab_cases x x' A A' N1) as [[Fx [Fx' L1]]|[->|[->|[->| ->]]]]; [|apply low_nab, sub_low_l|apply high_nab, sub_high_l|apply nab_nan_l|apply nab_nan_r].
  destruct (nab_cases y' y B' B N2) as [[Fy [Fy' L2]]|[->|[->|[->| ->]]]]; [|apply high_nab, sub_high_r|apply low_nab, sub_low_r|rewrite sub_nan_r; apply nab_nan_r|rewrite sub_nan_r; apply nab_nan_l].
  eapply rep_mono; [apply sub_rep; assumption|apply sub_rep; assumption|lra].
Qed.
Lemma fin_sign c : fin c -> match c with S754_finite s _ _ => if s then fval c < 0 else 0 < fval c | _ => True end.
Proof.
  intros _. destruct c as [s|s| |s m e]; auto. cbn [fval]. assert (0 < IZR (Z.pos m)) by (apply IZR_lt; reflexivity). pose proof (powerRZ_lt 2 e ltac:(lra)).
  assert (0 < IZR (Z.pos m) * powerRZ 2 e) by (apply Rmult_lt_0_compat; assumption). destruct s; lra.
Qed.
Lemma mul_mono c x x' : fin c -> 0 <= fval c -> fmt x -> fmt x' -> nab x x' -> nab (c ⊗ x) (c ⊗ x').
Proof.
  intros Fc C A A' N. pose proof (fin_sign c Fc) as Sg.
  destruct (nab_cases x x' A A' N) as [[Fx [Fx' L1]]|[->|[->|[->| ->]]]]; [| | |rewrite mul_nan_r; apply nab_nan_l|rewrite mul_nan_r; apply nab_nan_r].
  - eapply rep_mono; [apply mul_rep; assumption|apply mul_rep; assumption|apply Rmult_le_compat_l; assumption].
  - apply low_nab. destruct Fc as [_ Fc]. unfold low. destruct c as [s|s| |s m e]; try contradiction; [auto|]. destruct s; [lra|cbn; auto].
  - apply high_nab. destruct Fc as [_ Fc]. unfold high. destruct c as [s|s| |s m e]; try contradiction; [auto|]. destruct s; [lra|cbn; auto].
Qed.
Lemma mul_anti c x x' : fin c -> fval c <= 0 -> fmt x -> fmt x' -> nab x x' -> nab (c ⊗ x') (c ⊗ x).
Proof.
  intros Fc C A A' N. pose proof (fin_sign c Fc) as Sg.
  destruct (nab_cases x x' A A' N) as [[Fx [Fx' L1]]|[->|[->|[->| ->]]]]; [| | |rewrite mul_nan_r; apply nab_nan_r|rewrite mul_nan_r; apply nab_nan_l].
  - eapply rep_mono; [apply mul_rep; assumption|apply mul_rep; assumption|nra].
  - apply high_nab. destruct Fc as [_ Fc]. unfold high. destruct c as [s|s| |s m e]; try contradiction; [auto|]. destruct s; [cbn; auto|lra].
  - apply low_nab. destruct Fc as [_ Fc]. unfold low. destruct c as [s|s| |s m e]; try contradiction; [auto|]. destruct s; [cbn; auto|lra].
Qed.
Lemma abs_fmt x : fmt x -> fmt (SFabs x).
Proof. destruct x; intros V; exact V. Qed.
Lemma abs_fin x : fin x -> fin (SFabs x) /\ fval (SFabs x) = Rabs (fval x).
Proof.
  intros [V F]. destruct x as [s|s| |s m e]; try contradiction; (split; [split; [exact V|exact I]|]); cbn [SFabs fval]; [rewrite Rabs_R0; reflexivity|].
  assert (0 < IZR (Z.pos m)) by (apply IZR_lt; reflexivity). pose proof (powerRZ_lt 2 e ltac:(lra)).
  assert (0 < IZR (Z.pos m) * powerRZ 2 e) by (apply Rmult_lt_0_compat; assumption). destruct s; [rewrite Rabs_left by lra; lra|rewrite Rabs_pos_eq by lra; reflexivity].
Qed.
Lemma fin_abs x : fin (SFabs x) -> fin x.
Proof. intros [V F]. destruct x as [s|s| |s m e]; try contradiction; (split; [exact V|exact I]). Qed.
Lemma square_mono x x' : fmt x -> fmt x' -> nab (SFabs x) (SFabs x') -> nab (x ⊗ x) (x' ⊗ x').
Proof.
  intros A A' N. destruct (nab_cases _ _ (abs_fmt x A) (abs_fmt x' A') N) as [[Fx [Fx' L1]]|[E|[E|[E|E]]]].
  - apply fin_abs in Fx, Fx'. destruct (abs_fin x Fx) as [_ V]. destruct (abs_fin x' Fx') as [_ V']. rewrite V, V' in L1.
    eapply rep_mono; [apply mul_rep; assumption|apply mul_rep; assumption|]. apply Rsqr_le_abs_1. exact L1.
  - destruct x; discriminate.
  - destruct x' as [s|s| |s m e]; try discriminate. apply high_nab. left. destruct s; reflexivity.
  - destruct x; try discriminate. apply nab_nan_l.
  - destruct x'; try discriminate. apply nab_nan_r.
Qed.

(** ** Floats with a plus sign *)
Definition plus (d : spec_float) : Prop := match d with S754_zero s | S754_infinity s | S754_finite s _ _ => s = false | S754_nan => True end.
Lemma aux_plus m e l : plus (SpecFloat.binary_round_aux prec emax false m e l).
Proof.
  unfold SpecFloat.binary_round_aux. destruct (shr_fexp prec emax m e l) as [m1 e1]. destruct (shr_fexp prec emax _ e1 loc_Exact) as [m2 e2].
  destruct (shr_m m2) as [|p|p]; [reflexivity| |exact I]. destruct (Z.leb e2 (emax - prec)); reflexivity.
Qed.
Lemma norm_plus m e : (0 <= m)%Z -> plus (SpecFloat.binary_normalize prec emax m e false).
Proof.
  intros H. destruct m as [|p|p]; [reflexivity| |lia]. cbn [SpecFloat.binary_normalize]. unfold SpecFloat.binary_round. destruct (shl_align p e _) as [mz ez]. apply aux_plus.
Qed.
Lemma add_plus x y : plus x -> plus y -> plus (x ⊕ y).
Proof.
  destruct x as [s|s| |s m e], y as [t|t| |t n g]; cbn [plus]; intros; subst; cbn [SFadd Bool.eqb]; try reflexivity; try exact I.
  apply norm_plus. cbn [cond_Zopp]. lia.
Qed.
Lemma square_plus x : plus (x ⊗ x).
Proof.
  destruct x as [s|s| |s m e]; cbn [SFmul]; try exact I; try (cbn; destruct s; reflexivity). rewrite xorb_nilpotent. apply aux_plus.
Qed.
Lemma div_plus x y : plus x -> plus y -> plus (x ⊘ y).
Proof.
  destruct x as [s|s| |s m e], y as [t|t| |t n g]; cbn [plus]; intros; subst; cbn [SFdiv xorb]; try reflexivity; try exact I.
  destruct (SFdiv_core_binary _ _ _ _ _ _) as [[mz ez] lz]. apply aux_plus.
Qed.
Lemma sqrt_plus x : plus x -> plus (SFsqrt prec emax x).
Proof.
  destruct x as [s|s| |s m e]; cbn [plus]; intros; subst; cbn [SFsqrt]; try reflexivity; try exact I.
  destruct (SFsqrt_core_binary _ _ _ _) as [[mz ez] lz]. apply aux_plus.
Qed.
Lemma abs_plus x : plus (SFabs x).
Proof. destruct x; cbn; auto. Qed.
Lemma mul_comm x y : x ⊗ y = y ⊗ x.
Proof.
  destruct x as [s|s| |s m e], y as [t|t| |t n g]; cbn [SFmul]; try reflexivity; try (rewrite xorb_comm; reflexivity).
  rewrite xorb_comm, Pos.mul_comm, Z.add_comm. reflexivity.
Qed.
Lemma div_nan_r x : x ⊘ S754_nan = S754_nan. Proof. destruct x; reflexivity. Qed.
Lemma div_mono d x x' : fmt d -> plus d -> fmt x -> fmt x' -> nab x x' -> nab (x ⊘ d) (x' ⊘ d).
Proof.
  intros D P A A' N. destruct (nab_cases x x' A A' N) as [[Fx [Fx' L1]]|[->|[->|[->| ->]]]]; [| | |apply nab_nan_l|apply nab_nan_r].
  - destruct (fmt_cases d D) as [Fd|[->|[->| ->]]]; [| discriminate| |rewrite div_nan_r; apply nab_nan_l].
    + pose proof Fd as [_ Fd']. destruct d as [s|s| |s m e]; try contradiction; cbn [plus] in P; subst s.
      * pose proof (fin_sign x Fx) as G. pose proof (fin_sign x' Fx') as G'. destruct Fx as [_ Fx], Fx' as [_ Fx'].
        destruct x as [s|s| |s m e]; try contradiction; [apply nab_nan_l|]. destruct s; [apply nab_bot|]. apply high_nab.
        destruct x' as [s|s| |s m' e']; try contradiction; [right; reflexivity|]. left. destruct s; [cbn [fval] in *; lra|reflexivity].
      * pose proof (fin_sign _ Fd) as G. cbv match beta in G. assert (Gn : fval (S754_finite false m e) <> 0) by lra. eapply rep_mono; [apply div_rep; assumption|apply div_rep; assumption|].
        unfold Rdiv. apply Rmult_le_compat_r; [|exact L1]. apply Rlt_le, Rinv_0_lt_compat. exact G.
    + destruct Fx as [_ Fx], Fx' as [_ Fx']. destruct x, x'; try contradiction; reflexivity.
  - apply low_nab. unfold low. destruct d as [s|s| |s m e]; cbn [plus] in P; subst; cbn; auto.
  - apply high_nab. unfold high. destruct d as [s|s| |s m e]; cbn [plus] in P; subst; cbn; auto.
Qed.
Lemma sqrt_neg m e : SFsqrt prec emax (S754_finite true m e) = S754_nan. Proof. reflexivity. Qed.
Lemma sqrt_mono x x' : fmt x -> fmt x' -> nab x x' -> nab (SFsqrt prec emax x) (SFsqrt prec emax x').
Proof.
  intros A A' N. destruct (nab_cases x x' A A' N) as [[Fx [Fx' L1]]|[->|[->|[->| ->]]]]; [|apply nab_nan_l|apply high_nab; left; reflexivity|apply nab_nan_l|apply nab_nan_r].
  assert (G : forall z, fin z -> z = z /\ (0 <= fval z \/ SFsqrt prec emax z = S754_nan)).
  { intros z Fz. split; [reflexivity|]. pose proof (fin_sign z Fz) as G. destruct Fz as [_ Fz]. destruct z as [s|s| |s m e]; try contradiction; [left; cbn; lra|]. destruct s; [right; reflexivity|left; lra]. }
  destruct (G x Fx) as [_ [Px|E]]; [|rewrite E; apply nab_nan_l]. destruct (G x' Fx') as [_ [Px'|E]]; [|rewrite E; apply nab_nan_r].
  destruct (fsqrt_ok prec emax Hpo Heo x Fx Px) as [F V]. destruct (fsqrt_ok prec emax Hpo Heo x' Fx' Px') as [F' V'].
  apply nab_fin; try assumption. rewrite V, V'. apply rnd_mono, sqrt_le_1_alt, L1.
Qed.

(** ** Sums *)
Variable szero : bool.
Local Instance NO : Num spec_float := SFNum prec emax szero.
(** Both in the format, in order. *)
Definition le2 (x y : spec_float) : Prop := fmt x /\ fmt y /\ nab x y.
Lemma le2_intro l l' : Forall fmt l -> Forall fmt l' -> Forall2 nab l l' -> Forall2 le2 l l'.
Proof.
  intros A B H. induction H as [|x y l l' Hxy H IH]; constructor.
  - inversion A; inversion B; subst. split; [assumption|]. split; assumption.
  - inversion A; inversion B; subst. auto.
Qed.
Lemma le2_nab l l' : Forall2 le2 l l' -> Forall2 nab l l'.
Proof. intros H. induction H as [|x y l l' (_ & _ & N) H IH]; constructor; assumption. Qed.
Lemma nab_refl x : nab x x.
Proof. apply SFltb_irrefl. Qed.
Lemma le2_refl x : fmt x -> le2 x x.
Proof. intros A. split; [exact A|]. split; [exact A|]. apply nab_refl. Qed.
Lemma le2_add x x' y y' : le2 x x' -> le2 y y' -> le2 (x ⊕ y) (x' ⊕ y').
Proof. intros (A & A' & N) (B & B' & N'). split; [apply add_fmt; assumption|]. split; [apply add_fmt; assumption|]. apply add_mono; assumption. Qed.
Lemma le2_sub x x' y y' : le2 x x' -> le2 y' y -> le2 (x ⊖ y) (x' ⊖ y').
Proof. intros (A & A' & N) (B & B' & N'). split; [apply sub_fmt; assumption|]. split; [apply sub_fmt; assumption|]. apply sub_mono; assumption. Qed.
Lemma le2_div d x x' : fmt d -> plus d -> le2 x x' -> le2 (x ⊘ d) (x' ⊘ d).
Proof. intros D P (A & A' & N). split; [apply div_fmt; assumption|]. split; [apply div_fmt; assumption|]. apply div_mono; assumption. Qed.
Lemma le2_sqrt x x' : le2 x x' -> le2 (SFsqrt prec emax x) (SFsqrt prec emax x').
Proof. intros (A & A' & N). split; [apply sqrt_fmt; assumption|]. split; [apply sqrt_fmt; assumption|]. apply sqrt_mono; assumption. Qed.
Lemma le2_mul c x x' : fin c -> 0 <= fval c -> le2 x x' -> le2 (c ⊗ x) (c ⊗ x').
Proof. intros C P (A & A' & N). split; [apply mul_fmt; [apply fin_fmt, C|assumption]|]. split; [apply mul_fmt; [apply fin_fmt, C|assumption]|]. apply mul_mono; assumption. Qed.
Lemma le2_anti c x x' : fin c -> fval c <= 0 -> le2 x x' -> le2 (c ⊗ x') (c ⊗ x).
Proof. intros C P (A & A' & N). split; [apply mul_fmt; [apply fin_fmt, C|assumption]|]. split; [apply mul_fmt; [apply fin_fmt, C|assumption]|]. apply mul_anti; assumption. Qed.
Lemma zero_fmt s : fmt (S754_zero s).
Proof. reflexivity. Qed.
Lemma fold_le2 l l' a a' : Forall2 le2 l l' -> le2 a a' -> le2 (fold_left nadd l a) (fold_left nadd l' a').
Proof. intros H. revert a a'. induction H as [|x y l l' Hxy H IH]; intros a a' Ha; [exact Ha|]. cbn [fold_left]. apply IH, le2_add; assumption. Qed.
Lemma sum_le2 l l' : Forall2 le2 l l' -> le2 (nsum l) (nsum l').
Proof. intros H. apply fold_le2; [exact H|]. apply le2_refl. exact (zero_fmt szero). Qed.
Lemma f2_length {A B} (P : A -> B -> Prop) l l' : Forall2 P l l' -> length l' = length l.
Proof. intros H. induction H; cbn; auto. Qed.
Lemma mean_pairs (l : list spec_float) a c : fold_left (fun (acc : spec_float * nat) y => (nadd (fst acc) y, S (snd acc))) l (a, c) = (fold_left nadd l a, (length l + c)%nat).
Proof. revert a c. induction l as [|x l IH]; intros a c; [reflexivity|]. cbn [fold_left fst snd length]. rewrite IH. f_equal. lia. Qed.
Lemma mean_eq_fold (l : list spec_float) : mean l = match l with [] => (nzero, O) | _ => (ndiv (fold_left nadd l nzero) (nofZ (Z.of_nat (length l))), length l) end.
Proof. unfold mean. rewrite mean_pairs, Nat.add_0_r. destruct l; reflexivity. Qed.
Lemma count_plus n : plus (nofZ (Z.of_nat n)).
Proof. apply norm_plus. lia. Qed.
Lemma count_fmt n : fmt (nofZ n).
Proof. apply ofZ_fmt. Qed.
Lemma mean_le2 l l' : Forall2 le2 l l' -> le2 (fst (mean l)) (fst (mean l')).
Proof.
  intros H. pose proof (f2_length _ _ _ H) as L. rewrite !mean_eq_fold. destruct H as [|x y l l' Hxy H]; [apply le2_refl; reflexivity|]. rewrite L. cbn [fst].
  apply le2_div; [apply count_fmt|apply count_plus|]. apply fold_le2; [constructor; assumption|]. apply le2_refl. exact (zero_fmt false).
Qed.
Lemma chunks_le2 (P : spec_float -> spec_float -> Prop) n l l' : (length l <= n)%nat -> Forall2 P l l' -> Forall2 (Forall2 P) (chunks4 l) (chunks4 l') /\ Forall2 P (rem4 l) (rem4 l').
Proof.
  revert l l'. induction n as [|n IH]; intros l l' Hn H.
  - destruct H; [split; constructor|cbn in Hn; lia].
  - destruct H as [|x1 y1 l l' H1 H]; [split; constructor|]. destruct H as [|x2 y2 l l' H2 H]; [split; repeat constructor; assumption|].
    destruct H as [|x3 y3 l l' H3 H]; [split; repeat constructor; assumption|]. destruct H as [|x4 y4 l l' H4 H]; [split; repeat constructor; assumption|].
    cbn [chunks4 rem4]. destruct (IH l l' ltac:(cbn in Hn; lia) H) as [Q1 Q2]. split; [|exact Q2]. constructor; [repeat constructor; assumption|exact Q1].
Qed.
Lemma map_le2 {A B} (P : A -> B -> Prop) f g l l' : Forall2 P l l' -> (forall a b, P a b -> le2 (f a) (g b)) -> Forall2 le2 (map f l) (map g l').
Proof. intros H Q. induction H; cbn [map]; constructor; auto. Qed.
Definition abs2 (x y : spec_float) : Prop := fmt x /\ fmt y /\ nab (SFabs x) (SFabs y).
Lemma square_le2 l l' : Forall2 abs2 l l' -> le2 (nsum (map (fun y : spec_float => nmul y y) l)) (nsum (map (fun y : spec_float => nmul y y) l')).
Proof.
  intros H. apply sum_le2. apply (map_le2 abs2); [exact H|]. intros a b (A & B & N). split; [apply mul_fmt; assumption|]. split; [apply mul_fmt; assumption|]. apply square_mono; assumption.
Qed.
Lemma rms_le2 l l' : Forall2 abs2 l l' -> le2 (rms_fast32 l) (rms_fast32 l').
Proof.
  intros H. destruct (chunks_le2 _ _ l l' (le_n _) H) as [Q1 Q2]. unfold rms_fast32. rewrite (f2_length _ _ _ H). apply le2_sqrt, le2_div; [apply count_fmt|apply count_plus|]. apply le2_add.
  - apply square_le2, Q2.
  - apply sum_le2. apply (map_le2 (Forall2 abs2)); [exact Q1|]. intros c c' Hc. apply square_le2, Hc.
Qed.

(** ** Order statistics *)
Lemma nab_le_trans x y z : x <> S754_nan -> y <> S754_nan -> z <> S754_nan -> nab x y -> nab y z -> nab x z.
Proof.
  intros X Y Z A B. unfold not_above in *. destruct (SFltb z x) eqn:E; [|reflexivity]. exfalso.
  assert (Ha : ~ lex (sfkey y) (sfkey x)) by (rewrite <- SFltb_lex by assumption; congruence).
  assert (Hb : ~ lex (sfkey z) (sfkey y)) by (rewrite <- SFltb_lex by assumption; congruence).
  assert (Hc : lex (sfkey z) (sfkey x)) by (rewrite <- SFltb_lex by assumption; exact E).
  destruct (sfkey x) as [[x1 x2] x3], (sfkey y) as [[y1 y2] y3], (sfkey z) as [[z1 z2] z3]. cbn in *. lia.
Qed.
Lemma filter_le {A B} (P : A -> bool) (Q : B -> bool) (T : A -> B -> Prop) l l' : Forall2 T l l' -> (forall a b, In a l -> In b l' -> T a b -> Q b = true -> P a = true) -> (length (filter Q l') <= length (filter P l))%nat.
Proof.
  intros H. induction H as [|a b l l' Hab H IH]; intros K; [apply le_n|]. cbn [filter].
  assert (IH' : (length (filter Q l') <= length (filter P l))%nat) by (apply IH; intros; apply (K a0 b0); auto; right; assumption).
  destruct (Q b) eqn:E; [rewrite (K a b (or_introl eq_refl) (or_introl eq_refl) Hab E); cbn [length]; lia|]. destruct (P a); cbn [length]; lia.
Qed.
Lemma rank_mono l l' k m m' : ~ In S754_nan l -> ~ In S754_nan l' -> Forall2 nab l l' -> has_rank SFltb l k m -> has_rank SFltb l' k m' -> nab m m'.
Proof.
  intros N N' H [I [R1 R2]] [I' [R1' R2']]. unfold not_above. destruct (SFltb m' m) eqn:E; [|reflexivity]. exfalso.
  assert (L : (length (filter (fun x => negb (SFltb m' x)) l') <= length (filter (fun x => SFltb x m) l))%nat).
  { apply (filter_le _ _ _ _ _ H). intros a b Ia Ib Hab Hb. apply negb_true_iff in Hb.
    assert (Na : a <> S754_nan) by congruence. assert (Nb : b <> S754_nan) by congruence. assert (Nm : m <> S754_nan) by congruence. assert (Nm' : m' <> S754_nan) by congruence.
    destruct (SFltb a m) eqn:E2; [reflexivity|]. exfalso.
    assert (K : nab m m') by (apply (nab_le_trans m a m'); auto; apply (nab_le_trans a b m'); auto). unfold not_above in K. congruence. }
  lia.
Qed.
Lemma median_nab l l' : l <> [] -> ~ In S754_nan l -> ~ In S754_nan l' -> Forall fmt l -> Forall fmt l' -> Forall2 nab l l' ->
  exists m m', median l = Ok (m, length l) /\ median l' = Ok (m', length l) /\ nab m m'.
Proof.
  intros E N N' A A' H. pose proof (f2_length _ _ _ H) as L. assert (E' : l' <> []) by (intros ->; destruct l; [congruence|discriminate]).
  pose proof (median_rank SFltb (S754_zero false) (fun a b => Ok (ndiv (nadd a b) (nofZ 2))) l (SFltb_weak l N) E) as [O Ev].
  pose proof (median_rank SFltb (S754_zero false) (fun a b => Ok (ndiv (nadd a b) (nofZ 2))) l' (SFltb_weak l' N') E') as [O' Ev'].
  rewrite L in O', Ev'. pose proof (Nat.mod_upper_bound (length l) 2 ltac:(discriminate)) as Hm. destruct (Nat.eq_dec (length l mod 2) 1) as [M1|M1].
  - destruct (O M1) as [m [R Q]]. destruct (O' M1) as [m' [R' Q']]. exists m, m'. split; [exact Q|]. split; [exact Q'|]. apply (rank_mono l l' (length l / 2)); assumption.
  - assert (M0 : (length l mod 2 = 0)%nat) by lia. destruct (Ev M0) as (a & b & Ra & Rb & Q). destruct (Ev' M0) as (a' & b' & Ra' & Rb' & Q'). cbn [bind] in Q, Q'.
    eexists. eexists. split; [exact Q|]. split; [exact Q'|]. rewrite Forall_forall in A, A'.
    assert (Fa : fmt a /\ fmt b /\ fmt a' /\ fmt b') by (destruct Ra, Rb, Ra', Rb'; auto). destruct Fa as (Fa & Fb & Fa' & Fb').
    apply div_mono; [apply ofZ_fmt|apply (count_plus 2)|apply add_fmt; assumption|apply add_fmt; assumption|].
    apply add_mono; try assumption; [apply (rank_mono l l' (length l / 2 - 1))|apply (rank_mono l l' (length l / 2))]; assumption.
Qed.

(** ** Standardising *)
Lemma fold_plus l a : plus a -> Forall plus l -> plus (fold_left nadd l a).
Proof. intros Ha H. revert a Ha. induction H as [|x l Hx H IH]; intros a Ha; [exact Ha|]. cbn [fold_left]. apply IH, add_plus; assumption. Qed.
Lemma zero_add_plus s x : plus x -> plus (S754_zero s ⊕ x).
Proof. destruct x as [t|t| |t m e]; cbn [plus]; intros; subst; destruct s; reflexivity || exact I. Qed.
Lemma sum_plus l : l <> [] -> Forall plus l -> plus (nsum l).
Proof.
  intros E H. unfold nsum. destruct H as [|x l Hx H]; [congruence|]. cbn [fold_left]. apply fold_plus; [|exact H]. apply (zero_add_plus szero), Hx.
Qed.
Lemma mean_snd (l : list spec_float) : snd (mean l) = length l.
Proof. rewrite mean_eq_fold. destruct l; reflexivity. Qed.
Lemma stdev_plus (l : list spec_float) : l <> [] -> plus (fst (stdev l)).
Proof.
  intros E. unfold stdev, variance. destruct (mean l) as [m n] eqn:Em. assert (Hn : n = length l) by (rewrite <- (mean_snd l), Em; reflexivity). subst n.
  destruct l as [|x l]; [congruence|]. cbn [length Nat.ltb Nat.leb]. apply sqrt_plus, div_plus; [|apply count_plus]. apply sum_plus; [discriminate|].
  apply Forall_forall. intros v I. apply in_map_iff in I. destruct I as [w [<- _]]. apply square_plus.
Qed.
Lemma fold_fmt l a : fmt a -> Forall fmt l -> fmt (fold_left nadd l a).
Proof. intros Ha H. revert a Ha. induction H as [|x l Hx H IH]; intros a Ha; [exact Ha|]. cbn [fold_left]. apply IH, add_fmt; assumption. Qed.
Lemma mean_fmt l : Forall fmt l -> fmt (fst (mean l)).
Proof. intros H. rewrite mean_eq_fold. destruct l; [reflexivity|]. cbn [fst]. apply div_fmt; [|apply count_fmt]. apply fold_fmt; [reflexivity|exact H]. Qed.
Lemma stdev_fmt l : Forall fmt l -> fmt (fst (stdev l)).
Proof.
  intros H. unfold stdev, variance. pose proof (mean_fmt l H) as Fm. pose proof (mean_snd l) as Hn. destruct (mean l) as [m n]. cbn [fst snd] in *. subst n.
  destruct l as [|x l]; [reflexivity|]. cbn [length Nat.ltb Nat.leb]. apply sqrt_fmt, div_fmt; [|apply count_fmt]. apply fold_fmt; [exact (zero_fmt szero)|].
  apply Forall_forall. intros v I. apply in_map_iff in I. destruct I as [w [<- I]]. rewrite Forall_forall in H. apply mul_fmt; apply sub_fmt; auto.
Qed.
Lemma zscore_nab l x y : Forall fmt l -> In x l -> In y l -> nab x y ->
  nab (ndiv (nsub x (fst (mean l))) (fst (stdev l))) (ndiv (nsub y (fst (mean l))) (fst (stdev l))).
Proof.
  intros H Ix Iy N. pose proof (mean_fmt l H) as Fm. pose proof (stdev_fmt l H) as Fs. rewrite Forall_forall in H. assert (E : l <> []) by (intros ->; contradiction).
  apply div_mono; [exact Fs|apply stdev_plus, E|apply sub_fmt; auto|apply sub_fmt; auto|]. apply sub_mono; auto. apply nab_refl.
Qed.
Lemma median_prop (P : spec_float -> Prop) l m : P (S754_zero false) -> (forall a b, P a -> P b -> P (ndiv (nadd a b) (nofZ 2))) -> Forall P l -> median l = Ok m -> P (fst m).
Proof.
  intros Z0 HP H Q. rewrite Forall_forall in H. pose proof (fun fuel k A B => quickselect_safe SFltb fuel l k A B) as S0.
  assert (S1 : forall k v, (k < length l)%nat -> quickselect SFltb (length l) l k = Ok v -> P v).
  { intros k v Hk E. destruct (S0 (length l) k (le_n _) Hk) as [w [E2 I]]; [intros a _; apply SFltb_irrefl|intros a b _ _; apply SFltb_asym|]. rewrite E in E2. injection E2 as <-. auto. }
  unfold median, median_gen in Q. cbn [nltb NO SFNum] in Q. destruct (Nat.eqb_spec (length l) 0) as [N0|N0]; [injection Q as <-; exact Z0|].
  destruct (Nat.eqb_spec (length l) 1) as [N1|N1].
  { destruct l as [|x l]; [discriminate|]. cbn in Q. injection Q as <-. apply H. left. reflexivity. }
  assert (Hd : length l = (2 * (length l / 2) + length l mod 2)%nat) by (apply Nat.div_mod; discriminate). pose proof (Nat.mod_upper_bound (length l) 2 ltac:(discriminate)) as Hm.
  destruct (Nat.eqb_spec (length l mod 2) 1) as [M1|M1].
  - destruct (quickselect SFltb (length l) l (length l / 2)) eqn:E; try discriminate. cbn [bind] in Q. injection Q as <-. apply (S1 (length l / 2)%nat); [lia|exact E].
  - rewrite (P_Ext.usub_ok (length l / 2) 1) in Q by lia. cbn [bind] in Q.
    destruct (quickselect SFltb (length l) l (length l / 2 - 1)) eqn:E1; try discriminate. cbn [bind] in Q.
    destruct (quickselect SFltb (length l) l (length l / 2)) eqn:E2; try discriminate. cbn [bind] in Q. injection Q as <-. apply HP; [apply (S1 (length l / 2 - 1)%nat)|apply (S1 (length l / 2)%nat)]; auto; lia.
Qed.
Lemma half_fmt a b : fmt a -> fmt b -> fmt (ndiv (nadd a b) (nofZ 2)).
Proof. intros A B. apply div_fmt; [apply add_fmt; assumption|apply ofZ_fmt]. Qed.
Lemma half_plus a b : plus a -> plus b -> plus (ndiv (nadd a b) (nofZ 2)).
Proof. intros A B. apply div_plus; [apply add_plus; assumption|apply (count_plus 2)]. Qed.
Lemma mad_plus l d : median_abs_deviation l = Ok d -> plus (fst d).
Proof.
  unfold median_abs_deviation. destruct (median l) as [[m n]| | |]; cbn [bind]; try discriminate. intros E. refine (median_prop plus _ d _ half_plus _ E); [reflexivity|].
  apply Forall_forall. intros v I. apply in_map_iff in I. destruct I as [w [<- _]]. apply abs_plus.
Qed.
Lemma mad_fmt l d : Forall fmt l -> median_abs_deviation l = Ok d -> fmt (fst d).
Proof.
  intros H. unfold median_abs_deviation. destruct (median l) as [[m n]| | |] eqn:Em; cbn [bind]; try discriminate. intros E.
  assert (Fm : fmt m) by (apply (median_prop (fun v => fmt v) l (m, n)); [reflexivity|exact half_fmt|exact H|exact Em]).
  refine (median_prop (fun v => fmt v) _ d _ half_fmt _ E); [reflexivity|].
  apply Forall_forall. intros v I. apply in_map_iff in I. destruct I as [w [<- I]]. rewrite Forall_forall in H. apply abs_fmt, sub_fmt; auto.
Qed.

(** ** Filters with non-negative weights *)
Notation st2 := (state_not_above prec emax).
Lemma item_le2 x x' l l' : le2 x x' -> Forall (smoothing prec emax) l -> Forall2 st2 l l' ->
  le2 (fst (sosfilt_item x l)) (fst (sosfilt_item x' l')) /\ Forall (smoothing prec emax) (snd (sosfilt_item x l)) /\ Forall2 st2 (snd (sosfilt_item x l)) (snd (sosfilt_item x' l')).
Proof.
  intros Hx Hs H. revert x x' Hx Hs. induction H as [|s t l l' Hst H IH]; intros x x' Hx Hs; [split; [exact Hx|split; constructor]|].
  inversion Hs as [|? ? S0 Hs']; subst. destruct Hst as (E0 & E1 & E2 & E4 & E5 & Fz & Z0 & Z1).
  pose proof S0 as Smo. destruct S0 as [Fc [Pb Na]].
  inversion Fc as [|? ? F0 Fc1]; inversion Fc1 as [|? ? F1 Fc2]; inversion Fc2 as [|? ? F2 Fc3]; inversion Fc3 as [|? ? F3 Fc4]; inversion Fc4 as [|? ? F4 _]; subst.
  inversion Pb as [|? ? P0 Pb1]; inversion Pb1 as [|? ? P1 Pb2]; inversion Pb2 as [|? ? P2 _]; subst. inversion Na as [|? ? N1 Na1]; inversion Na1 as [|? ? N2 _]; subst.
  inversion Fz as [|? ? G0 Fz1]; inversion Fz1 as [|? ? G1 Fz2]; inversion Fz2 as [|? ? G2 Fz3]; inversion Fz3 as [|? ? G3 _]; subst.
  cbn [sosfilt_item]. destruct (biquad_fold x s) as [y s1] eqn:B1. destruct (biquad_fold x' t) as [y' t1] eqn:B2. unfold biquad_fold in B1, B2. injection B1 as <- <-. injection B2 as <- <-.
  rewrite E0, E1, E2, E4, E5.
  assert (Y : le2 (b0 s ⊗ x ⊕ zi0 s) (b0 s ⊗ x' ⊕ zi0 t)) by (apply le2_add; [apply le2_mul; assumption|split; [assumption|split; assumption]]).
  destruct (IH _ _ Y Hs') as [Q1 [Q2 Q3]]. set (y := b0 s ⊗ x ⊕ zi0 s) in *. set (y' := b0 s ⊗ x' ⊕ zi0 t) in *.
  assert (K0 : le2 (b1 s ⊗ x ⊖ a1 s ⊗ y ⊕ zi1 s) (b1 s ⊗ x' ⊖ a1 s ⊗ y' ⊕ zi1 t)) by (apply le2_add; [apply le2_sub; [apply le2_mul|apply le2_anti]; assumption|split; [assumption|split; assumption]]).
  assert (K1 : le2 (b2 s ⊗ x ⊖ a2 s ⊗ y) (b2 s ⊗ x' ⊖ a2 s ⊗ y')) by (apply le2_sub; [apply le2_mul|apply le2_anti]; assumption).
  destruct (sosfilt_item y l) as [o l1]. destruct (sosfilt_item y' l') as [o' l1']. cbn [fst snd] in *. split; [exact Q1|]. split; [constructor; [exact Smo|exact Q2]|].
  constructor; [|exact Q3]. destruct K0 as (K0a & K0b & K0c). destruct K1 as (K1a & K1b & K1c). unfold state_not_above. cbn.
  split; [exact E0|]. split; [exact E1|]. split; [exact E2|]. split; [exact E4|]. split; [exact E5|]. split; [repeat constructor; assumption|]. split; assumption.
Qed.
Notation filt := P_Sosfilt.filt.
Lemma filt_le2 x x' l l' : Forall2 le2 x x' -> Forall (smoothing prec emax) l -> Forall2 st2 l l' -> Forall2 le2 (fst (filt x l)) (fst (filt x' l')).
Proof.
  intros H. revert l l'. induction H as [|a b x x' Ha H IH]; intros l l' Hs Hl; [constructor|]. cbn [P_Sosfilt.filt].
  destruct (item_le2 a b l l' Ha Hs Hl) as [Q1 [Q2 Q3]]. destruct (sosfilt_item a l) as [o l1]. destruct (sosfilt_item b l') as [o' l1']. cbn [fst snd] in *.
  pose proof (IH l1 l1' Q2 Q3) as Q4. destruct (P_Sosfilt.filt x l1). destruct (P_Sosfilt.filt x' l1'). cbn [fst snd] in *. constructor; assumption.
Qed.
End Ord.
