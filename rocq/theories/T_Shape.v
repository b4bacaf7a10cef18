(** Properties C88, C89: analog Chebyshev I designs and the shape of the magnitude responses. *)
From Coq Require Import List Arith ZArith Reals Permutation Sorted Lra Lia Psatz.
From Verif Require Import Base Num Trans M_Complex M_Filter M_Design Cx S_Bessel S_Design P_Bessel P_Poly P_Lp P_Sort P_Proto P_Cheb P_Iir P_Iir2 T_Iir.
Import ListNotations.
Local Open Scope R_scope.

(** ** C88: analog Chebyshev I *)
Lemma analog_critical bt wn w : valid_freqs bt wn -> In w wn ->
  let (a, b) := analog_ratio bt wn w in a * a = b * b /\ b <> 0.
Proof.
  intros Hv Hw. destruct Hv as [Hl [Hf Hso]]. destruct bt; cbn [band_arity] in Hl; destruct wn as [|w0 [|w1 [|? ?]]]; try discriminate Hl; cbn [analog_ratio nth fst snd].
  - inversion Hf; subst. destruct Hw as [<-|[]]. split; [ring|lra].
  - inversion Hf; subst. destruct Hw as [<-|[]]. split; [ring|lra].
  - inversion Hf as [|? ? H0 Hf']; subst. inversion Hf' as [|? ? H1 _]; subst. inversion Hso as [|? ? _ HF]; subst. inversion HF; subst.
    destruct Hw as [<-|[<-|[]]]; (split; [ring|apply Rmult_integral_contrapositive_currified; lra]).
  - inversion Hf as [|? ? H0 Hf']; subst. inversion Hf' as [|? ? H1 _]; subst. inversion Hso as [|? ? _ HF]; subst. inversion HF; subst.
    destruct Hw as [<-|[<-|[]]]; (split; [ring|]); cbn [pow]; [|assert (w1 * (w1 - w0) <> 0) by (apply Rmult_integral_contrapositive_currified; lra); lra].
    assert (w0 * (w1 - w0) <> 0) by (apply Rmult_integral_contrapositive_currified; lra). lra.
Qed.
Lemma analog_defined bt wn w : valid_freqs bt wn -> let (a, b) := analog_ratio bt wn w in a <> 0 \/ b <> 0.
Proof.
  intros [Hl [Hf Hso]]. destruct bt; cbn [band_arity] in Hl; destruct wn as [|w0 [|w1 [|? ?]]]; try discriminate Hl; cbn [analog_ratio nth].
  - inversion Hf; subst. right. lra.
  - inversion Hf; subst. left. lra.
  - inversion Hf as [|? ? H0 Hf']; subst. inversion Hf' as [|? ? H1 _]; subst. inversion Hso as [|? ? _ HF]; subst. inversion HF; subst.
    destruct (Req_dec w 0) as [->|Z]; [left; assert (0 < w0 * w1) by (apply Rmult_lt_0_compat; assumption); cbn [pow]; lra|right].
    apply Rmult_integral_contrapositive_currified; lra.
  - inversion Hf as [|? ? H0 Hf']; subst. inversion Hf' as [|? ? H1 _]; subst. inversion Hso as [|? ? _ HF]; subst. inversion HF; subst.
    destruct (Req_dec w 0) as [->|Z]; [right; assert (0 < w0 * w1) by (apply Rmult_lt_0_compat; assumption); cbn [pow]; lra|left].
    apply Rmult_integral_contrapositive_currified; lra.
Qed.
Lemma abs_div a b : b <> 0 -> Rabs (a / b) = Rabs a / Rabs b.
Proof. intros. unfold Rdiv. rewrite Rabs_mult, Rabs_inv. reflexivity. Qed.
Lemma abs_ratio_le a b : b <> 0 -> Rabs a <= Rabs b -> Rabs (a / b) <= 1.
Proof. intros Hb H. rewrite abs_div by exact Hb. pose proof (Rabs_pos_lt b Hb). apply (Rmult_le_reg_r (Rabs b)); [lra|]. unfold Rdiv. rewrite Rmult_assoc, Rinv_l by lra. lra. Qed.
Lemma abs_ratio_ge a b : b <> 0 -> Rabs b <= Rabs a -> 1 <= Rabs (a / b).
Proof. intros Hb H. rewrite abs_div by exact Hb. pose proof (Rabs_pos_lt b Hb). apply (Rmult_le_reg_r (Rabs b)); [lra|]. unfold Rdiv. rewrite Rmult_assoc, Rinv_l by lra. lra. Qed.

Theorem C88_cheby1_analog epsilon sort N rp wn bt :
  (0 < N)%nat -> 0 < rp -> valid_freqs bt wn ->
  let minimum := Rpower 10 (- rp / 10) in
  exists f, cheby1_dyn epsilon sort N rp wn (Some bt) (Some true) (Some OutZpk) None = Ok (DZpk f) /\
    stable_analog f /\ real_filter f /\ proper f /\ length (zk_p f) = (band_arity bt * N)%nat /\
    (forall w, let (a, b) := analog_ratio bt wn w in
       (b <> 0 -> gain_sqr f w = 1 / (1 + (Rpower 10 (rp / 10) - 1) * chebT N (a / b) ^ 2)) /\
       (b = 0 -> gain_sqr f w = 0) /\
       (Rabs a <= Rabs b -> minimum <= gain_sqr f w <= 1) /\
       (Rabs b <= Rabs a -> gain_sqr f w <= minimum)) /\
    (forall w, In w wn -> gain_sqr f w = minimum).
Proof.
  intros HN Hr Hv minimum. destruct (cheby1_setup N rp HN Hr) as [p [k [Hpr [Hs [Hc [Hl Hg]]]]]].
  destruct (analog_design epsilon sort ChebyshevI N (Some rp) None p k Hpr Hs Hc (cheby1_ripple_ok rp Hr)
              bt wn (Some bt) (Some ChebyshevI) (Some true) eq_refl eq_refl eq_refl Hv) as [f [E' [Q0 [Q1 [Q2 [Q3 Q4]]]]]].
  exists f. split; [unfold cheby1_dyn; rewrite E'; reflexivity|]. split; [exact Q2|]. split; [exact Q1|]. split; [exact Q0|]. split; [congruence|].
  pose proof (Rpower_10_gt (rp / 10) ltac:(lra)) as G1. set (P := Rpower 10 (rp / 10)) in *.
  assert (Em : minimum = 1 / P) by (unfold minimum, P; replace (- rp / 10) with (- (rp / 10)) by field; rewrite Rpower_neg; unfold Rdiv; ring).
  assert (Hm : 0 < minimum) by (rewrite Em; apply Rdiv_lt_0_compat; lra).
  assert (K : forall w, let (a, b) := analog_ratio bt wn w in
       (b <> 0 -> gain_sqr f w = 1 / (1 + (P - 1) * chebT N (a / b) ^ 2)) /\ (b = 0 -> gain_sqr f w = 0)).
  { intros w. unfold gain_sqr. rewrite Q4. destruct (analog_ratio_XY bt wn w) as [u [sg [Hu [Hsg E2]]]]. rewrite E2. cbn [fst snd].
    destruct (analog_ratio bt wn w) as [a b]. cbn [fst snd].
    pose proof (gain_of_XY p k _ _ a b u sg Hc Hu Hsg eq_refl eq_refl) as G. rewrite G. split.
    - intros Hb. rewrite gain_ratio by exact Hb. rewrite Hg. cbn [pow]. rewrite Rmult_1_r. reflexivity.
    - intros ->. apply gain_infinite. lia. }
  assert (Hle : forall T2, 0 <= T2 -> T2 <= 1 -> minimum <= 1 / (1 + (P - 1) * T2) <= 1).
  { intros T2 H0 H1. rewrite Em. assert (1 <= 1 + (P - 1) * T2 <= P) by nra. split.
    - unfold Rdiv. rewrite !Rmult_1_l. apply Rinv_le_contravar; lra.
    - apply (Rmult_le_reg_r (1 + (P - 1) * T2)); [lra|]. unfold Rdiv. rewrite Rmult_1_l, Rinv_l by lra. lra. }
  assert (Hge : forall T2, 1 <= T2 -> 1 / (1 + (P - 1) * T2) <= minimum).
  { intros T2 H1. rewrite Em. unfold Rdiv. rewrite !Rmult_1_l. apply Rinv_le_contravar; nra. }
  split.
  - intros w. specialize (K w). pose proof (analog_defined bt wn w Hv) as D.
    destruct (analog_ratio bt wn w) as [a b]. destruct K as [K1 K2]. split; [exact K1|]. split; [exact K2|]. split.
    + intros Hab. assert (Hb : b <> 0).
      { intros ->. rewrite Rabs_R0 in Hab. pose proof (Rabs_pos a). destruct D as [D|D]; [|contradiction D; reflexivity]. pose proof (Rabs_pos_lt a D). lra. }
      rewrite (K1 Hb). pose proof (abs_ratio_le a b Hb Hab). apply Hle; cbn [pow]; rewrite Rmult_1_r; [nra|apply chebT_abs_le1; assumption].
    + intros Hab. destruct (Req_dec b 0) as [Z|Hb]; [rewrite (K2 Z); lra|]. rewrite (K1 Hb). apply Hge. cbn [pow]. rewrite Rmult_1_r. apply chebT_abs_ge1, abs_ratio_ge; assumption.
  - intros w Hw. specialize (K w). pose proof (analog_critical bt wn w Hv Hw) as Q. destruct (analog_ratio bt wn w) as [a b]. destruct Q as [E2 Hb].
    rewrite (proj1 K Hb). assert (A : Rabs a = Rabs b) by (rewrite <- !sqrt_Rsqr_abs; unfold Rsqr; rewrite E2; reflexivity).
    assert (A2 : chebT N (a / b) ^ 2 = 1).
    { cbn [pow]. rewrite Rmult_1_r. pose proof (chebT_abs_le1 N (a / b) (abs_ratio_le a b Hb ltac:(lra))). pose proof (chebT_abs_ge1 N (a / b) (abs_ratio_ge a b Hb ltac:(lra))). lra. }
    rewrite A2, Em. f_equal. ring.
Qed.
Print Assumptions C88_cheby1_analog.
Example C88_hyp_met : valid_freqs Bandpass [1; 3].
Proof. split; [reflexivity|]. split; repeat constructor; lra. Qed.

(** ** C89: shape of the digital responses *)
(** [t1] is closer to the pass band's reference than [t2]: smaller prototype frequency. *)
Definition closer (bt : FilterBandType) (wn : list R) (t1 t2 : R) : Prop :=
  let (a1, b1) := band_ratio bt wn t1 in let (a2, b2) := band_ratio bt wn t2 in
  Rabs a1 * Rabs b2 < Rabs a2 * Rabs b1.
(** The angle between the critical frequencies where the prototype frequency is 0 (band-pass)
    or infinite (band-stop). *)
Definition centre (wn : list R) (c : R) : Prop :=
  0 < c < PI /\ tan (c / 2) ^ 2 = tan (PI * nth 0 wn 0 / 2) * tan (PI * nth 1 wn 0 / 2).
(** Angles in [0, pi] ordered by distance from the pass band. *)
Definition further_out (bt : FilterBandType) (wn : list R) (t1 t2 : R) : Prop :=
  match bt with
  | Lowpass => 0 <= t1 /\ t1 < t2 <= PI
  | Highpass => 0 <= t2 /\ t2 < t1 <= PI
  | Bandpass => exists c, centre wn c /\ ((c <= t1 /\ t1 < t2 <= PI) \/ (0 <= t2 /\ t2 < t1 <= c))
  | Bandstop => exists c, centre wn c /\ ((0 <= t1 /\ t1 < t2 <= c) \/ (c <= t2 /\ t2 < t1 <= PI))
  end.

Lemma half_trig t : 0 <= t <= PI -> 0 <= sin (t / 2) /\ 0 <= cos (t / 2).
Proof. intros Ht. pose proof PI_RGT_0. split; [apply sin_ge_0; lra|apply cos_ge_0; lra]. Qed.
Lemma half_diff t1 t2 : 0 <= t1 -> t1 < t2 -> t2 <= PI -> 0 < sin (t2 / 2) * cos (t1 / 2) - cos (t2 / 2) * sin (t1 / 2).
Proof. intros. rewrite <- sin_minus. pose proof PI_RGT_0. apply sin_gt_0; lra. Qed.

Section Centre.
Variables (w0 w1 : R).
Hypothesis H0 : 0 < w0 < 1.
Hypothesis H1 : 0 < w1 < 1.
Hypothesis Hlt : w0 < w1.
Hypothesis D : 0 < sin (PI * w1 / 2) * cos (PI * w0 / 2) - sin (PI * w0 / 2) * cos (PI * w1 / 2).
Let num t := sin (PI * w0 / 2) * sin (PI * w1 / 2) * cos (t / 2) ^ 2 - cos (PI * w0 / 2) * cos (PI * w1 / 2) * sin (t / 2) ^ 2.
Let den t := (sin (PI * w1 / 2) * cos (PI * w0 / 2) - sin (PI * w0 / 2) * cos (PI * w1 / 2)) * sin (t / 2) * cos (t / 2).
Lemma den_pos t : 0 <= t <= PI -> 0 <= den t.
Proof. intros Ht. destruct (half_trig t Ht). unfold den. apply Rmult_le_pos; [apply Rmult_le_pos|]; lra. Qed.
Lemma cross t1 t2 : 0 <= t1 -> t1 < t2 -> t2 <= PI -> 0 < t1 \/ t2 < PI -> num t2 * den t1 < num t1 * den t2.
Proof.
  intros A B C Hor. pose proof (half_diff t1 t2 A B C) as Hd. destruct (half_trig t1 ltac:(lra)) as [P1 P2]. destruct (half_trig t2 ltac:(lra)) as [P3 P4].
  destruct (trig01 w0 H0) as [A0 B0]. destruct (trig01 w1 H1) as [A1 B1]. unfold num, den.
  set (s0 := sin (PI * w0 / 2)) in *. set (c0 := cos (PI * w0 / 2)) in *. set (s1 := sin (PI * w1 / 2)) in *. set (c1 := cos (PI * w1 / 2)) in *.
  set (x1 := sin (t1 / 2)) in *. set (y1 := cos (t1 / 2)) in *. set (x2 := sin (t2 / 2)) in *. set (y2 := cos (t2 / 2)) in *.
  assert (Y1 : 0 < y1) by (pose proof PI_RGT_0; unfold y1; apply cos_gt_0; lra).
  assert (X2 : 0 < x2) by (pose proof PI_RGT_0; unfold x2; apply sin_gt_0; lra).
  assert (S1 : x1 * x1 + y1 * y1 = 1) by apply sc1. assert (S2 : x2 * x2 + y2 * y2 = 1) by apply sc1.
  assert (E1 : (s0 * s1 * y1 ^ 2 - c0 * c1 * x1 ^ 2) * ((s1 * c0 - s0 * c1) * x2 * y2) - (s0 * s1 * y2 ^ 2 - c0 * c1 * x2 ^ 2) * ((s1 * c0 - s0 * c1) * x1 * y1)
    = (s1 * c0 - s0 * c1) * ((s0 * s1 * (y1 * y2) + c0 * c1 * (x1 * x2)) * (x2 * y1 - y2 * x1))) by ring.
  assert (0 < s0 * s1) by (apply Rmult_lt_0_compat; assumption). assert (0 < c0 * c1) by (apply Rmult_lt_0_compat; assumption).
  assert (M : 0 < s0 * s1 * (y1 * y2) + c0 * c1 * (x1 * x2)).
  { assert (0 <= y1 * y2) by (apply Rmult_le_pos; lra). assert (0 <= x1 * x2) by (apply Rmult_le_pos; lra).
    destruct Hor as [Hor|Hor].
    - assert (0 < x1) by (pose proof PI_RGT_0; unfold x1; apply sin_gt_0; lra).
      assert (0 < x1 * x2) by (apply Rmult_lt_0_compat; lra). assert (0 < c0 * c1 * (x1 * x2)) by (apply Rmult_lt_0_compat; assumption).
      assert (0 <= s0 * s1 * (y1 * y2)) by (apply Rmult_le_pos; lra). lra.
    - assert (0 < y2) by (pose proof PI_RGT_0; unfold y2; apply cos_gt_0; lra).
      assert (0 < y1 * y2) by (apply Rmult_lt_0_compat; lra). assert (0 < s0 * s1 * (y1 * y2)) by (apply Rmult_lt_0_compat; assumption).
      assert (0 <= c0 * c1 * (x1 * x2)) by (apply Rmult_le_pos; lra). lra. }
  assert (0 < (s1 * c0 - s0 * c1) * ((s0 * s1 * (y1 * y2) + c0 * c1 * (x1 * x2)) * (x2 * y1 - y2 * x1))) by (apply Rmult_lt_0_compat; [assumption|apply Rmult_lt_0_compat; lra]).
  lra.
Qed.
Lemma den_spos t : 0 < t < PI -> 0 < den t.
Proof. intros Ht. pose proof PI_RGT_0. unfold den. apply Rmult_lt_0_compat; [apply Rmult_lt_0_compat|]; [lra|apply sin_gt_0; lra|apply cos_gt_0; lra]. Qed.
Lemma num_centre c : centre [w0; w1] c -> num c = 0.
Proof.
  intros [Hc Q]. pose proof PI_RGT_0. assert (Z : 0 < cos (c / 2)) by (apply cos_gt_0; lra).
  assert (Hv : valid_digital Bandpass [w0; w1]) by (split; [reflexivity|]; split; repeat constructor; lra).
  apply (reference_ratio Bandpass [w0; w1] c Hv). split; [lra|exact Q].
Qed.
Lemma num_left c t : centre [w0; w1] c -> 0 <= t -> t < c -> 0 < num t.
Proof.
  intros Hc A B. pose proof (num_centre c Hc) as Z. destruct Hc as [Hc _]. pose proof (cross t c A B ltac:(lra) ltac:(right; lra)) as Q. rewrite Z in Q.
  pose proof (den_spos c Hc). destruct (Rlt_le_dec 0 (num t)) as [L|L]; [exact L|]. exfalso. assert (num t * den c <= 0) by nra. lra.
Qed.
Lemma num_right c t : centre [w0; w1] c -> c < t -> t <= PI -> num t < 0.
Proof.
  intros Hc A B. pose proof (num_centre c Hc) as Z. destruct Hc as [Hc _]. pose proof (cross c t ltac:(lra) A B ltac:(left; lra)) as Q. rewrite Z in Q.
  pose proof (den_spos c Hc). destruct (Rlt_le_dec (num t) 0) as [L|L]; [exact L|]. exfalso. assert (0 <= num t * den c) by nra. lra.
Qed.
Lemma centre_left c t1 t2 : centre [w0; w1] c -> 0 <= t2 -> t2 < t1 -> t1 <= c -> Rabs (num t1) * Rabs (den t2) < Rabs (num t2) * Rabs (den t1).
Proof.
  intros Hc A B C. pose proof (proj1 Hc) as Hr. pose proof (cross t2 t1 A B ltac:(lra) ltac:(right; lra)) as Q.
  rewrite (Rabs_pos_eq (den t1)), (Rabs_pos_eq (den t2)) by (apply den_pos; lra).
  pose proof (num_left c t2 Hc A ltac:(lra)) as P2. rewrite (Rabs_pos_eq (num t2)) by lra.
  assert (P1 : 0 <= num t1) by (destruct (Req_dec t1 c) as [->|Ne]; [rewrite (num_centre c Hc); lra|left; apply (num_left c t1 Hc); lra]).
  rewrite (Rabs_pos_eq (num t1)) by exact P1. exact Q.
Qed.
Lemma centre_right c t1 t2 : centre [w0; w1] c -> c <= t1 -> t1 < t2 -> t2 <= PI -> Rabs (num t1) * Rabs (den t2) < Rabs (num t2) * Rabs (den t1).
Proof.
  intros Hc A B C. pose proof (proj1 Hc) as Hr. pose proof (cross t1 t2 ltac:(lra) B C ltac:(left; lra)) as Q.
  rewrite (Rabs_pos_eq (den t1)), (Rabs_pos_eq (den t2)) by (apply den_pos; lra).
  pose proof (num_right c t2 Hc ltac:(lra) C) as P2. rewrite (Rabs_left (num t2)) by lra.
  assert (P1 : num t1 <= 0) by (destruct (Req_dec t1 c) as [->|Ne]; [rewrite (num_centre c Hc); lra|left; apply (num_right c t1 Hc); lra]).
  rewrite (Rabs_left1 (num t1)) by exact P1. lra.
Qed.
End Centre.

Lemma further_closer bt wn t1 t2 : valid_digital bt wn -> further_out bt wn t1 t2 -> closer bt wn t1 t2.
Proof.
  intros Hv Hf. destruct bt; cbn [further_out] in Hf.
  - destruct (valid1 _ _ Hv eq_refl) as [w [-> Hw]]. destruct (trig01 w Hw) as [A B]. unfold closer. cbn [band_ratio nth].
    destruct Hf as [F1 [F2 F3]]. pose proof (half_diff t1 t2 F1 F2 F3) as Hd. destruct (half_trig t1 ltac:(lra)) as [P1 P2]. destruct (half_trig t2 ltac:(lra)) as [P3 P4].
    rewrite !Rabs_mult, !Rabs_pos_eq by lra. assert (0 < cos (PI * w / 2) * sin (PI * w / 2)) by (apply Rmult_lt_0_compat; lra). nra.
  - destruct (valid1 _ _ Hv eq_refl) as [w [-> Hw]]. destruct (trig01 w Hw) as [A B]. unfold closer. cbn [band_ratio nth].
    destruct Hf as [F1 [F2 F3]]. pose proof (half_diff t2 t1 F1 F2 F3) as Hd. destruct (half_trig t1 ltac:(lra)) as [P1 P2]. destruct (half_trig t2 ltac:(lra)) as [P3 P4].
    rewrite !Rabs_mult, !Rabs_pos_eq by lra. assert (0 < cos (PI * w / 2) * sin (PI * w / 2)) by (apply Rmult_lt_0_compat; lra). nra.
  - destruct (valid2 _ _ Hv eq_refl) as [w0 [w1 [-> [H0 [H1 [Hlt D]]]]]]. unfold closer. cbn [band_ratio nth].
    destruct Hf as [c [Hc [[F1 [F2 F3]]|[F1 [F2 F3]]]]]; [apply (centre_right w0 w1 H0 H1 Hlt D c)|apply (centre_left w0 w1 H0 H1 Hlt D c)]; assumption.
  - destruct (valid2 _ _ Hv eq_refl) as [w0 [w1 [-> [H0 [H1 [Hlt D]]]]]]. unfold closer. cbn [band_ratio nth].
    rewrite (Rmult_comm (Rabs (_ * _ * _))), (Rmult_comm (Rabs (_ * _ * _)) (Rabs (_ - _))).
    destruct Hf as [c [Hc [[F1 [F2 F3]]|[F1 [F2 F3]]]]]; [apply (centre_left w0 w1 H0 H1 Hlt D c)|apply (centre_right w0 w1 H0 H1 Hlt D c)]; assumption.
Qed.

Lemma closer_ratio a1 b1 a2 b2 : Rabs a1 * Rabs b2 < Rabs a2 * Rabs b1 -> b1 <> 0 /\ (b2 <> 0 -> Rabs (a1 / b1) < Rabs (a2 / b2)).
Proof.
  intros Q. pose proof (Rabs_pos a1). pose proof (Rabs_pos a2). pose proof (Rabs_pos b1). pose proof (Rabs_pos b2).
  assert (B1 : b1 <> 0) by (intros ->; rewrite Rabs_R0 in Q; assert (0 <= Rabs a1 * Rabs b2) by (apply Rmult_le_pos; lra); lra).
  split; [exact B1|]. intros B2. pose proof (Rabs_pos_lt b1 B1). pose proof (Rabs_pos_lt b2 B2). rewrite !abs_div by assumption.
  apply (Rmult_lt_reg_r (Rabs b1 * Rabs b2)); [apply Rmult_lt_0_compat; assumption|].
  replace (Rabs a1 / Rabs b1 * (Rabs b1 * Rabs b2)) with (Rabs a1 * Rabs b2) by (field; lra).
  replace (Rabs a2 / Rabs b2 * (Rabs b1 * Rabs b2)) with (Rabs a2 * Rabs b1) by (field; lra). exact Q.
Qed.
Lemma pow_lt_mono x y n : 0 <= x -> x < y -> (0 < n)%nat -> x ^ n < y ^ n.
Proof.
  intros Hx Hxy. destruct n as [|n]; [lia|]. intros _. induction n as [|n IH]; [cbn; lra|]. cbn [pow] in *. set (p := x * x ^ n) in *. set (q := y * y ^ n) in *.
  assert (0 <= p) by (apply Rmult_le_pos; [lra|apply pow_le; lra]). nra.
Qed.
Lemma inv_lt x y : 0 < x -> x < y -> 1 / y < 1 / x.
Proof. intros. unfold Rdiv. rewrite !Rmult_1_l. apply Rinv_lt_contravar; [apply Rmult_lt_0_compat; lra|assumption]. Qed.

(** Butterworth: the gain falls strictly from the reference outwards. *)
Theorem C89_butter_monotone epsilon sort N wn bt analog fs :
  (0 < N)%nat -> analog <> Some true -> valid_digital bt (normalised wn fs) ->
  exists f, butter_dyn epsilon sort N wn (Some bt) analog (Some OutZpk) fs = Ok (DZpk f) /\
    (forall t1 t2, further_out bt (normalised wn fs) t1 t2 -> dgain_sqr f t2 < dgain_sqr f t1).
Proof.
  intros HN Ha Hv. destruct (C57_butter_digital epsilon sort N wn bt analog fs HN Ha Hv) as [f [Ef [G _]]]. exists f. split; [exact Ef|].
  intros t1 t2 Hf. apply (further_closer bt _ t1 t2 Hv) in Hf. unfold closer in Hf. pose proof (G t1) as G1. pose proof (G t2) as G2.
  destruct (band_ratio bt (normalised wn fs) t1) as [a1 b1]. destruct (band_ratio bt (normalised wn fs) t2) as [a2 b2].
  destruct (closer_ratio _ _ _ _ Hf) as [B1 Q]. rewrite (proj1 G1 B1). pose proof (even_pow_nonneg (a1 / b1) N) as E1.
  destruct (Req_dec b2 0) as [Z|B2]; [rewrite (proj2 G2 Z); apply Rdiv_lt_0_compat; lra|]. rewrite (proj1 G2 B2). specialize (Q B2).
  apply inv_lt; [lra|]. assert (AP : forall x, x ^ (2 * N) = Rabs x ^ (2 * N)) by (intros x; rewrite !pow_mult, pow2_abs; reflexivity).
  rewrite (AP (a1 / b1)), (AP (a2 / b2)). apply Rplus_lt_compat_l, pow_lt_mono; [apply Rabs_pos|exact Q|lia].
Qed.
Print Assumptions C89_butter_monotone.

(** Every prototype frequency occurs at some angle, so pass band, stop band and every level
    between them are non-empty. *)
Theorem C89_band_onto bt wn x : valid_digital bt wn -> 0 <= x ->
  exists theta, 0 <= theta <= PI /\ snd (band_ratio bt wn theta) <> 0 /\ fst (band_ratio bt wn theta) / snd (band_ratio bt wn theta) = x.
Proof.
  intros Hv Hx. pose proof PI_RGT_0 as HP.
  assert (Go : forall O, 0 < O -> let O0 := tan (PI * nth 0 wn 0 / 2) in let O1 := tan (PI * nth 1 wn 0 / 2) in
    match bt with Lowpass => True | Highpass => True | Bandpass => True | Bandstop => O0 * O1 - O ^ 2 <> 0 end ->
    match bt with
    | Lowpass => O / O0
    | Highpass => O0 / O
    | Bandpass => (O0 * O1 - O ^ 2) / (O * (O1 - O0))
    | Bandstop => O * (O1 - O0) / (O0 * O1 - O ^ 2)
    end = x ->
    exists theta, 0 <= theta <= PI /\ snd (band_ratio bt wn theta) <> 0 /\ fst (band_ratio bt wn theta) / snd (band_ratio bt wn theta) = x).
  { intros O HO O0 O1 Hs Ex. exists (2 * atan O). pose proof (atan_bound O) as AB.
    assert (A0 : 0 < atan O) by (rewrite <- atan_0; apply atan_increasing; exact HO).
    split; [lra|]. assert (Hh : 2 * atan O / 2 = atan O) by field.
    assert (Hc : 0 < cos (atan O)) by (apply cos_gt_0; lra). assert (Hsn : 0 < sin (atan O)) by (apply sin_gt_0; lra).
    assert (Nz : snd (band_ratio bt wn (2 * atan O)) <> 0).
    { destruct bt; cbn [band_ratio snd]; rewrite Hh.
      - destruct (valid1 _ _ Hv eq_refl) as [w [-> Hw]]. destruct (trig01 w Hw). cbn [nth]. apply Rmult_integral_contrapositive_currified; lra.
      - destruct (valid1 _ _ Hv eq_refl) as [w [-> Hw]]. destruct (trig01 w Hw). cbn [nth]. apply Rmult_integral_contrapositive_currified; lra.
      - destruct (valid2 _ _ Hv eq_refl) as [w0 [w1 [-> [H0 [H1 [Hlt D]]]]]]. cbn [nth]. repeat apply Rmult_integral_contrapositive_currified; lra.
      - destruct (valid2 _ _ Hv eq_refl) as [w0 [w1 [-> [H0 [H1 [Hlt D]]]]]]. destruct (trig01 w0 H0). destruct (trig01 w1 H1). unfold O0, O1 in Hs. cbn [nth] in *.
        intros Q. apply Hs. rewrite <- (tan_atan O). unfold tan.
        apply (Rmult_eq_reg_r (cos (PI * w0 / 2) * cos (PI * w1 / 2) * cos (atan O) ^ 2)).
        + rewrite Rmult_0_l, <- Q. field. lra.
        + repeat apply Rmult_integral_contrapositive_currified; try lra. }
    split; [exact Nz|]. pose proof (C57_band_ratio_tan bt wn (2 * atan O) Hv) as Q. rewrite Hh, tan_atan in Q. rewrite (Q ltac:(lra) Nz). exact Ex. }
  assert (PT : forall w, 0 < w < 1 -> 0 < tan (PI * w / 2)) by (intros w Hw; destruct (trig01 w Hw); unfold tan; apply Rdiv_lt_0_compat; lra).
  destruct bt.
  - destruct (valid1 _ _ Hv eq_refl) as [w [-> Hw]]. cbn [nth] in Go. pose proof (PT w Hw). destruct (Req_dec x 0) as [->|Nx].
    + exists 0. split; [lra|]. destruct (trig01 w Hw). cbn [band_ratio fst snd nth]. replace (0 / 2) with 0 by field. rewrite sin_0, cos_0. split; [lra|]. unfold Rdiv. ring.
    + apply (Go (x * tan (PI * w / 2))); [apply Rmult_lt_0_compat; lra|exact I|]. field. lra.
  - destruct (valid1 _ _ Hv eq_refl) as [w [-> Hw]]. cbn [nth] in Go. pose proof (PT w Hw). destruct (Req_dec x 0) as [->|Nx].
    + exists PI. split; [lra|]. destruct (trig01 w Hw). cbn [band_ratio fst snd nth]. rewrite sin_PI2, cos_PI2. split; [lra|]. unfold Rdiv. ring.
    + apply (Go (tan (PI * w / 2) / x)); [apply Rdiv_lt_0_compat; lra|exact I|]. field. lra.
  - destruct (valid2 _ _ Hv eq_refl) as [w0 [w1 [-> [H0 [H1 [Hlt D]]]]]]. cbn [nth] in Go. pose proof (PT w0 H0) as P0. pose proof (PT w1 H1) as P1.
    assert (DT : 0 < tan (PI * w1 / 2) - tan (PI * w0 / 2)).
    { destruct (trig01 w0 H0). destruct (trig01 w1 H1). unfold tan. replace (sin (PI * w1 / 2) / cos (PI * w1 / 2) - sin (PI * w0 / 2) / cos (PI * w0 / 2)) with ((sin (PI * w1 / 2) * cos (PI * w0 / 2) - sin (PI * w0 / 2) * cos (PI * w1 / 2)) / (cos (PI * w1 / 2) * cos (PI * w0 / 2))) by (field; lra).
      apply Rdiv_lt_0_compat; [lra|apply Rmult_lt_0_compat; lra]. }
    set (O0 := tan (PI * w0 / 2)) in *. set (O1 := tan (PI * w1 / 2)) in *. set (d := O1 - O0) in *. clearbody d.
    assert (HM : 0 < O0 * O1) by (apply Rmult_lt_0_compat; lra). set (m := O0 * O1) in *. clearbody m.
    assert (HR : 0 <= x * d * (x * d) + 4 * m) by nra. pose proof (sqrt_sqrt _ HR) as SS. pose proof (sqrt_pos (x * d * (x * d) + 4 * m)) as SP. set (r := sqrt _) in *. clearbody r.
    assert (x * d < r) by (assert (0 <= x * d) by (apply Rmult_le_pos; lra); nra).
    apply (Go ((r - x * d) / 2)); [lra|exact I|]. apply (Rmult_eq_reg_r ((r - x * d) / 2 * d)); [|apply Rmult_integral_contrapositive_currified; lra].
    unfold Rdiv at 1. rewrite Rmult_assoc, Rinv_l, Rmult_1_r; [|apply Rmult_integral_contrapositive_currified; lra]. cbn [pow]. nra.
  - destruct (valid2 _ _ Hv eq_refl) as [w0 [w1 [-> [H0 [H1 [Hlt D]]]]]]. cbn [nth] in Go. pose proof (PT w0 H0) as P0. pose proof (PT w1 H1) as P1.
    destruct (Req_dec x 0) as [->|Nx].
    { exists 0. split; [lra|]. destruct (trig01 w0 H0). destruct (trig01 w1 H1). cbn [band_ratio fst snd nth]. replace (0 / 2) with 0 by field. rewrite sin_0, cos_0.
      assert (0 < sin (PI * w0 / 2) * sin (PI * w1 / 2)) by (apply Rmult_lt_0_compat; lra). split; [cbn [pow]; lra|]. unfold Rdiv. ring. }
    assert (DT : 0 < tan (PI * w1 / 2) - tan (PI * w0 / 2)).
    { destruct (trig01 w0 H0). destruct (trig01 w1 H1). unfold tan. replace (sin (PI * w1 / 2) / cos (PI * w1 / 2) - sin (PI * w0 / 2) / cos (PI * w0 / 2)) with ((sin (PI * w1 / 2) * cos (PI * w0 / 2) - sin (PI * w0 / 2) * cos (PI * w1 / 2)) / (cos (PI * w1 / 2) * cos (PI * w0 / 2))) by (field; lra).
      apply Rdiv_lt_0_compat; [lra|apply Rmult_lt_0_compat; lra]. }
    set (O0 := tan (PI * w0 / 2)) in *. set (O1 := tan (PI * w1 / 2)) in *. set (d := O1 - O0) in *. clearbody d.
    assert (HM : 0 < O0 * O1) by (apply Rmult_lt_0_compat; lra). set (m := O0 * O1) in *. clearbody m.
    assert (Xp : 0 < x) by lra.
    assert (HR : 0 <= d * d + 4 * (x * x) * m) by (assert (0 < x * x * m) by (apply Rmult_lt_0_compat; [apply Rmult_lt_0_compat|]; lra); nra).
    pose proof (sqrt_sqrt _ HR) as SS. pose proof (sqrt_pos (d * d + 4 * (x * x) * m)) as SP. set (r := sqrt _) in *. clearbody r.
    assert (dr : d < r) by (assert (0 < x * x * m) by (apply Rmult_lt_0_compat; [apply Rmult_lt_0_compat|]; lra); nra).
    set (O := (r - d) / (2 * x)). assert (OP : 0 < O) by (unfold O; apply Rdiv_lt_0_compat; lra).
    assert (EO : x * (m - O ^ 2) = O * d).
    { assert (E2 : O * (2 * x) = r - d) by (unfold O; field; lra). apply (Rmult_eq_reg_r (4 * x)); [|lra]. cbn [pow].
      replace (x * (m - O * (O * 1)) * (4 * x)) with (4 * (x * x) * m - (O * (2 * x)) * (O * (2 * x))) by ring.
      replace (O * d * (4 * x)) with (2 * ((O * (2 * x)) * d)) by ring. rewrite E2. lra. }
    assert (Nz : m - O ^ 2 <> 0) by (intros Q; rewrite Q in EO; assert (0 < O * d) by (apply Rmult_lt_0_compat; lra); lra).
    apply (Go O); [exact OP|exact Nz|]. rewrite <- EO. field. exact Nz.
Qed.
Print Assumptions C89_band_onto.

Lemma chebT_lt n x y : (0 < n)%nat -> 1 <= x -> x < y -> chebT n x < chebT n y.
Proof.
  intros Hn Hx Hy.
  assert (Q : forall n, 1 <= chebT n x /\ chebT n x <= chebT n y /\ chebT (S n) x < chebT (S n) y /\ 0 <= chebT (S n) x - chebT n x <= chebT (S n) y - chebT n y).
  { induction n0 as [|m [I1 [I2 [I3 [I4 I5]]]]]; [cbn [chebT]; lra|].
    assert (1 <= chebT (S m) x) by lra. split; [lra|]. split; [lra|]. rewrite !chebT_SS.
    set (p := chebT (S m) x) in *. set (q := chebT (S m) y) in *. set (p0 := chebT m x) in *. set (q0 := chebT m y) in *.
    assert (2 * (x - 1) * p <= 2 * (y - 1) * q) by (apply Rmult_le_compat; lra).
    assert (0 <= 2 * (x - 1) * p) by (apply Rmult_le_pos; lra). split; [|split]; lra. }
  destruct n as [|n]; [lia|]. apply Q.
Qed.
Lemma chebT_sq_lt n x y : (0 < n)%nat -> 1 <= Rabs x -> Rabs x < Rabs y -> chebT n x ^ 2 < chebT n y ^ 2.
Proof.
  intros Hn Hx Hy. assert (E : forall z, chebT n z ^ 2 = chebT n (Rabs z) ^ 2).
  { intros z. unfold Rabs. destruct (Rcase_abs z); [|reflexivity]. cbn [pow]. rewrite !Rmult_1_r. symmetry. apply chebT_even_sq. }
  rewrite (E x), (E y). pose proof (chebT_lt n _ _ Hn Hx Hy). pose proof (chebT_ge1 n _ Hx). cbn [pow]. nra.
Qed.
Lemma cos_kPI k : cos (INR k * PI) ^ 2 = 1.
Proof.
  induction k as [|k IH]; [cbn [INR]; rewrite Rmult_0_l, cos_0; ring|]. rewrite S_INR. replace ((INR k + 1) * PI) with (INR k * PI + PI) by ring. rewrite neg_cos.
  replace ((- cos (INR k * PI)) ^ 2) with (cos (INR k * PI) ^ 2) by ring. exact IH.
Qed.
Lemma cos_odd_half k : cos ((2 * INR k + 1) * PI / 2) = 0.
Proof.
  induction k as [|k IH]; [cbn [INR]; replace ((2 * 0 + 1) * PI / 2) with (PI / 2) by field; apply cos_PI2|].
  rewrite S_INR. replace ((2 * (INR k + 1) + 1) * PI / 2) with ((2 * INR k + 1) * PI / 2 + PI) by field. rewrite neg_cos, IH. ring.
Qed.

(** Chebyshev I: ripple between -rp dB and 0 dB, both attained; strictly falling outside. *)
Theorem C89_cheby1_shape epsilon sort N rp wn bt analog fs :
  (0 < N)%nat -> 0 < rp -> analog <> Some true -> valid_digital bt (normalised wn fs) ->
  let minimum := Rpower 10 (- rp / 10) in
  exists f, cheby1_dyn epsilon sort N rp wn (Some bt) analog (Some OutZpk) fs = Ok (DZpk f) /\
    (forall theta, reference bt (normalised wn fs) theta -> dgain_sqr f theta = if Nat.even N then minimum else 1) /\
    (forall k, (k <= N)%nat -> forall theta, let (a, b) := band_ratio bt (normalised wn fs) theta in
       b <> 0 -> a / b = cos (INR k * PI / INR N) -> dgain_sqr f theta = minimum) /\
    (forall k, (k < N)%nat -> forall theta, let (a, b) := band_ratio bt (normalised wn fs) theta in
       b <> 0 -> a / b = cos ((2 * INR k + 1) * PI / (2 * INR N)) -> dgain_sqr f theta = 1) /\
    (forall t1 t2, further_out bt (normalised wn fs) t1 t2 ->
       (let (a, b) := band_ratio bt (normalised wn fs) t1 in Rabs b <= Rabs a) -> dgain_sqr f t2 < dgain_sqr f t1).
Proof.
  intros HN Hr Ha Hv minimum. destruct (C64_cheby1_digital epsilon sort N rp wn bt analog fs HN Hr Ha Hv) as [f [Ef [_ [_ [_ [_ [G _]]]]]]].
  exists f. split; [exact Ef|]. pose proof (Rpower_10_gt (rp / 10) ltac:(lra)) as G1. set (P := Rpower 10 (rp / 10)) in *.
  assert (Em : minimum = 1 / P) by (unfold minimum, P; replace (- rp / 10) with (- (rp / 10)) by field; rewrite Rpower_neg; unfold Rdiv; ring).
  assert (NN : 0 < INR N) by (apply lt_0_INR; exact HN). split; [|split; [|split]].
  - intros theta Ht. specialize (G theta). pose proof (reference_ratio bt _ theta Hv Ht) as Z. pose proof (C57_band_ratio_defined bt _ theta Hv) as D.
    destruct (band_ratio bt (normalised wn fs) theta) as [a b]. cbn [fst snd] in *. subst a. destruct D as [D|D]; [contradiction D; reflexivity|].
    rewrite (proj1 G D). replace (0 / b) with 0 by (field; exact D). pose proof (chebT_0 N) as C0. replace (chebT N 0 ^ 2) with (chebT N 0 * chebT N 0) by ring. rewrite C0.
    destruct (Nat.even N); [rewrite Em|]; field; lra.
  - intros k Hk theta. specialize (G theta). destruct (band_ratio bt (normalised wn fs) theta) as [a b]. intros Hb Eab. rewrite (proj1 G Hb), Eab, chebT_cos.
    replace (INR N * (INR k * PI / INR N)) with (INR k * PI) by (field; lra). rewrite cos_kPI, Em. f_equal. ring.
  - intros k Hk theta. specialize (G theta). destruct (band_ratio bt (normalised wn fs) theta) as [a b]. intros Hb Eab. rewrite (proj1 G Hb), Eab, chebT_cos.
    replace (INR N * ((2 * INR k + 1) * PI / (2 * INR N))) with ((2 * INR k + 1) * PI / 2) by (field; lra). rewrite cos_odd_half. field.
  - intros t1 t2 Hf. apply (further_closer bt _ t1 t2 Hv) in Hf. unfold closer in Hf. pose proof (G t1) as Q1. pose proof (G t2) as Q2.
    destruct (band_ratio bt (normalised wn fs) t1) as [a1 b1]. destruct (band_ratio bt (normalised wn fs) t2) as [a2 b2]. intros Hab.
    destruct (closer_ratio _ _ _ _ Hf) as [B1 Q]. rewrite (proj1 Q1 B1). set (T := chebT N (a1 / b1)).
    assert (T2 : 0 <= T ^ 2) by (cbn [pow]; nra). assert (0 <= (P - 1) * T ^ 2) by (apply Rmult_le_pos; lra).
    destruct (Req_dec b2 0) as [Z|B2]; [rewrite (proj1 (proj2 Q2) Z); apply Rdiv_lt_0_compat; lra|]. rewrite (proj1 Q2 B2). specialize (Q B2).
    apply inv_lt; [lra|]. apply Rplus_lt_compat_l, Rmult_lt_compat_l; [lra|]. apply chebT_sq_lt; [exact HN|apply abs_ratio_ge; assumption|exact Q].
Qed.
Print Assumptions C89_cheby1_shape.
Example C89_hyp_met : exists c, centre [1 / 4; 3 / 4] c /\ further_out Bandpass [1 / 4; 3 / 4] c PI /\ valid_digital Bandpass (normalised [1 / 4; 3 / 4] None).
Proof.
  exists (PI / 2). pose proof PI_RGT_0. assert (C : centre [1 / 4; 3 / 4] (PI / 2)).
  { split; [lra|]. cbn [nth]. replace (PI / 2 / 2) with (PI / 4) by field. rewrite tan_PI4. replace (PI * (3 / 4) / 2) with (PI / 2 - PI * (1 / 4) / 2) by field.
    destruct (trig01 (1 / 4) ltac:(lra)). unfold tan. rewrite sin_shift, cos_shift. field. lra. }
  split; [exact C|]. split; [exists (PI / 2); split; [exact C|left; lra]|]. split; [reflexivity|]. split; repeat constructor; cbn; lra.
Qed.
