(** Rounding in the running filter: the output of sosfilt at an IEEE 754 format stays
    within a fixed multiple of the unit roundoff of the output in real arithmetic, however
    long the signal is. *)
From Coq Require Import Reals ZArith SpecFloat List Lia Lra.
From Verif Require Import Base Num M_Complex M_Filter Cx S_Design S_Filter S_Stable S_Float P_Float P_FloatStats P_Sosfilt P_Sos P_Stable P_FloatFilt.
Import ListNotations.
Local Open Scope R_scope.

Lemma filt_nil_state {F} {NF : Num F} (l : list (Sos F)) : filt [] l = ([], l).
Proof. reflexivity. Qed.
Lemma nth_map_fval x k : nth k (map fval x) 0 = fval (nth k x (S754_zero false)).
Proof. change 0 with (fval (S754_zero false)). apply map_nth. Qed.
Lemma stable_poles l : stable_sections l -> exists r, 0 <= r < 1 /\ Forall (poles_within r) l.
Proof.
  intros [HA Hs]. destruct (cascade_roots l HA Hs) as [r [Hr Q]]. exists r. split; [lra|]. specialize (Q r (Rle_refl r)).
  clear - Q. induction Q as [|s l [p [q [A1 [A2 [A3 A4]]]]] HF IH]; constructor; [exists p, q; repeat split; try assumption; lra|exact IH].
Qed.
Lemma filt_link prec emax sz lf (x : list spec_float) :
  exists yf lf' y l',
    @sosfilt_dyn _ (SFNum prec emax sz) x lf = Ok (yf, lf') /\ sosfilt_dyn (map fval x) (map sos_val lf) = Ok (y, l') /\
    length yf = length x /\ length y = length x /\
    forall n, (n < length x)%nat ->
      nth n yf (S754_zero false) = @gcout _ (SFNum prec emax sz) lf (fun k => nth k x (S754_zero false)) n /\
      nth n y 0 = cout (map sos_val lf) (fun k => fval (nth k x (S754_zero false))) n.
Proof.
  exists (fst (@filt _ (SFNum prec emax sz) x lf)), (snd (@filt _ (SFNum prec emax sz) x lf)), (fst (filt (map fval x) (map sos_val lf))), (snd (filt (map fval x) (map sos_val lf))).
  split; [rewrite sosfilt_dyn_pure, <- surjective_pairing; reflexivity|].
  split; [rewrite sosfilt_dyn_pure, <- surjective_pairing; reflexivity|].
  split; [apply filt_length_out|]. split; [rewrite filt_length_out; apply map_length|].
  intros n Hn. split.
  - apply gfilt_cout. exact Hn.
  - rewrite filt_cout by (rewrite map_length; exact Hn). apply cout_local. intros k Hk. apply nth_map_fval.
Qed.

(** * C77 *)
(** One constant K, depending on the coefficients only, bounds the rounding error at every
    sample of every signal of every length in every format. *)
Theorem C77_filter_rounding (l : list (Sos R)) : stable_sections l -> exists K, 1 <= K /\
  forall prec emax szero lf (x : list spec_float) X,
  (1 < prec < emax)%Z ->
  same_coefs (map sos_val lf) l ->
  Forall (finite_sos prec emax) lf -> Forall (finite prec emax) x -> 0 <= X ->
  Forall (fun v => Rabs (fval v) <= X) x ->
  Forall (fun s => Rabs (fval (zi0 s)) <= X /\ Rabs (fval (zi1 s)) <= X) lf ->
  K * uround prec <= 1 -> K * (X + ftiny prec emax) <= fmax prec emax ->
  exists yf lf' y l',
    @sosfilt_dyn _ (SFNum prec emax szero) x lf = Ok (yf, lf') /\
    sosfilt_dyn (map fval x) (map sos_val lf) = Ok (y, l') /\
    length yf = length x /\ length y = length x /\ Forall (finite prec emax) yf /\
    forall n, (n < length x)%nat ->
      Rabs (fval (nth n yf (S754_zero false)) - nth n y 0) <= K * (uround prec * X + ftiny prec emax).
Proof.
  intros Hs. destruct (stable_poles l Hs) as [r [Hr HP]]. destruct (cascade_err l r Hr HP) as [K [HK Q]]. exists K. split; [exact HK|].
  intros prec emax sz lf x X Hpe Hc Fl Fx HX Bx St Hu HM.
  destruct (filt_link prec emax sz lf x) as [yf [lf' [y [l' (E1 & E2 & L1 & L2 & N)]]]].
  exists yf, lf', y, l'. split; [exact E1|]. split; [exact E2|]. split; [exact L1|]. split; [exact L2|].
  assert (A : forall n, (n < length x)%nat -> finite prec emax (nth n yf (S754_zero false)) /\
    Rabs (fval (nth n yf (S754_zero false)) - nth n y 0) <= K * (uround prec * X + ftiny prec emax)).
  { intros n Hn. destruct (N n Hn) as [-> ->].
    destruct (Q prec emax sz lf (fun k => nth k x (S754_zero false)) X (length x) Hpe) with (n := n) as (R1 & _ & R3); try assumption.
    - intros k Hk. rewrite Forall_forall in Fx, Bx. split; [apply Fx|apply Bx]; apply nth_In; exact Hk.
    - split; [exact R1|exact R3]. }
  split.
  - apply Forall_forall. intros v Hv. destruct (In_nth _ _ (S754_zero false) Hv) as [n [Hn <-]]. apply A. lia.
  - intros n Hn. apply A. exact Hn.
Qed.
Print Assumptions C77_filter_rounding.

(** The constant for one section, explicitly: poles of modulus at most r, coefficients of
    magnitude at most C. *)
Theorem C77_section_rounding prec emax szero s (x : list spec_float) r C X :
  (1 < prec < emax)%Z -> 0 <= r < 1 -> 1 <= C ->
  (forall z, rpoly_at [1; fval (a1 s); fval (a2 s)] z = C0 -> cnorm z <= r) ->
  Forall (fun c => Rabs (fval c) <= C) [b0 s; b1 s; b2 s; a1 s; a2 s] ->
  finite_sos prec emax s -> Forall (finite prec emax) x ->
  Forall (fun v => Rabs (fval v) <= X) (zi0 s :: zi1 s :: x) ->
  let K := 12288 * C ^ 5 / (1 - r) ^ 4 in
  K * uround prec <= 1 -> K * (X + ftiny prec emax) <= fmax prec emax ->
  exists yf lf' y l',
    @sosfilt_dyn _ (SFNum prec emax szero) x [s] = Ok (yf, lf') /\
    sosfilt_dyn (map fval x) [sos_val s] = Ok (y, l') /\
    length yf = length x /\ length y = length x /\ Forall (finite prec emax) yf /\
    forall n, (n < length x)%nat ->
      Rabs (fval (nth n yf (S754_zero false)) - nth n y 0) <= K * (uround prec * X + ftiny prec emax).
Proof.
  intros Hpe Hr HC Hp Hc Fs Fx Bx K Hu HM.
  assert (EK : Ksec r C = K) by (unfold Ksec, gain, K; field; lra). rewrite <- EK in *. clear EK K.
  destruct (filt_link prec emax szero [s] x) as [yf [lf' [y [l' (E1 & E2 & L1 & L2 & N)]]]].
  exists yf, lf', y, l'. split; [exact E1|]. split; [exact E2|]. split; [exact L1|]. split; [exact L2|].
  assert (A : forall n, (n < length x)%nat -> finite prec emax (nth n yf (S754_zero false)) /\
    Rabs (fval (nth n yf (S754_zero false)) - nth n y 0) <= Ksec r C * (uround prec * X + ftiny prec emax)).
  { intros n Hn. destruct (N n Hn) as [-> ->]. cbn [map gcout cout].
    unfold finite_sos in Fs. rewrite Forall_forall in Hc, Bx, Fs. pose proof Fx as Fx'. rewrite Forall_forall in Fx'.
    destruct (section_err prec emax Hpe szero s (fun k => nth k x (S754_zero false)) r C X (length x)) with (n := n) as (R1 & _ & R3); try assumption.
    - destruct (quadratic_roots (fval (a1 s)) (fval (a2 s))) as [p [q [Q1 [Q2 [Q3 Q4]]]]]. exists p, q. cbn [sos_val M_Filter.a1 M_Filter.a2].
      split; [exact Q1|]. split; [exact Q2|]. 
      split; apply Hp; rewrite rpoly3; change (RtoC 1) with C1; [rewrite <- Q3|rewrite <- Q4]; ring.
    - unfold coef_fin. repeat split; apply Fs; cbn; tauto.
    - unfold coef_le. cbn [sos_val M_Filter.b0 M_Filter.b1 M_Filter.b2 M_Filter.a1 M_Filter.a2]. repeat split; apply Hc; cbn; tauto.
    - apply Fs; cbn; tauto.
    - apply Fs; cbn; tauto.
    - apply Bx; cbn; tauto.
    - apply Bx; cbn; tauto.
    - intros k Hk. split; [apply Fx'|apply Bx; right; right]; apply nth_In; exact Hk.
    - split; [exact R1|exact R3]. }
  split.
  - apply Forall_forall. intros v Hv. destruct (In_nth _ _ (S754_zero false) Hv) as [n [Hn <-]]. apply A. lia.
  - intros n Hn. apply A. exact Hn.
Qed.
Print Assumptions C77_section_rounding.

(** Concrete case: a low-pass section 1/4 (1 + 2 z^-1 + z^-2) / (1 - z^-1/4 + z^-2/8) in
    f32, from rest.  For every signal of floats in [-1, 1] the hypotheses hold with r = 1/2
    and C = 1, so the error never exceeds 0.0118. *)
Definition ex_section : Sos spec_float :=
  let q k e := S754_finite false (Pos.shiftl 1 23) (k - 23 + e)%Z in
  mkSos (q 0 (-2))%Z (q 0 (-1))%Z (q 0 (-2))%Z (q 0 0)%Z (S754_finite true (Pos.shiftl 1 23) (-25)%Z) (q 0 (-3))%Z (S754_zero false) (S754_zero false).
Lemma q_val k : fval (S754_finite false (Pos.shiftl 1 23) (-23 - Z.of_nat k)) = / 2 ^ k.
Proof.
  unfold fval. replace (IZR (Zpos (Pos.shiftl 1 23))) with (powerRZ 2 23) by (change 23%Z with (Z.of_nat 23); rewrite <- pow_powerRZ; change (Pos.shiftl 1 23) with 8388608%positive; cbn [pow]; lra).
  rewrite Rmult_1_l, <- powerRZ_add by lra. replace (23 + (-23 - Z.of_nat k))%Z with (- Z.of_nat k)%Z by lia.
  rewrite powerRZ_neg'. rewrite <- pow_powerRZ. reflexivity.
Qed.
Example C77_ex (x : list spec_float) : Forall (finite 24 128) x -> Forall (fun v => Rabs (fval v) <= 1) x ->
  exists yf lf' y l',
    @sosfilt_dyn _ (SFNum 24 128 false) x [ex_section] = Ok (yf, lf') /\
    sosfilt_dyn (map fval x) [mkSos (/4) (/2) (/4) 1 (-/4) (/8) 0 0] = Ok (y, l') /\
    length yf = length x /\ length y = length x /\ Forall (finite 24 128) yf /\
    forall n, (n < length x)%nat -> Rabs (fval (nth n yf (S754_zero false)) - nth n y 0) <= 118 / 10000.
Proof.
  intros Fx Bx.
  assert (V : sos_val ex_section = mkSos (/4) (/2) (/4) 1 (-/4) (/8) 0 0).
  { unfold sos_val, ex_section. cbn [M_Filter.b0 M_Filter.b1 M_Filter.b2 M_Filter.a0 M_Filter.a1 M_Filter.a2 M_Filter.zi0 M_Filter.zi1].
    pose proof (q_val 0) as V0. pose proof (q_val 1) as V1. pose proof (q_val 2) as V2. pose proof (q_val 3) as V3. cbn [Z.of_nat Pos.of_succ_nat Pos.succ] in *.
    change (0 - 23 + -2)%Z with (-23 - 2)%Z. change (0 - 23 + -1)%Z with (-23 - 1)%Z. change (0 - 23 + 0)%Z with (-23 - 0)%Z. change (0 - 23 + -3)%Z with (-23 - 3)%Z.
    rewrite V0, V1, V2, V3. replace (fval (S754_finite true (Pos.shiftl 1 23) (-25))) with (- (/ 2 ^ 2)); [f_equal; cbn; lra|].
    rewrite <- V2. unfold fval. change (-23 - 2)%Z with (-25)%Z. ring. }
  assert (U : uround 24 = / 16777216) by (unfold uround; change (Z.opp 24) with (- Z.of_nat 24)%Z; rewrite powerRZ_neg'; rewrite <- pow_powerRZ; cbn; lra).
  assert (T : 0 < ftiny 24 128 <= / 16777216).
  { split; [apply tiny_pos|]. unfold ftiny. change (3 - 128 - 24)%Z with (- Z.of_nat 149)%Z. rewrite powerRZ_neg'. rewrite <- pow_powerRZ.
    assert (2 ^ 24 <= 2 ^ 149) by (apply Rle_pow; [lra|lia]). assert (2 ^ 24 = 16777216) by (cbn; lra).
    assert (/ 2 ^ 149 <= / 16777216) by (apply Rinv_le_contravar; lra). assert (0 < / 2 ^ 149) by (apply Rinv_0_lt_compat; lra). lra. }
  assert (M : 16777216 * 200000 <= fmax 24 128).
  { unfold fmax. change 24%Z with (Z.of_nat 24). change (128 - Z.of_nat 24)%Z with (Z.of_nat 104). rewrite <- !pow_powerRZ.
    assert (2 ^ 24 = 16777216) by (cbn; lra). assert (2 ^ 24 <= 2 ^ 104) by (apply Rle_pow; [lra|lia]). nra. }
  assert (EV : fval (b0 ex_section) = /4 /\ fval (b1 ex_section) = /2 /\ fval (b2 ex_section) = /4 /\ fval (a1 ex_section) = -/4 /\ fval (a2 ex_section) = /8 /\
    fval (zi0 ex_section) = 0 /\ fval (zi1 ex_section) = 0).
  { injection V as V0 V1 V2 V3 V4 V5. repeat split; assumption. }
  destruct EV as (V0 & V1 & V2 & V4 & V5 & V6 & V7).
  destruct (C77_section_rounding 24 128 false ex_section x (1/2) 1 1) as [yf [lf' [y [l' (E1 & E2 & L1 & L2 & A & B)]]]].
  - lia.
  - lra.
  - lra.
  - intros z Hz. rewrite V4, V5, rpoly3 in Hz. destruct z as [a b]. apply (f_equal (fun c : C => (cre c, cim c))) in Hz. unfold C0 in Hz. cbn in Hz. injection Hz as Hr Hi.
    rewrite ?cnorm_def; unfold cnorm_sqr. cbn. rewrite <- (sqrt_square (1/2)) by lra. apply sqrt_le_1_alt.
    assert (b = 0 \/ 2 * a = / 4) as [Hb|Ha].
    { assert (Q : b * (2 * a - / 4) = 0) by lra. apply Rmult_integral in Q. destruct Q; [left; assumption|right; lra]. }
    + subst b. exfalso. nra.
    + assert (a = / 8) by lra. subst a. nra.
  - rewrite !Forall_cons_iff. rewrite V0, V1, V2, V4, V5. repeat split; try constructor; unfold Rabs; destruct Rcase_abs; lra.
  - unfold finite_sos. repeat constructor.
  - exact Fx.
  - rewrite !Forall_cons_iff. rewrite V6, V7, Rabs_R0. repeat split; [lra|lra|exact Bx].
  - rewrite U. lra.
  - lra.
  - exists yf, lf', y, l'. rewrite <- V. split; [exact E1|]. split; [exact E2|]. split; [exact L1|]. split; [exact L2|]. split; [exact A|].
    intros n Hn. eapply Rle_trans; [apply B; exact Hn|]. rewrite U in *.
    assert (ftiny 24 128 <= / 16777216 * / 1000); [|lra].
    unfold ftiny. change (3 - 128 - 24)%Z with (- Z.of_nat 149)%Z. rewrite powerRZ_neg'. rewrite <- pow_powerRZ.
    assert (2 ^ 34 <= 2 ^ 149) by (apply Rle_pow; [lra|lia]). assert (2 ^ 34 = 17179869184) by (cbn; lra).
    assert (/ 2 ^ 149 <= / 17179869184) by (apply Rinv_le_contravar; lra). assert (0 < / 2 ^ 149) by (apply Rinv_0_lt_compat; lra). lra.
Qed.
