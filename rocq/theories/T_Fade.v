(** Rounding errors of the running filter follow the recent signal: a loud passage does not
    disturb what comes long after it, and when the input stops the float output dies out
    down to the smallest numbers of the format. *)
From Coq Require Import Reals ZArith SpecFloat List Lia Lra.
From Verif Require Import Base Num M_Complex M_Filter Cx S_Design S_Filter S_Stable S_Float S_Fade P_Float P_FloatStats P_Sosfilt P_Sos P_Stable P_FloatFilt P_Fade T_FloatFilt.
Import ListNotations.
Local Open Scope R_scope.

(** * C126 *)
(** One factor rho < 1 and one constant K, depending on the coefficients only: under every
    envelope that falls no faster than rho, the output and its rounding error obey the same
    envelope, for every signal of every length in every format. *)
Theorem C126_rounding_follows_signal (l : list (Sos R)) : stable_sections l -> exists K rho, 1 <= K /\ 0 < rho < 1 /\
  forall prec emax szero lf (x : list spec_float) e,
  (1 < prec < emax)%Z ->
  same_coefs (map sos_val lf) l ->
  Forall (finite_sos prec emax) lf -> Forall (finite prec emax) x -> envelope rho e x ->
  Forall (fun s => Rabs (fval (zi0 s)) <= e 0%nat /\ Rabs (fval (zi1 s)) <= e 0%nat) lf ->
  K * uround prec <= 1 -> (forall n, (n < length x)%nat -> K * (e n + ftiny prec emax) <= fmax prec emax) ->
  exists yf lf' y l',
    @sosfilt_dyn _ (SFNum prec emax szero) x lf = Ok (yf, lf') /\
    sosfilt_dyn (map fval x) (map sos_val lf) = Ok (y, l') /\
    length yf = length x /\ length y = length x /\ Forall (finite prec emax) yf /\
    forall n, (n < length x)%nat ->
      Rabs (fval (nth n yf (S754_zero false))) <= K * (e n + ftiny prec emax) /\
      Rabs (fval (nth n yf (S754_zero false)) - nth n y 0) <= K * (uround prec * e n + ftiny prec emax).
Proof.
  intros Hs. destruct (stable_poles l Hs) as [r [Hr HP]]. set (rho := (1 + r) / 2).
  assert (Hrho : 0 <= r < rho) by (unfold rho; lra). assert (Hrho1 : rho <= 1) by (unfold rho; lra).
  destruct (cascade_env l rho r Hrho Hrho1 HP) as [K [HK Q]]. exists K, rho. split; [exact HK|]. split; [unfold rho; lra|].
  intros prec emax sz lf x e Hpe Hc Fl Fx [He Bx] St Hu HM.
  destruct (filt_link prec emax sz lf x) as [yf [lf' [y [l' (E1 & E2 & L1 & L2 & N)]]]].
  exists yf, lf', y, l'. split; [exact E1|]. split; [exact E2|]. split; [exact L1|]. split; [exact L2|].
  assert (A : forall n, (n < length x)%nat -> finite prec emax (nth n yf (S754_zero false)) /\
    Rabs (fval (nth n yf (S754_zero false))) <= K * (e n + ftiny prec emax) /\
    Rabs (fval (nth n yf (S754_zero false)) - nth n y 0) <= K * (uround prec * e n + ftiny prec emax)).
  { intros n Hn. destruct (N n Hn) as [-> ->].
    apply (Q prec emax sz lf (fun k => nth k x (S754_zero false)) e (length x) Hpe); try assumption.
    intros k Hk. rewrite Forall_forall in Fx. split; [apply Fx, nth_In; exact Hk|apply Bx; exact Hk]. }
  split.
  - apply Forall_forall. intros v Hv. destruct (In_nth _ _ (S754_zero false) Hv) as [n [Hn <-]]. apply A. lia.
  - intros n Hn. apply A. exact Hn.
Qed.
Print Assumptions C126_rounding_follows_signal.

(** The constant for one section, explicitly: poles of modulus at most r < rho, coefficients
    of magnitude at most C. *)
Theorem C126_section_follows_signal prec emax szero s (x : list spec_float) r rho C e :
  (1 < prec < emax)%Z -> 0 <= r < rho -> rho <= 1 -> 1 <= C ->
  (forall z, rpoly_at [1; fval (a1 s); fval (a2 s)] z = C0 -> cnorm z <= r) ->
  Forall (fun c => Rabs (fval c) <= C) [b0 s; b1 s; b2 s; a1 s; a2 s] ->
  finite_sos prec emax s -> Forall (finite prec emax) x -> envelope rho e x ->
  Rabs (fval (zi0 s)) <= e 0%nat -> Rabs (fval (zi1 s)) <= e 0%nat ->
  let K := 12288 * C ^ 5 / (rho - r) ^ 4 in
  K * uround prec <= 1 -> (forall n, (n < length x)%nat -> K * (e n + ftiny prec emax) <= fmax prec emax) ->
  exists yf lf' y l',
    @sosfilt_dyn _ (SFNum prec emax szero) x [s] = Ok (yf, lf') /\
    sosfilt_dyn (map fval x) [sos_val s] = Ok (y, l') /\
    length yf = length x /\ length y = length x /\ Forall (finite prec emax) yf /\
    forall n, (n < length x)%nat ->
      Rabs (fval (nth n yf (S754_zero false))) <= K * (e n + ftiny prec emax) /\
      Rabs (fval (nth n yf (S754_zero false)) - nth n y 0) <= K * (uround prec * e n + ftiny prec emax).
Proof.
  intros Hpe Hr Hr1 HC Hp Hc Fs Fx [He Bx] Z0 Z1 K Hu HM.
  assert (EK : Kenv rho r C = K) by (unfold Kenv, gainr, K; field; lra). rewrite <- EK in *. clear EK K.
  destruct (filt_link prec emax szero [s] x) as [yf [lf' [y [l' (E1 & E2 & L1 & L2 & N)]]]].
  exists yf, lf', y, l'. split; [exact E1|]. split; [exact E2|]. split; [exact L1|]. split; [exact L2|].
  assert (A : forall n, (n < length x)%nat -> finite prec emax (nth n yf (S754_zero false)) /\
    Rabs (fval (nth n yf (S754_zero false))) <= Kenv rho r C * (e n + ftiny prec emax) /\
    Rabs (fval (nth n yf (S754_zero false)) - nth n y 0) <= Kenv rho r C * (uround prec * e n + ftiny prec emax)).
  { intros n Hn. destruct (N n Hn) as [-> ->]. cbn [map gcout cout].
    unfold finite_sos in Fs. rewrite Forall_forall in Hc, Fs. pose proof Fx as Fx'. rewrite Forall_forall in Fx'.
    apply (section_env prec emax Hpe szero s (fun k => nth k x (S754_zero false)) rho r C e (length x)); try assumption.
    - destruct (quadratic_roots (fval (a1 s)) (fval (a2 s))) as [p [q [Q1 [Q2 [Q3 Q4]]]]]. exists p, q. cbn [sos_val M_Filter.a1 M_Filter.a2].
      split; [exact Q1|]. split; [exact Q2|].
      split; apply Hp; rewrite rpoly3; change (RtoC 1) with C1; [rewrite <- Q3|rewrite <- Q4]; ring.
    - unfold coef_fin. repeat split; apply Fs; cbn; tauto.
    - unfold coef_le. cbn [sos_val M_Filter.b0 M_Filter.b1 M_Filter.b2 M_Filter.a1 M_Filter.a2]. repeat split; apply Hc; cbn; tauto.
    - apply Fs; cbn; tauto.
    - apply Fs; cbn; tauto.
    - intros k Hk. split; [apply Fx', nth_In; exact Hk|apply Bx; exact Hk]. }
  split.
  - apply Forall_forall. intros v Hv. destruct (In_nth _ _ (S754_zero false) Hv) as [n [Hn <-]]. apply A. lia.
  - intros n Hn. apply A. exact Hn.
Qed.
Print Assumptions C126_section_follows_signal.

(** The envelope of a signal bounded by X followed by silence. *)
Lemma silence_env rho X (x : list spec_float) sg m : 0 < rho < 1 -> 0 <= X -> Forall (fun v => Rabs (fval v) <= X) x ->
  envelope rho (fun n => X * rho ^ (n - length x)) (x ++ repeat (S754_zero sg) m).
Proof.
  intros Hr HX Bx. split.
  - intros n. assert (P : forall k, 0 < rho ^ k) by (intros k; apply pow_lt; lra). split; [apply Rmult_le_pos; [exact HX|left; apply P]|].
    destruct (le_lt_dec (length x) n) as [L|L].
    + replace (S n - length x)%nat with (S (n - length x)) by lia. cbn [pow]. right. ring.
    + replace (n - length x)%nat with 0%nat by lia. replace (S n - length x)%nat with 0%nat by lia. cbn [pow]. nra.
  - intros n Hn. destruct (le_lt_dec (length x) n) as [L|L].
    + rewrite app_nth2 by exact L. set (k := (n - length x)%nat).
      assert (E : fval (nth k (repeat (S754_zero sg) m) (S754_zero false)) = 0).
      { destruct (nth_in_or_default k (repeat (S754_zero sg) m) (S754_zero false)) as [I|I]; [apply repeat_spec in I|]; rewrite I; reflexivity. }
      rewrite E, Rabs_R0. apply Rmult_le_pos; [exact HX|]. apply pow_le. lra.
    + rewrite app_nth1 by exact L. replace (n - length x)%nat with 0%nat by lia. cbn [pow]. rewrite Rmult_1_r.
      rewrite Forall_forall in Bx. apply Bx, nth_In, L.
Qed.

(** After the input stops, the float output falls geometrically, down to a multiple of the
    smallest positive number of the format. *)
Theorem C126_dies_out (l : list (Sos R)) : stable_sections l -> exists K rho, 1 <= K /\ 0 < rho < 1 /\
  forall prec emax szero lf (x : list spec_float) X sg m,
  (1 < prec < emax)%Z ->
  same_coefs (map sos_val lf) l ->
  Forall (finite_sos prec emax) lf -> Forall (finite prec emax) x -> 0 <= X ->
  Forall (fun v => Rabs (fval v) <= X) x ->
  Forall (fun s => Rabs (fval (zi0 s)) <= X /\ Rabs (fval (zi1 s)) <= X) lf ->
  K * uround prec <= 1 -> K * (X + ftiny prec emax) <= fmax prec emax ->
  exists yf lf',
    @sosfilt_dyn _ (SFNum prec emax szero) (x ++ repeat (S754_zero sg) m) lf = Ok (yf, lf') /\
    length yf = (length x + m)%nat /\ Forall (finite prec emax) yf /\
    forall k, (k < m)%nat ->
      Rabs (fval (nth (length x + k) yf (S754_zero false))) <= K * (X * rho ^ k + ftiny prec emax).
Proof.
  intros Hs. destruct (C126_rounding_follows_signal l Hs) as [K [rho [HK [Hr Q]]]]. exists K, rho. split; [exact HK|]. split; [exact Hr|].
  intros prec emax sz lf x X sg m Hpe Hc Fl Fx HX Bx St Hu HM.
  destruct (Q prec emax sz lf (x ++ repeat (S754_zero sg) m) (fun n => X * rho ^ (n - length x)) Hpe Hc Fl) as [yf [lf' [y [l' (E1 & _ & L1 & _ & F & B)]]]].
  - apply Forall_app. split; [exact Fx|]. apply Forall_forall. intros v Hv. apply repeat_spec in Hv. subst v. split; [reflexivity|exact Logic.I].
  - apply silence_env; assumption.
  - cbn [Nat.sub pow]. rewrite Rmult_1_r. exact St.
  - exact Hu.
  - intros n _. eapply Rle_trans; [|exact HM]. apply Rmult_le_compat_l; [lra|]. apply Rplus_le_compat_r.
    assert (rho ^ (n - length x) <= 1) by (rewrite <- (pow1 (n - length x)); apply pow_incr; lra).
    assert (X * rho ^ (n - length x) <= X * 1) by (apply Rmult_le_compat_l; assumption). lra.
  - exists yf, lf'. split; [exact E1|]. rewrite app_length, repeat_length in L1. split; [exact L1|]. split; [exact F|].
    intros k Hk. destruct (B (length x + k)%nat) as [B1 _]; [rewrite app_length, repeat_length; lia|].
    replace (length x + k - length x)%nat with k in B1 by lia. exact B1.
Qed.
Print Assumptions C126_dies_out.

(** So however loud the signal was, from some sample of the silence on the output stays below
    K times the smallest positive number, which is 2 [ftiny]. *)
Theorem C126_limit_cycle_bound (l : list (Sos R)) : stable_sections l -> exists K, 1 <= K /\
  forall prec emax szero lf (x : list spec_float) X,
  (1 < prec < emax)%Z ->
  same_coefs (map sos_val lf) l ->
  Forall (finite_sos prec emax) lf -> Forall (finite prec emax) x -> 0 <= X ->
  Forall (fun v => Rabs (fval v) <= X) x ->
  Forall (fun s => Rabs (fval (zi0 s)) <= X /\ Rabs (fval (zi1 s)) <= X) lf ->
  K * uround prec <= 1 -> K * (X + ftiny prec emax) <= fmax prec emax ->
  exists k0, forall sg m, exists yf lf',
    @sosfilt_dyn _ (SFNum prec emax szero) (x ++ repeat (S754_zero sg) m) lf = Ok (yf, lf') /\
    length yf = (length x + m)%nat /\
    forall k, (k0 <= k < m)%nat -> Rabs (fval (nth (length x + k) yf (S754_zero false))) <= 2 * K * ftiny prec emax.
Proof.
  intros Hs. destruct (C126_dies_out l Hs) as [K [rho [HK [Hr Q]]]]. exists K. split; [exact HK|].
  intros prec emax sz lf x X Hpe Hc Fl Fx HX Bx St Hu HM.
  pose proof (tiny_pos prec emax) as T. set (tn := ftiny prec emax) in *.
  assert (TX : 0 < tn / (X + 1)) by (apply Rdiv_lt_0_compat; lra).
  destruct (pow_lt_1_zero rho ltac:(rewrite Rabs_right; lra) (tn / (X + 1)) TX) as [k0 Hk0].
  exists k0. intros sg m.
  destruct (Q prec emax sz lf x X sg m Hpe Hc Fl Fx HX Bx St Hu HM) as [yf [lf' (E & L & _ & B)]].
  exists yf, lf'. split; [exact E|]. split; [exact L|]. intros k [Hk Hm].
  eapply Rle_trans; [apply B; exact Hm|]. fold tn. specialize (Hk0 k Hk). rewrite Rabs_right in Hk0 by (left; apply Rlt_gt, pow_lt; lra).
  assert (P : 0 < rho ^ k) by (apply pow_lt; lra).
  assert (X * rho ^ k <= tn).
  { apply Rle_trans with ((X + 1) * (tn / (X + 1))); [apply Rmult_le_compat; lra|right; field; lra]. }
  apply Rle_trans with (K * (tn + tn)); [apply Rmult_le_compat_l; lra|right; ring].
Qed.
Print Assumptions C126_limit_cycle_bound.

(** It need not fall to zero: a stable section with a pole at 3/4 in f64, started from the
    smallest positive number, answers silence with that number for ever. *)
Definition stuck : Sos spec_float :=
  mkSos (S754_finite false 4503599627370496 (-52)) (S754_zero false) (S754_zero false) (S754_finite false 4503599627370496 (-52))
    (S754_finite true 6755399441055744 (-53)) (S754_zero false) (S754_finite false 1 (-1074)) (S754_zero false).
Theorem C126_silence_not_reached :
  stable_sections (map sos_val [stuck]) /\ Forall (finite_sos 53 1024) [stuck] /\ 0 < fval (S754_finite false 1 (-1074)) /\
  forall m, exists lf', @sosfilt_dyn _ (SFNum 53 1024 false) (repeat (S754_zero false) m) [stuck] = Ok (repeat (S754_finite false 1 (-1074)) m, lf').
Proof.
  assert (V : sos_val stuck = mkSos 1 0 0 1 (- (3 / 4)) 0 (powerRZ 2 (-1074)) 0).
  { assert (P1 : IZR 4503599627370496 * powerRZ 2 (-52) = 1).
    { change (-52)%Z with (- Z.of_nat 52)%Z. rewrite powerRZ_neg', <- pow_powerRZ. replace (IZR 4503599627370496) with (2 ^ 52) by (cbn [pow]; lra). apply Rinv_r, pow_nonzero. lra. }
    assert (P2 : IZR 6755399441055744 * powerRZ 2 (-53) = 3 / 4).
    { change (-53)%Z with (- Z.of_nat 53)%Z. rewrite powerRZ_neg', <- pow_powerRZ. replace (IZR 6755399441055744) with (3 / 4 * 2 ^ 53) by (cbn [pow]; lra).
      rewrite Rmult_assoc, Rinv_r by (apply pow_nonzero; lra). lra. }
    unfold sos_val, stuck. cbn [M_Filter.b0 M_Filter.b1 M_Filter.b2 M_Filter.a0 M_Filter.a1 M_Filter.a2 M_Filter.zi0 M_Filter.zi1]. unfold fval.
    rewrite !Rmult_assoc, P1, P2, !Rmult_1_l. f_equal; lra. }
  split; [|split; [|split]].
  - cbn [map]. rewrite V. split; [repeat constructor|]. intros [a b] Q.
    assert (Ed : sos_den [mkSos 1 0 0 1 (- (3 / 4)) 0 (powerRZ 2 (-1074)) 0] (a, b) = (a ^ 2 - b ^ 2 - 3 / 4 * a, 2 * a * b - 3 / 4 * b)) by (apply C_ext; cbn; field).
    rewrite Ed in Q. injection Q as Q1 Q2. unfold cnorm_sqr. cbn.
    assert (b = 0 \/ a = 3 / 8) as [Hb|Ha] by (destruct (Req_dec b 0); [left; assumption|right; nra]); nra.
  - constructor; [|constructor]. unfold finite_sos. repeat constructor.
  - unfold fval. apply Rmult_lt_0_compat; [lra|]. apply powerRZ_lt. lra.
  - intros m. exists [stuck]. rewrite sosfilt_dyn_pure. f_equal. induction m as [|m IH]; [reflexivity|].
    cbn [repeat filt]. 
    assert (E : @sosfilt_item _ (SFNum 53 1024 false) (S754_zero false) [stuck] = (S754_finite false 1 (-1074), [stuck])) by (vm_compute; reflexivity).
    rewrite E, IH. reflexivity.
Qed.
Print Assumptions C126_silence_not_reached.

(** Concrete case: the section of C77's example in f32, from rest.  Whatever signal of floats
    in [-1, 1] went in before, sample k of the silence after it is at most
    3145728 ((3/4)^k + 2^-150). *)
Example C126_ex (x : list spec_float) sg m : Forall (finite 24 128) x -> Forall (fun v => Rabs (fval v) <= 1) x ->
  exists yf lf', @sosfilt_dyn _ (SFNum 24 128 false) (x ++ repeat (S754_zero sg) m) [ex_section] = Ok (yf, lf') /\
    length yf = (length x + m)%nat /\
    forall k, (k < m)%nat -> Rabs (fval (nth (length x + k) yf (S754_zero false))) <= 3145728 * ((3 / 4) ^ k + ftiny 24 128).
Proof.
  intros Fx Bx.
  assert (V : sos_val ex_section = mkSos (/4) (/2) (/4) 1 (-/4) (/8) 0 0).
  { unfold sos_val, ex_section. cbn [M_Filter.b0 M_Filter.b1 M_Filter.b2 M_Filter.a0 M_Filter.a1 M_Filter.a2 M_Filter.zi0 M_Filter.zi1].
    pose proof (q_val 0) as V0. pose proof (q_val 1) as V1. pose proof (q_val 2) as V2. pose proof (q_val 3) as V3. cbn [Z.of_nat Pos.of_succ_nat Pos.succ] in *.
    change (0 - 23 + -2)%Z with (-23 - 2)%Z. change (0 - 23 + -1)%Z with (-23 - 1)%Z. change (0 - 23 + 0)%Z with (-23 - 0)%Z. change (0 - 23 + -3)%Z with (-23 - 3)%Z.
    rewrite V0, V1, V2, V3. replace (fval (S754_finite true (Pos.shiftl 1 23) (-25))) with (- (/ 2 ^ 2)); [f_equal; cbn; lra|].
    rewrite <- V2. unfold fval. change (-23 - 2)%Z with (-25)%Z. ring. }
  assert (EV : fval (b0 ex_section) = /4 /\ fval (b1 ex_section) = /2 /\ fval (b2 ex_section) = /4 /\ fval (a1 ex_section) = -/4 /\ fval (a2 ex_section) = /8 /\
    fval (zi0 ex_section) = 0 /\ fval (zi1 ex_section) = 0).
  { injection V as V0 V1 V2 V3 V4 V5. repeat split; assumption. }
  destruct EV as (V0 & V1 & V2 & V4 & V5 & V6 & V7).
  assert (U : uround 24 = / 16777216) by (unfold uround; change (Z.opp 24) with (- Z.of_nat 24)%Z; rewrite powerRZ_neg'; rewrite <- pow_powerRZ; cbn; lra).
  assert (T : 0 < ftiny 24 128 <= 1).
  { split; [apply tiny_pos|]. unfold ftiny. change (3 - 128 - 24)%Z with (- Z.of_nat 149)%Z. rewrite powerRZ_neg'. rewrite <- pow_powerRZ.
    assert (1 <= 2 ^ 149) by (apply pow_R1_Rle; lra). assert (/ 2 ^ 149 <= / 1) by (apply Rinv_le_contravar; lra). lra. }
  assert (M : 16777216 * 200000 <= fmax 24 128).
  { unfold fmax. change 24%Z with (Z.of_nat 24). change (128 - Z.of_nat 24)%Z with (Z.of_nat 104). rewrite <- !pow_powerRZ.
    assert (2 ^ 24 = 16777216) by (cbn; lra). assert (2 ^ 24 <= 2 ^ 104) by (apply Rle_pow; [lra|lia]). nra. }
  set (e := fun n => 1 * (3 / 4) ^ (n - length x)).
  assert (He : envelope (3 / 4) e (x ++ repeat (S754_zero sg) m)) by (apply silence_env; [lra|lra|exact Bx]).
  assert (E0 : e 0%nat = 1) by (unfold e; cbn; lra).
  assert (EK : 12288 * 1 ^ 5 / (3 / 4 - 1 / 2) ^ 4 = 3145728) by field.
  destruct (C126_section_follows_signal 24 128 false ex_section (x ++ repeat (S754_zero sg) m) (1/2) (3/4) 1 e) as [yf [lf' [y [l' (E1 & E2 & L1 & L2 & A & B)]]]].
  - lia.
  - lra.
  - lra.
  - lra.
  - intros z Hz. rewrite V4, V5, rpoly3 in Hz. destruct z as [a b]. apply (f_equal (fun c : C => (cre c, cim c))) in Hz. unfold C0 in Hz. cbn in Hz. injection Hz as Hr Hi.
    rewrite ?cnorm_def; unfold cnorm_sqr. cbn. rewrite <- (sqrt_square (1/2)) by lra. apply sqrt_le_1_alt.
    assert (b = 0 \/ 2 * a = / 4) as [Hb|Ha].
    { assert (Q : b * (2 * a - / 4) = 0) by lra. apply Rmult_integral in Q. destruct Q; [left; assumption|right; lra]. }
    + subst b. exfalso. nra.
    + assert (a = / 8) by lra. subst a. nra.
  - rewrite !Forall_cons_iff. rewrite V0, V1, V2, V4, V5. repeat split; try constructor; unfold Rabs; destruct Rcase_abs; lra.
  - unfold finite_sos. repeat constructor.
  - apply Forall_app. split; [exact Fx|]. apply Forall_forall. intros v Hv. apply repeat_spec in Hv. subst v. split; [reflexivity|exact Logic.I].
  - exact He.
  - rewrite V6, Rabs_R0, E0. lra.
  - rewrite V7, Rabs_R0, E0. lra.
  - rewrite EK, U. lra.
  - intros n _. rewrite EK. assert (e n <= 1); [|lra]. unfold e. rewrite Rmult_1_l. rewrite <- (pow1 (n - length x)). apply pow_incr. lra.
  - exists yf, lf'. split; [exact E1|]. rewrite app_length, repeat_length in L1. split; [exact L1|]. intros k Hk.
    destruct (B (length x + k)%nat) as [B1 _]; [rewrite app_length, repeat_length; lia|]. rewrite EK in B1. unfold e in B1.
    replace (length x + k - length x)%nat with k in B1 by lia. rewrite Rmult_1_l in B1. exact B1.
Qed.
