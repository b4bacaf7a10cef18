(** Property C78: digital Chebyshev II designs through [iirfilter_dyn] (which, unlike
    [cheby2_dyn], succeeds when both rp and rs are given). *)
From Coq Require Import List Arith ZArith Reals Permutation Sorted Lra Lia.
From Verif Require Import Base Num Trans M_Complex M_Filter M_Design Cx S_Bessel S_Design P_Bessel P_Savgol P_Poly P_Lp P_CPoly P_Sort P_Proto P_Cheb P_Iir P_Iir2 P_Cheb2 T_Iir T_Sos.
Import ListNotations.
Local Open Scope R_scope.

Lemma cheby2_ripple_ok rp rs : 0 <= rp -> 0 < rs -> ripple_ok ChebyshevII (Some rp) (Some rs).
Proof. intros H1 H2. split; [|split; [|split; discriminate]]; intros r Q; injection Q as <-; lra. Qed.

Lemma cheby2_reduced epsilon sort N rp rs wn bt analog fs output : 0 <= rp -> 0 < rs -> analog <> Some true -> valid_digital bt (normalised wn fs) ->
  iirfilter_dyn epsilon sort N wn (Some rp) (Some rs) (Some bt) (Some ChebyshevII) analog output fs =
  let! f1 := apply_band bt (cheb2ap_dyn N rs) (map warp (normalised wn fs)) in
  let! f2 := bilinear_zpk_dyn f1 2 in finish epsilon sort N false output f2.
Proof.
  intros Hp Hs Ha Hv.
  assert (Ea : unwrap_or analog false = false) by (destruct analog as [[|]|]; [contradiction Ha; reflexivity|reflexivity|reflexivity]).
  rewrite iir_good.
  - cbn [unwrap_or]. rewrite Ea. reflexivity.
  - cbn [unwrap_or]. rewrite Ea. destruct (valid_digital_freqs _ _ Hv). apply valid_not_bad; [assumption|intros _; assumption|discriminate|apply cheby2_ripple_ok; assumption].
Qed.

(** C78, low-pass and band-pass.  [a / b] is the prototype frequency of the angle theta
    (see [band_ratio]): |a| >= |b| is the stop band. *)
Theorem C78_cheby2_digital_partial epsilon sort N rp rs wn bt analog fs :
  is_sort sort -> 0 <= epsilon ->
  (0 < N)%nat -> 0 <= rp -> 0 < rs -> analog <> Some true -> valid_digital bt (normalised wn fs) ->
  bt = Lowpass \/ bt = Bandpass ->
  let design output := iirfilter_dyn epsilon sort N wn (Some rp) (Some rs) (Some bt) (Some ChebyshevII) analog (Some output) fs in
  let maximum := Rpower 10 (- rs / 10) in
  exists f, design OutZpk = Ok (DZpk f) /\
    stable_digital f /\ real_filter f /\ length (zk_z f) = length (zk_p f) /\ length (zk_p f) = (band_arity bt * N)%nat /\
    (forall theta, let (a, b) := band_ratio bt (normalised wn fs) theta in
       (a = 0 -> dgain_sqr f theta = 1) /\
       (a <> 0 -> chebT N (b / a) = 0 -> dgain_sqr f theta = 0) /\
       (a <> 0 -> chebT N (b / a) <> 0 -> dgain_sqr f theta = 1 / (1 + (Rpower 10 (rs / 10) - 1) / chebT N (b / a) ^ 2)) /\
       (Rabs b <= Rabs a -> dgain_sqr f theta <= maximum) /\
       (Rabs a <= Rabs b -> maximum <= dgain_sqr f theta <= 1)) /\
    (forall w, In w (normalised wn fs) -> dgain_sqr f (PI * w) = maximum) /\
    (forall theta, reference bt (normalised wn fs) theta -> dgain_sqr f theta = 1) /\
    (exists b a, design OutBa = Ok (DBa (mkBa b a)) /\ nth 0 a 0 = 1 /\
       forall x, x <> C0 -> ~ In x (zk_p f) -> rpoly_at a x <> C0 /\ (rpoly_at b x / rpoly_at a x)%C = H f x) /\
    (separated epsilon (zk_z f) -> separated epsilon (zk_p f) ->
     exists l, design OutSos = Ok (DSos l) /\
       (forall x, x <> C0 -> ~ In x (zk_p f) -> sos_den l x <> C0 /\ (sos_num l x / sos_den l x)%C = H f x) /\
       (forall x, sos_den l x = C0 -> cnorm_sqr x < 1)).
Proof.
  intros Hso He HN Hp Hs Ha Hv Hbt design maximum.
  set (z := map (fun x => ((0, 1 / x) : C)) (xs N)). set (p := map (fun r => C1 / r)%C (map (cp N (eps2 rs)) (seq 0 N))). set (k := k2 N rs).
  assert (Ez : @cheb2ap_dyn R RNum RTrans N rs = mkZpk z p k) by (apply cheb2ap_eq; assumption).
  assert (Hz : Forall (fun r => cre r = 0) z).
  { apply Forall_forall. intros r Hr. apply in_map_iff in Hr. destruct Hr as [x [<- _]]. reflexivity. }
  assert (Hcz : conj_closed z) by (apply Z2_closed; assumption).
  assert (LP : length p = N) by (unfold p; rewrite !map_length, seq_length; reflexivity).
  assert (Hl : (length z <= length p)%nat) by (rewrite LP; unfold z; rewrite map_length; apply (xs_cheb N HN 0)).
  assert (Hps : Forall (fun r => cre r < 0) p) by (apply P2_stable; assumption).
  assert (Hpc : conj_closed p) by apply P2_closed.
  destruct (digital_specz z p k Hz Hcz Hl Hps Hpc bt (map warp (normalised wn fs)) Hbt (valid_warp _ _ Hv)) as [f [E' [Q1 [Q2 [Q3 [Q4 _]]]]]].
  pose proof (fun t => dgain_digitalz z p k Hz Hcz Hl Hps Hpc bt (normalised wn fs) f t Hbt Hv E') as G.
  assert (D : forall output, design output = finish epsilon sort N false (Some output) f).
  { intros output. unfold design. rewrite cheby2_reduced by assumption. rewrite Ez.
    destruct (apply_band bt (mkZpk z p k) (map warp (normalised wn fs))) as [f1| | |]; cbn [bind] in *; try discriminate E'. rewrite E'. reflexivity. }
  pose proof (Rpower_10_gt (rs / 10) ltac:(lra)) as G1. set (P := Rpower 10 (rs / 10)) in *.
  assert (Em : maximum = 1 / P) by (unfold maximum, P; replace (- rs / 10) with (- (rs / 10)) by field; rewrite Rpower_neg; unfold Rdiv; ring).
  assert (Hdiv : forall a b, b <> 0 -> Rabs (a / b) = Rabs a / Rabs b) by (intros; unfold Rdiv; rewrite Rabs_mult, Rabs_inv; reflexivity).
  assert (K : forall theta, let (a, b) := band_ratio bt (normalised wn fs) theta in
     (a = 0 -> dgain_sqr f theta = 1) /\ (a <> 0 -> dgain_sqr f theta = chebT N (b / a) * chebT N (b / a) / (P - 1 + chebT N (b / a) * chebT N (b / a)))).
  { intros theta. specialize (G theta). pose proof (C57_band_ratio_defined bt _ theta Hv) as Df. destruct (band_ratio bt (normalised wn fs) theta) as [a b].
    cbn [fst snd] in *. rewrite G. split.
    - intros ->. apply cheb2_hom0; try assumption. destruct Df as [Df|Df]; [contradiction Df; reflexivity|exact Df].
    - intros Hna. apply cheb2_hom; assumption. }
  assert (Lo : forall T2, 0 <= T2 -> T2 <= 1 -> T2 / (P - 1 + T2) <= maximum).
  { intros T2 H0 H1. rewrite Em. apply (Rmult_le_reg_r ((P - 1 + T2) * P)); [apply Rmult_lt_0_compat; lra|]. unfold Rdiv.
    replace (T2 * / (P - 1 + T2) * ((P - 1 + T2) * P)) with (T2 * P) by (field; lra). replace (1 * / P * ((P - 1 + T2) * P)) with (P - 1 + T2) by (field; lra). nra. }
  assert (Hi : forall T2, 1 <= T2 -> maximum <= T2 / (P - 1 + T2) <= 1).
  { intros T2 H1. rewrite Em. split.
    - apply (Rmult_le_reg_r ((P - 1 + T2) * P)); [apply Rmult_lt_0_compat; lra|]. unfold Rdiv.
      replace (T2 * / (P - 1 + T2) * ((P - 1 + T2) * P)) with (T2 * P) by (field; lra). replace (1 * / P * ((P - 1 + T2) * P)) with (P - 1 + T2) by (field; lra). nra.
    - apply (Rmult_le_reg_r (P - 1 + T2)); [lra|]. unfold Rdiv. rewrite Rmult_assoc, Rinv_l by lra. lra. }
  exists f. split; [apply D|]. split; [exact Q2|]. split; [exact Q1|]. split; [congruence|]. split; [congruence|]. split; [|split; [|split; [|split]]].
  - intros theta. specialize (K theta). pose proof (C57_band_ratio_defined bt _ theta Hv) as Df. destruct (band_ratio bt (normalised wn fs) theta) as [a b].
    cbn [fst snd] in *. destruct K as [K1 K2]. split; [exact K1|]. split; [|split; [|split]].
    + intros Hna T0. rewrite (K2 Hna), T0. unfold Rdiv. ring.
    + intros Hna T0. rewrite (K2 Hna). set (T := chebT N (b / a)) in *. assert (0 < T * T) by nra. assert (T * T + (P - 1) <> 0) by lra. field. cbn [pow].
      repeat split; try exact T0; replace (T * (T * 1)) with (T * T) by ring; lra.
    + intros Hab. assert (Hna : a <> 0).
      { intros ->. rewrite Rabs_R0 in Hab. pose proof (Rabs_pos b). destruct Df as [Df|Df]; [contradiction Df; reflexivity|]. pose proof (Rabs_pos_lt b Df). lra. }
      rewrite (K2 Hna). pose proof (Rabs_pos_lt a Hna). apply Lo; [nra|]. apply chebT_abs_le1. rewrite Hdiv by exact Hna.
      apply (Rmult_le_reg_r (Rabs a)); [lra|]. unfold Rdiv. rewrite Rmult_assoc, Rinv_l by lra. lra.
    + intros Hab. destruct (Req_dec a 0) as [Z|Hna].
      { rewrite (K1 Z). split; [|lra]. rewrite Em. apply (Rmult_le_reg_r P); [lra|]. unfold Rdiv. rewrite Rmult_assoc, Rinv_l by lra. lra. }
      rewrite (K2 Hna). pose proof (Rabs_pos_lt a Hna). apply Hi. apply chebT_abs_ge1. rewrite Hdiv by exact Hna.
      apply (Rmult_le_reg_r (Rabs a)); [lra|]. unfold Rdiv. rewrite Rmult_assoc, Rinv_l by lra. lra.
  - intros w Hw. specialize (K (PI * w)). destruct (band_ratio_critical bt _ w Hv Hw) as [E2 Hb].
    destruct (band_ratio bt (normalised wn fs) (PI * w)) as [a b]. cbn [fst snd] in *.
    assert (Hna : a <> 0) by (intros ->; apply Hb; nra). rewrite (proj2 K Hna).
    assert (A1 : Rabs (b / a) = 1).
    { rewrite Hdiv by exact Hna. assert (Rabs b = Rabs a) as ->; [|field; apply Rabs_no_R0; exact Hna].
      rewrite <- !sqrt_Rsqr_abs. unfold Rsqr. rewrite E2. reflexivity. }
    assert (A2 : chebT N (b / a) * chebT N (b / a) = 1) by (pose proof (chebT_abs_le1 N (b / a)); pose proof (chebT_abs_ge1 N (b / a)); lra).
    rewrite A2, Em. field. lra.
  - intros theta Hr. specialize (K theta). pose proof (reference_ratio bt _ theta Hv Hr) as Z.
    destruct (band_ratio bt (normalised wn fs) theta) as [a b]. apply K, Z.
  - assert (Hle : (band_arity bt * N <= 2 * N)%nat) by (destruct bt; cbn; lia).
    destruct (ba_agrees sort N f Hso Q1 ltac:(congruence) ltac:(lia)) as [b [a [Eb [_ [_ Q]]]]].
    exists b, a. rewrite D. unfold finish. cbn [unwrap_or]. rewrite Eb. split; [reflexivity|exact Q].
  - intros Sz Sp. destruct (sos_agrees epsilon sort N f He Hso Q1 Q2 ltac:(congruence) Sz Sp) as [l [El [_ [_ Q]]]]. exists l. rewrite D. split; [exact El|exact Q].
Qed.
Print Assumptions C78_cheby2_digital_partial.
Example C78_hyp_met : valid_digital Bandpass (normalised [1 / 4; 1 / 2] None).
Proof. split; [reflexivity|]. split; repeat constructor; cbn; lra. Qed.

Lemma hp_two p0 p1 x k : conj_closed [p0; p1] -> cre p0 < 0 -> cre p1 < 0 -> 2 * (x * x) = 1 -> RtoC k = (p0 * p1 / RtoC 2)%C ->
  exists f1 f, lp2hp_zpk_dyn (mkZpk [(0, 1 / (- x)); (0, 1 / x)] [p0; p1] k) (Some 4) = Ok f1 /\ bilinear_zpk_dyn f1 2 = Ok f /\
    H f C1 = (RtoC (-3) * (p0 * p1))%C.
Proof.
  intros Hc S0 S1 Hx Hk.
  assert (Nx : x <> 0) by (intros ->; lra).
  assert (N0 : p0 <> C0) by (intros ->; cbn in S0; lra). assert (N1 : p1 <> C0) by (intros ->; cbn in S1; lra).
  assert (NP : (p0 * p1)%C <> C0) by (apply Cmul_neq0; assumption).
  pose proof (hom_real _ 0 1 Hc) as I. change (RtoC 0) with C0 in I. change (RtoC 1) with C1 in I.
  assert (EP : hom [p0; p1] C0 C1 = (p0 * p1)%C) by (cbn [hom fold_right]; ring). rewrite EP in I.
  set (r := cre (p0 * p1)%C).
  assert (Er : (p0 * p1)%C = RtoC r) by (apply C_ext; [reflexivity|exact I]).
  assert (Nr : r <> 0) by (intros Q; apply NP; rewrite Er, Q; reflexivity).
  assert (Ei : 1 / x = 2 * x) by (apply (Rmult_eq_reg_r x); [|exact Nx]; transitivity 1; [field; exact Nx|lra]).
  assert (Ki : k = r / 2).
  { apply RtoC_inj. rewrite Hk, Er. apply C_ext; cbn; field. }
  set (f1 := mkZpk [RtoC (- (8 * x)); RtoC (8 * x)] [(RtoC 4 / p0)%C; (RtoC 4 / p1)%C] (3 / 2)).
  assert (E1 : lp2hp_zpk_dyn (mkZpk [(0, 1 / (- x)); (0, 1 / x)] [p0; p1] k) (Some 4) = Ok f1).
  { unfold lp2hp_zpk_dyn. rewrite relative_degree_le by (cbn; lia). cbn [bind zk_z zk_p zk_k unwrap_or map length Nat.sub repeat app].
    unfold f1. f_equal. f_equal.
    - f_equal; [|f_equal]; apply C_ext; cbn; field_simplify; try lra; try (repeat split; nra).
    - match goal with |- context [cdiv ?a ?b] => assert (Ea : a = RtoC 3); [|assert (Eb : b = RtoC r); [|rewrite Ea, Eb]] end.
      + assert (Em : 1 / (- x) = - (2 * x)) by (rewrite <- Ei; field; exact Nx). rewrite Em, Ei. apply C_ext; cbn; nra.
      + rewrite <- Er. destruct p0, p1. apply C_ext; cbn; ring.
      + rewrite Ki. cbn. field. exact Nr. }
  assert (P1 : proper f1) by (unfold proper, f1; cbn; lia).
  destruct (bilinear_total f1 2 P1) as [f E']. exists f1, f. split; [exact E1|]. split; [exact E'|].
  assert (R1 : real_filter f1).
  { split; unfold f1; cbn [zk_z zk_p].
    - apply (conj_closed_app [_] [_]); unfold conj_closed; cbn [map]; match goal with |- Permutation [?a] [?b] => replace a with b; [reflexivity|] end; apply C_ext; cbn; ring.
    - apply (conj_closed_map (fun p => RtoC 4 / p)%C [p0; p1]); [|exact Hc]. intros q. destruct q as [u v]. apply C_ext; cbn.
      + replace (- v * - v) with (v * v) by ring. unfold Rdiv. ring.
      + replace (- v * - v) with (v * v) by ring. unfold Rdiv. ring. }
  assert (Nz : ~ In (RtoC (2 * 2)) (zk_z f1)).
  { unfold f1; cbn [zk_z]. intros [Q|[Q|[]]]; apply (f_equal cre) in Q; cbn in Q; nra. }
  assert (Np : ~ In (RtoC (2 * 2)) (zk_p f1)).
  { unfold f1; cbn [zk_p]. intros Hin.
    assert (G : exists q, cre q < 0 /\ (RtoC 4 / q)%C = RtoC (2 * 2)).
    { destruct Hin as [Q|[Q|[]]]; eauto. }
    destruct G as [q [Sq Q]]. assert (q <> C0) by (intros ->; cbn in Sq; lra).
    assert (Q2 : RtoC 4 = (RtoC (2 * 2)%R * q)%C) by (rewrite <- Q; field; assumption).
    apply (f_equal cre) in Q2. destruct q as [u v]. cbn in Q2, Sq. lra. }
  rewrite (bilinear_numden f1 2 f C1 E' R1 Nz Np). unfold numH, denH, f1. cbn [zk_z zk_p zk_k length Nat.sub cpow].
  replace (RtoC (2 * 2)%R * (C1 - C1))%C with C0 by ring. cbn [hom fold_right].
  assert (Ez : ((C0 - (C1 + C1) * RtoC (- (8 * x))%R) * ((C0 - (C1 + C1) * RtoC (8 * x)%R) * C1) = RtoC (-128))%C) by (apply C_ext; cbn; nra).
  assert (Ep : ((C0 - (C1 + C1) * (RtoC 4 / p0)) * ((C0 - (C1 + C1) * (RtoC 4 / p1)) * C1) = RtoC 64 / (p0 * p1))%C).
  { replace (RtoC 64) with (RtoC 4 * RtoC 4 * (C1 + C1) * (C1 + C1))%C by (apply C_ext; cbn; ring). field. split; assumption. }
  rewrite Ez, Ep, Er. replace (RtoC 64 / RtoC r)%C with (RtoC (64 / r)) by (apply C_ext; cbn; field; exact Nr).
  assert (N64 : RtoC (64 / r) <> C0) by (apply RtoC_neq0; unfold Rdiv; apply Rmult_integral_contrapositive; split; [lra|apply Rinv_neq_0_compat, Nr]).
  transitivity ((RtoC (-3) * RtoC r) * RtoC (64 / r)%R / RtoC (64 / r)%R)%C; [f_equal|field; exact N64].
  apply C_ext; cbn; field; exact Nr.
Qed.

(** High-pass: the gain at DC, deep in the stop band, is 36 times the promised maximum. *)
Theorem C78_cheby2_highpass_refuted epsilon sort rp rs : 0 <= rp -> 0 < rs ->
  exists f, iirfilter_dyn epsilon sort 2 [1 / 2] (Some rp) (Some rs) (Some Highpass) (Some ChebyshevII) None (Some OutZpk) None = Ok (DZpk f) /\
    dgain_sqr f 0 = 36 * Rpower 10 (- rs / 10) /\
    let (a, b) := band_ratio Highpass [1 / 2] 0 in Rabs b <= Rabs a.
Proof.
  intros Hp Hs.
  assert (Hv : valid_digital Highpass (normalised [1 / 2] None)) by (split; [reflexivity|]; split; repeat constructor; cbn; lra).
  rewrite cheby2_reduced by (assumption || discriminate). rewrite cheb2ap_eq by lia.
  assert (T1 : tan (PI * (1 / 2) / 2) = 1) by (replace (PI * (1 / 2) / 2) with (PI / 4) by field; apply tan_PI4).
  assert (W : map warp (normalised [1 / 2] None) = [4]) by (unfold normalised; cbn [map]; unfold warp; rewrite T1; f_equal; ring).
  rewrite W. clear W.
  set (x := sin (PI / 4)).
  assert (Hx : 2 * (x * x) = 1).
  { unfold x. rewrite sin_PI4. pose proof (sqrt_sqrt 2 ltac:(lra)) as S2. assert (sqrt 2 <> 0) by (intros Q; rewrite Q in *; lra).
    transitivity (2 / (sqrt 2 * sqrt 2)); [field; assumption|]. rewrite S2. field. }
  assert (X : xs 2 = [- x; x]).
  { unfold xs, zm, sm, x. cbn [Nat.odd Nat.even negb].
    change (step2 (- Z.of_nat 2 + 1) (Z.of_nat 2)) with [(-1)%Z; 1%Z]. cbn [map INR].
    f_equal; [|f_equal]; [|f_equal; field]. rewrite <- sin_neg. f_equal. field. }
  pose proof (P2_stable 2 rs ltac:(lia) Hs) as St. pose proof (P2_closed 2 rs) as Cl.
  pose proof (k2_RtoC 2 rs ltac:(lia)) as Kc. rewrite X in *.
  pose proof (Q2_hom0 2 rs ltac:(lia) Hs) as N0. pose proof (P2_hom 2 rs ltac:(lia) Hs C0 C1) as PH. rewrite hom_1_0 in PH.
  pose proof (cheb_norm 2 (eps2 rs) ltac:(lia) (eps2_pos rs Hs) 0) as CN. change ((0, 0) : C) with C0 in CN.
  rewrite (eps2_sq rs Hs), chebT_0 in CN. cbn [Nat.even Nat.sub pow] in CN. pose proof (gt2 rs Hs) as G.
  set (Qd := cnorm_sqr (hom (map (cp 2 (eps2 rs)) (seq 0 2)) C0 C1)) in *.
  cbn [seq map] in *. set (p0 := (C1 / cp 2 (eps2 rs) 0)%C) in *. set (p1 := (C1 / cp 2 (eps2 rs) 1)%C) in *.
  inversion St as [|? ? S0 St']; subst. inversion St' as [|? ? S1 _]; subst.
  assert (EP : hom [p0; p1] C0 C1 = (p0 * p1)%C) by (cbn [hom fold_right]; ring).
  rewrite EP in *.
  assert (EZ : hom [(0, 1 / - x); (0, 1 / x)] C0 C1 = RtoC 2).
  { assert (Nx : x <> 0) by (intros Q; rewrite Q in Hx; lra). assert (Ei : 1 / x = 2 * x) by (apply (Rmult_eq_reg_r x); [|exact Nx]; transitivity 1; [field; exact Nx|lra]).
    assert (Em : 1 / (- x) = - (2 * x)) by (rewrite <- Ei; field; exact Nx). rewrite Em, Ei. apply C_ext; cbn; nra. }
  assert (Kc2 : RtoC (k2 2 rs) = (p0 * p1 / RtoC 2)%C) by (rewrite Kc, <- EZ; reflexivity).
  destruct (hp_two p0 p1 x (k2 2 rs) Cl S0 S1 Hx Kc2) as [f1 [f [E1 [E2 HH]]]].
  cbn [apply_band nth]. match goal with |- context [lp2hp_zpk_dyn ?g ?w] => replace (lp2hp_zpk_dyn g w) with (Ok f1) by (symmetry; exact E1) end. cbn [bind]. rewrite E2. cbn [bind]. exists f. split; [reflexivity|]. split.
  - unfold dgain_sqr. rewrite cos_0, sin_0. change ((1, 0) : C) with C1. rewrite HH, cnorm_sqr_mul, PH, cnorm_sqr_div by exact N0.
    fold Qd. rewrite cnorm_sqr_RtoC. replace (cnorm_sqr C1) with 1 by (cbn; ring).
    replace (- rs / 10) with (- (rs / 10)) by field. rewrite Rpower_neg. set (P := Rpower 10 (rs / 10)) in *.
    assert (Q4 : Qd = P / 4).
    { apply (Rmult_eq_reg_r (1 / (P - 1) * (2 * 1 * (2 * 1)))); [|].
      - rewrite CN. field. lra.
      - assert (0 < / (P - 1)) by (apply Rinv_0_lt_compat; lra). unfold Rdiv. nra. }
    rewrite Q4. field. lra.
  - cbn [band_ratio nth]. replace (0 / 2) with 0 by field. rewrite sin_0. rewrite Rmult_0_l, Rabs_R0. apply Rabs_pos.
Qed.
Print Assumptions C78_cheby2_highpass_refuted.

(** Band-stop, every order above 1: the filter returned is identically zero, although
    its gain at DC and at Nyquist should be 1. *)
Theorem C78_cheby2_bandstop_refuted epsilon sort N rp rs wn analog fs :
  (1 < N)%nat -> 0 <= rp -> 0 < rs -> analog <> Some true -> valid_digital Bandstop (normalised wn fs) ->
  exists f, iirfilter_dyn epsilon sort N wn (Some rp) (Some rs) (Some Bandstop) (Some ChebyshevII) analog (Some OutZpk) fs = Ok (DZpk f) /\
    zk_k f = 0 /\ (forall theta, dgain_sqr f theta = 0) /\ reference Bandstop (normalised wn fs) 0.
Proof.
  intros HN Hp Hs Ha Hv. rewrite cheby2_reduced by assumption. rewrite cheb2ap_eq by (assumption || lia).
  set (g := mkZpk _ _ _).
  assert (Pg : proper g).
  { unfold g, proper. cbn [zk_z zk_p]. rewrite !map_length, seq_length. apply (xs_cheb N ltac:(lia) 0). }
  destruct (apply_band_proper Bandstop g (map warp (normalised wn fs)) Pg) as [f1 [E1 P1]].
  assert (K1 : zk_k f1 = 0).
  { unfold apply_band, lp2bs_zpk_dyn in E1. rewrite (relative_degree_le _ _ Pg) in E1. cbn [bind] in E1. injection E1 as <-. cbn [zk_k].
    assert (Nz : exists x l, xs N = x :: l).
    { destruct (xs N) as [|x l] eqn:Ex; [|eauto]. exfalso. destruct (zm_spec N ltac:(lia)) as [A [B [Ea [Eb _]]]]. unfold xs in Ex. rewrite Ea in Ex.
      apply app_eq_nil in Ex. destruct Ex as [-> ->]. apply (f_equal (@length R)) in Eb. rewrite map_length, seq_length in Eb. destruct (Nat.odd N); cbn in Eb; lia. }
    destruct Nz as [x [l Ex]]. unfold g. cbn [zk_z zk_k zk_p]. rewrite Ex. cbn [map fold_left].
    assert (Z : forall m acc, acc = 0 -> fold_left (fun (a : R) (zi : C) => nmul a (cre zi)) m acc = 0).
    { induction m as [|y m IH]; intros acc Ha0; [exact Ha0|]. cbn [fold_left]. apply IH. rewrite Ha0. cbn. ring. }
    rewrite Z by (cbn; ring). cbn. unfold Rdiv. ring. }
  rewrite E1. cbn [bind]. destruct (bilinear_total f1 2 P1) as [f E']. rewrite E'. cbn [bind]. exists f. split; [reflexivity|].
  assert (K : zk_k f = 0).
  { unfold bilinear_zpk_dyn in E'. rewrite (relative_degree_le _ _ P1) in E'. cbn [bind] in E'. injection E' as <-. cbn [zk_k]. rewrite K1. cbn. ring. }
  split; [exact K|]. split; [|left; reflexivity]. intros theta. unfold dgain_sqr, H. rewrite K.
  replace (cmul (RtoC 0) (root_product (zk_z f) (cos theta, sin theta))) with C0 by (change (RtoC 0) with C0; ring).
  rewrite (cnorm_sqr_div0 C0). replace (cnorm_sqr C0) with 0 by (cbn; ring). unfold Rdiv. ring.
Qed.
Print Assumptions C78_cheby2_bandstop_refuted.
