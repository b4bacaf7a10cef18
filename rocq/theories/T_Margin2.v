(** C118: digital Chebyshev II filters in second-order sections, with a condition on the
    arguments only. *)
From Coq Require Import List Arith ZArith Reals Permutation Lra Lia Sorted.
From Verif Require Import Base Num Trans M_Complex M_Design M_Filter RSum Cx ListUtil S_Design S_Bessel S_Filter S_Stable S_Margin S_Margin2 P_Bessel P_Savgol P_Poly P_Lp P_CPoly P_Proto P_Cheb P_Iir P_Iir2 P_Cheb2 P_Sos P_Stable P_Margin T_Iir T_Sos T_Cheb2 T_Stable T_ZeroPhase T_Margin.
Import ListNotations.
Local Open Scope R_scope.

Lemma xs_range n x : (0 < n)%nat -> In x (xs n) -> x <> 0 /\ 1 / INR n <= Rabs x <= 1.
Proof.
  intros Hn Hx. destruct (zm_spec n Hn) as [A [B [E1 [E2 F]]]]. unfold xs in Hx. rewrite E1 in Hx. rewrite Forall_forall in F. pose proof (F x Hx) as X0. split; [exact X0|].
  assert (In x (map (sp n) (seq 0 n))) as Q.
  { rewrite E2. apply in_app_or in Hx. apply in_or_app. destruct Hx as [Hx|Hx]; [left; exact Hx|right; apply in_or_app; right; exact Hx]. }
  apply in_map_iff in Q. destruct Q as [k [<- Hk]]. apply in_seq in Hk. unfold sp in *. destruct (sin_phi_gap n k ltac:(lia)) as [Q|Q]; [contradiction|].
  split; [exact Q|]. apply Rabs_le. apply SIN_bound.
Qed.
(** A root of s^2 - i c s + M^2 is on the imaginary axis. *)
Lemma imag_root (s : C) c M : 0 < M -> (s * s - (0, c) * s + RtoC (M * M)%R = C0)%C -> cre s = 0.
Proof.
  intros HM E. destruct s as [x y]. pose proof (f_equal cre E) as E1. pose proof (f_equal cim E) as E2. cbn in E1, E2. cbn [cre fst].
  assert (A : x * (2 * y - c) = 0) by lra. destruct (Rmult_integral _ _ A) as [Z|Z]; [exact Z|exfalso]. assert (c = 2 * y) as -> by lra. nra.
Qed.
Lemma cnorm_imag y : cnorm (0, y) = Rabs y.
Proof. rewrite ?cnorm_def; unfold cnorm_sqr. change (sqrt (0 * 0 + y * y) = Rabs y). rewrite Rmult_0_l, Rplus_0_l. apply sqrt_Rsqr_abs. Qed.

Section Two.
Variables (n : nat) (sh ch epsilon : R).
Hypothesis Hn : (0 < n)%nat.
Hypothesis Hsh : 0 < sh.
Hypothesis Hsc : sh <= ch.
Hypothesis Hc1 : 1 <= ch.
Hypothesis He : 0 <= epsilon.
Let Z := map (fun x => ((0, 1 / x) : C)) (xs n).
Let P := map (fun r => C1 / r)%C (map (ep n sh ch) (seq 0 n)).

Theorem design_clear2 k bt wn f1 f' : bt = Lowpass \/ bt = Bandpass ->
  valid_digital bt wn -> clear_of_tolerance2 epsilon bt n ch sh wn ->
  Forall (fun r => cre r < 0) P -> conj_closed P -> conj_closed Z ->
  apply_band bt (mkZpk Z P k) (map warp wn) = Ok f1 -> bilinear_zpk_dyn f1 2 = Ok f' ->
  separated epsilon (zk_z f') /\ separated epsilon (zk_p f').
Proof.
  intros Hb Hv HC Hst Hcc HcZ E1 E2.
  assert (Hz : Forall (fun r => cre r = 0) Z).
  { apply Forall_forall. intros r Hr. apply in_map_iff in Hr. destruct Hr as [x [<- _]]. reflexivity. }
  assert (LP : length P = n) by (unfold P; rewrite !map_length, seq_length; reflexivity).
  assert (Hl : (length Z <= length P)%nat) by (rewrite LP; unfold Z; rewrite map_length; apply (xs_cheb n Hn 0)).
  destruct (band_specz Z P k Hz HcZ Hl Hst Hcc bt (map warp wn) Hb (valid_warp bt wn Hv)) as [f [Ef [_ [_ [St _]]]]]. rewrite E1 in Ef. injection Ef as <-.
  unfold stable_analog in St. rewrite Forall_forall in St.
  assert (Hn' : 0 < INR n) by (apply lt_0_INR; exact Hn). assert (Hn1 : 1 <= INR n) by (apply (le_INR 1); lia).
  unfold clear_of_tolerance2 in HC. cbv zeta in HC.
  assert (RD : relative_degree_dyn Z P = Ok (length P - length Z)%nat).
  { unfold relative_degree_dyn. destruct (Nat.ltb_spec (length P) (length Z)); [lia|reflexivity]. }
  apply (bilinear_clear epsilon f1 f' E2); destruct Hb as [-> | ->]; cbn [apply_band] in E1.
  - (* low-pass zeros *)
    unfold lp2lp_zpk_dyn in E1. cbn [zk_z zk_p zk_k unwrap_or] in E1. rewrite RD in E1. cbn [bind] in E1. inversion E1; subst f1. cbn [zk_z].
    destruct Hv as [Hw1 [Hf _]]. destruct wn as [|w [|? ?]]; try discriminate Hw1. pose proof (Forall_inv Hf) as Hw. cbn [nth map] in *.
    destruct (lp_margin w Hw) as [T0 TM]. change (warp w) with (2 * 2 * tan (PI * w / 2)) in *. set (T := tan (PI * w / 2)) in *. cbn [clear_of_tolerance nth] in HC.
    unfold clear_of_tolerance in HC. cbn [nth] in HC.
    apply Forall_forall. intros s Hs. apply in_map_iff in Hs. destruct Hs as [r [<- Hr]]. apply in_map_iff in Hr. destruct Hr as [x [<- Hx]].
    destruct (xs_range n x Hn Hx) as [X0 [X1 X2]]. set (ax := Rabs x) in *. assert (A0 : 0 < ax) by (apply Rabs_pos_lt; exact X0).
    assert (Es : cmul (0, 1 / x) (2 * 2 * T, 0) = (0, 4 * T / x)) by (apply C_ext; cbn; field; exact X0). rewrite Es.
    assert (Ea : Rabs (4 * T / x) = 4 * T / ax) by (unfold Rdiv; rewrite Rabs_mult, Rabs_inv, (Rabs_right (4 * T)) by lra; reflexivity).
    apply (clear_bil epsilon _ (4 * T / ax) (4 * T / ax)); [exact He|cbn; lra|left; apply Rdiv_lt_0_compat; lra|rewrite cnorm_imag, Ea; apply Rle_refl|right; cbn [cim snd]; rewrite Ea; apply Rle_refl|].
    apply (Rmult_lt_reg_r (ax * ax)); [nra|]. replace (100 * epsilon * (4 + 4 * T / ax) ^ 2 * (ax * ax)) with (16 * (100 * epsilon * (ax + T) ^ 2)) by (field; lra).
    replace (8 * (4 * T / ax) * (ax * ax)) with (16 * (2 * T * ax)) by (field; lra). apply Rmult_lt_compat_l; [lra|].
    apply Rle_lt_trans with (100 * epsilon * (1 + T) ^ 2); [apply Rmult_le_compat_l; [lra|apply pow_incr; lra]|].
    assert (X3 : 1 <= ax * INR n) by (apply (Rmult_le_compat_r (INR n)) in X1; [|lra]; replace (1 / INR n * INR n) with 1 in X1 by (field; lra); exact X1).
    apply (Rmult_lt_reg_r (INR n)); [lra|]. assert (Q1 : 0 <= 100 * epsilon * INR n) by (apply Rmult_le_pos; lra).
    assert (S2 : 0 < (1 + T) ^ 2) by (apply pow_lt; lra).
    apply Rlt_le_trans with (Rmin w (1 - w) * (1 + T) ^ 2).
    + replace (100 * epsilon * (1 + T) ^ 2 * INR n) with (100 * epsilon * INR n * (1 + T) ^ 2) by ring. apply Rmult_lt_compat_r; [exact S2|]. nra.
    + eapply Rle_trans; [exact TM|]. nra.
  - (* band-pass zeros *)
    destruct (two_freqs Bandpass wn (or_introl eq_refl) Hv) as [b0 [m0 [Eb Em]]]. destruct HC as [_ HC].
    set (T0 := tan (PI * nth 0 wn 0 / 2)) in *. set (T1 := tan (PI * nth 1 wn 0 / 2)) in *. set (m := sqrt (T0 * T1)) in *. set (b := T1 - T0) in *.
    unfold lp2bp_zpk_dyn in E1. cbn [zk_z zk_p zk_k unwrap_or] in E1. rewrite RD, Em, Eb in E1. cbn [bind] in E1. inversion E1; subst f1. cbn [zk_z].
    apply Forall_app. split; [|apply Forall_forall; intros s Hs; apply repeat_spec in Hs; subst s; apply clear_0].
    apply Forall_forall. intros s Hs. apply in_pm in Hs. destruct Hs as [a [Ha Er]]. apply in_map_iff in Ha. destruct Ha as [r [<- Hr]]. apply in_map_iff in Hr. destruct Hr as [x [<- Hx]].
    destruct (xs_range n x Hn Hx) as [X0 [X1 X2]]. assert (A0 : 0 < Rabs x) by (apply Rabs_pos_lt; exact X0).
    assert (Es : (s * s - RtoC (4 * b)%R * (0, 1 / x)%R * s + RtoC (4 * m * (4 * m))%R = C0)%C).
    { rewrite <- Er. clearbody m b. apply C_ext; destruct s; cbn; field; exact X0. }
    assert (Ex : Rabs (1 / x) = / Rabs x) by (unfold Rdiv; rewrite Rabs_mult, Rabs_inv, Rabs_R1; ring).
    assert (Hre : cre s = 0).
    { apply (imag_root s (4 * b * (1 / x)) (4 * m)); [lra|]. rewrite <- Es. apply C_ext; destruct s; cbn; ring. }
    apply (band_clear 0 epsilon m b (INR n) 1 1 (0, 1 / x)); try assumption; try lra.
    + rewrite cnorm_imag, Ex. apply Rmult_le_reg_r with (Rabs x); [exact A0|]. rewrite Rinv_l by lra. apply (Rmult_le_compat_r (INR n)) in X1; [|lra]. replace (1 / INR n * INR n) with 1 in X1 by (field; lra). lra.
    + right. cbn [cim snd]. rewrite Ex, <- Rinv_1. apply Rinv_le_contravar; [exact A0|exact X2].
    + intros [j Q]. lia.
  - (* low-pass poles *)
    unfold lp2lp_zpk_dyn in E1. cbn [zk_z zk_p zk_k unwrap_or] in E1. rewrite RD in E1. cbn [bind] in E1. inversion E1; subst f1. cbn [zk_p] in *.
    destruct Hv as [Hw1 [Hf _]]. destruct wn as [|w [|? ?]]; try discriminate Hw1. pose proof (Forall_inv Hf) as Hw. cbn [nth map] in *.
    apply Forall_forall. intros s Hs. pose proof (Rlt_le _ _ (St s Hs)) as Hre. apply in_map_iff in Hs. destruct Hs as [q [Eq Hq]]. apply in_map_iff in Hq. destruct Hq as [p [<- Hp]].
    apply in_map_iff in Hp. destruct Hp as [j [<- Hj]]. apply in_seq in Hj. pose proof (ep_neq0 n sh ch Hsh Hsc j) as P0.
    assert (Es : s = (RtoC (warp w) / ep n sh ch j)%C) by (rewrite <- Eq; change (warp w, 0) with (RtoC (warp w)); field; exact P0).
    rewrite Es in *. apply hp_clear; try assumption; lia.
  - (* band-pass poles *)
    destruct (two_freqs Bandpass wn (or_introl eq_refl) Hv) as [b0 [m0 [Eb Em]]]. destruct HC as [HC _]. unfold clear_of_tolerance in HC. cbv zeta in HC. destruct HC as [HC1 HC2].
    set (T0 := tan (PI * nth 0 wn 0 / 2)) in *. set (T1 := tan (PI * nth 1 wn 0 / 2)) in *. set (m := sqrt (T0 * T1)) in *. set (b := T1 - T0) in *.
    unfold lp2bp_zpk_dyn in E1. cbn [zk_z zk_p zk_k unwrap_or] in E1. rewrite RD, Em, Eb in E1. cbn [bind] in E1. inversion E1; subst f1. cbn [zk_p] in *.
    apply Forall_forall. intros s Hs. pose proof (Rlt_le _ _ (St s Hs)) as Hre. apply in_pm in Hs. destruct Hs as [a [Ha Er]]. apply in_map_iff in Ha. destruct Ha as [q [<- Hq]].
    apply in_map_iff in Hq. destruct Hq as [p [<- Hp]]. apply in_map_iff in Hp. destruct Hp as [j [<- Hj]]. apply in_seq in Hj. pose proof (ep_neq0 n sh ch Hsh Hsc j) as P0.
    assert (I : 0 < 1 / sh) by (apply Rdiv_lt_0_compat; lra).
    apply (band_clear n epsilon m b (1 / sh) (1 / (INR n * ch)) (1 / sh) (C1 / ep n sh ch j)%C); try assumption; try lra.
    + apply Rdiv_lt_0_compat; nra.
    + rewrite <- Er. set (q := (C1 / ep n sh ch j)%C). clearbody m b. apply C_ext; destruct q, s; cbn; field.
    + rewrite inv_norm by exact P0. unfold Rdiv. rewrite Rmult_1_l. apply Rinv_le_contravar; [lra|]. apply (ep_norm n sh ch Hsh Hsc); assumption.
    + destruct (epi_im n sh ch Hn Hsh Hsc Hc1 j ltac:(lia)) as [Q|Q]; [left; exact Q|right; exact Q].
Qed.
End Two.

Lemma cheb2_axis_mu N rs : 0 < rs -> cheb2_axis N rs = mu N (eps2 rs).
Proof.
  intros Hr. unfold cheb2_axis, mu, s0, eps2. pose proof (Rpower_10_gt (rs / 10) ltac:(lra)) as G. replace (1 / 10 * rs) with (rs / 10) by field.
  set (q := sqrt (Rpower 10 (rs / 10) - 1)). assert (0 < q) by (apply sqrt_lt_R0; lra). replace (1 / (1 / q)) with q by (field; lra). reflexivity.
Qed.
(** The design's zeros and poles are clear of the tolerance under the stated condition. *)
Theorem C118_cheby2_clear epsilon sort N rp rs wn bt analog fs f :
  0 <= epsilon -> (0 < N)%nat -> 0 <= rp -> 0 < rs -> analog <> Some true -> valid_digital bt (normalised wn fs) -> bt = Lowpass \/ bt = Bandpass ->
  clear_of_tolerance2 epsilon bt N (cosh (cheb2_axis N rs)) (sinh (cheb2_axis N rs)) (normalised wn fs) ->
  iirfilter_dyn epsilon sort N wn (Some rp) (Some rs) (Some bt) (Some ChebyshevII) analog (Some OutZpk) fs = Ok (DZpk f) ->
  separated epsilon (zk_z f) /\ separated epsilon (zk_p f).
Proof.
  intros He HN Hrp Hr Ha Hv Hb HC E. rewrite cheby2_reduced in E by assumption. rewrite (cheb2ap_eq N rs HN) in E.
  destruct (apply_band bt _ (map warp (normalised wn fs))) as [f1| | |] eqn:E1; cbn [bind] in E; try discriminate.
  destruct (bilinear_zpk_dyn f1 2) as [f2| | |] eqn:E2; cbn [bind] in E; try discriminate.
  assert (f2 = f) as -> by (unfold finish in E; cbn [unwrap_or] in E; apply (f_equal (fun x => match x with Ok (DZpk g) => g | _ => f2 end)) in E; exact E).
  pose proof (eps2_pos rs Hr) as Hp. pose proof (sinh_mu N (eps2 rs) HN Hp) as Hsh. rewrite (cheb2_axis_mu N rs Hr) in HC.
  pose proof (P2_stable N rs HN Hr) as St. pose proof (P2_closed N rs) as Cc. pose proof (Z2_closed N HN) as Cz. set (u := mu N (eps2 rs)) in *.
  change (cp N (eps2 rs)) with (ep N (sinh u) (cosh u)) in *.
  assert (Ex : exp u * exp (- u) = 1) by (rewrite <- exp_plus, Rplus_opp_r; apply exp_0).
  pose proof (exp_pos u) as P1. pose proof (exp_pos (- u)) as P2.
  apply (design_clear2 N (sinh u) (cosh u) epsilon HN Hsh) with (k := k2 N rs) (bt := bt) (wn := normalised wn fs) (f1 := f1); try assumption.
  - unfold sinh, cosh. lra.
  - unfold cosh. pose proof (Rle_0_sqr (exp u - exp (- u))) as Sq. unfold Rsqr in Sq. destruct (Rle_lt_dec 2 (exp u + exp (- u))) as [L|L]; [lra|exfalso; nra].
Qed.
Print Assumptions C118_cheby2_clear.

(** Sections: for every order, attenuation, low-pass or band-pass edges that satisfy the condition,
    iirfilter_dyn returns stable sections, and sosfilt with them scales each sinusoid by the
    Chebyshev II gain: 1 at the reference frequency, at most 10^(-rs/20) in the stop band. *)
Theorem C118_cheby2_sections epsilon sort N rp rs wn bt analog fs :
  0 <= epsilon -> is_sort sort -> (0 < N)%nat -> 0 <= rp -> 0 < rs -> analog <> Some true -> valid_digital bt (normalised wn fs) -> bt = Lowpass \/ bt = Bandpass ->
  clear_of_tolerance2 epsilon bt N (cosh (cheb2_axis N rs)) (sinh (cheb2_axis N rs)) (normalised wn fs) ->
  let maximum := Rpower 10 (- rs / 10) in
  exists l, iirfilter_dyn epsilon sort N wn (Some rp) (Some rs) (Some bt) (Some ChebyshevII) analog (Some OutSos) fs = Ok (DSos l) /\ stable_sections l /\
    length l = Nat.max 1 ((band_arity bt * N + 1) / 2) /\
    forall theta, exists g psi, 0 <= g /\ steady_response l theta g psi /\
      (let (a, b) := band_ratio bt (normalised wn fs) theta in
       (a = 0 -> g = 1) /\ (a <> 0 -> chebT N (b / a) = 0 -> g = 0) /\
       (a <> 0 -> chebT N (b / a) <> 0 -> g ^ 2 = 1 / (1 + (Rpower 10 (rs / 10) - 1) / chebT N (b / a) ^ 2)) /\
       (Rabs b <= Rabs a -> g ^ 2 <= maximum) /\ (Rabs a <= Rabs b -> maximum <= g ^ 2 <= 1)) /\
      (reference bt (normalised wn fs) theta -> g = 1) /\
      (forall w, In w (normalised wn fs) -> theta = PI * w -> g ^ 2 = maximum).
Proof.
  intros He Hso HN Hrp Hr Ha Hv Hb HC maximum.
  destruct (C78_cheby2_digital_partial epsilon sort N rp rs wn bt analog fs Hso He HN Hrp Hr Ha Hv Hb) as [f [Ef [Hst [Hrf [Lz [Lp [G1 [G3 [G2 _]]]]]]]]].
  destruct (C118_cheby2_clear epsilon sort N rp rs wn bt analog fs f He HN Hrp Hr Ha Hv Hb HC Ef) as [Sz Sp].
  destruct (sos_agrees epsilon sort N f He Hso Hrf Hst Lz Sz Sp) as [l [El [Ll [Fs [Hx Hd]]]]].
  exists l. split.
  { rewrite cheby2_reduced in * by assumption.
    destruct (apply_band bt _ (map warp (normalised wn fs))) as [f1| | |]; cbn [bind] in *; try discriminate Ef.
    destruct (bilinear_zpk_dyn f1 2) as [f2| | |]; cbn [bind] in *; try discriminate Ef.
    assert (f2 = f) as -> by (unfold finish in Ef; cbn [unwrap_or] in Ef; apply (f_equal (fun x => match x with Ok (DZpk g) => g | _ => f2 end)) in Ef; exact Ef). exact El. }
  split; [split; [eapply Forall_impl; [|exact Fs]; intros s Q'; apply Q'|exact Hd]|]. split; [rewrite Ll, Lp; reflexivity|].
  intros theta. destruct (sos_steady f l theta Hst Fs Hx Hd) as [g [psi [Hg [Eg St]]]]. exists g, psi. split; [exact Hg|]. split; [exact St|].
  replace (g ^ 2) with (dgain_sqr f theta) by (rewrite <- Eg; ring).
  split; [|split].
  - specialize (G1 theta). destruct (band_ratio bt (normalised wn fs) theta) as [a b]. destruct G1 as [A1 [A2 [A3 [A4 A5]]]].
    split; [intros Q; specialize (A1 Q); rewrite <- Eg in A1; nra|]. split; [intros Q Y; specialize (A2 Q Y); rewrite <- Eg in A2; nra|].
    split; [exact A3|]. split; assumption.
  - intros Q. specialize (G2 theta Q). rewrite <- Eg in G2. nra.
  - intros w Hw ->. apply G3, Hw.
Qed.
Print Assumptions C118_cheby2_sections.

(** At f64's epsilon: attenuation 10 log10 2 (so that the axis is arsinh 1 / N), every low-pass order up to 1000 and every
    cutoff between 1e-10 and 1 - 1e-10 of Nyquist; and the band-pass of order 2 between 1/3 and 2/3. *)
Lemma axis_ex N : (0 < N)%nat -> let u := cheb2_axis N (10 * (ln 2 / ln 10)) in 0 < sinh u <= 1 /\ 1 <= cosh u <= 3 / 2.
Proof.
  intros HN u. assert (Hn : 1 <= INR N) by (apply (le_INR 1); lia). assert (L10 : 0 < ln 10) by (rewrite <- ln_1; apply ln_increasing; lra).
  assert (Eu : u = arcsinh 1 / INR N).
  { unfold u, cheb2_axis. replace (Rpower 10 (10 * (ln 2 / ln 10) / 10) - 1) with 1; [rewrite sqrt_1; reflexivity|].
    unfold Rpower. replace (10 * (ln 2 / ln 10) / 10 * ln 10) with (ln 2) by (field; lra). rewrite exp_ln by lra. ring. }
  rewrite Eu. clear u Eu. set (u := arcsinh 1 / INR N).
  assert (A0 : 0 < arcsinh 1) by (rewrite <- arcsinh_0; apply arcsinh_lt; lra).
  assert (U0 : 0 < u) by (apply Rdiv_lt_0_compat; lra).
  assert (U1 : u <= arcsinh 1).
  { unfold u. apply (Rmult_le_reg_r (INR N)); [lra|]. replace (arcsinh 1 / INR N * INR N) with (arcsinh 1) by (field; lra). nra. }
  assert (S : sinh u <= 1). { rewrite <- (sinh_arcsinh 1). destruct (Rle_lt_or_eq_dec _ _ U1) as [L|L]; [left; apply sinh_lt, L|rewrite L; apply Rle_refl]. }
  assert (S0 : 0 < sinh u) by (rewrite <- sinh_0; apply sinh_lt, U0).
  assert (C2 : cosh u * cosh u = 1 + sinh u * sinh u).
  { assert (Ex : exp u * exp (- u) = 1) by (rewrite <- exp_plus, Rplus_opp_r; apply exp_0). unfold cosh, sinh. nra. }
  assert (C0' : 0 < cosh u) by (unfold cosh; pose proof (exp_pos u); pose proof (exp_pos (- u)); lra).
  split; [lra|]. split; nra.
Qed.
Example C118_lowpass_ex N w : (0 < N <= 1000)%nat -> 1 / 10 ^ 10 <= w <= 1 - 1 / 10 ^ 10 ->
  let u := cheb2_axis N (10 * (ln 2 / ln 10)) in clear_of_tolerance2 (1 / 2 ^ 52) Lowpass N (cosh u) (sinh u) [w].
Proof.
  intros HN Hw u. destruct (axis_ex N ltac:(lia)) as [_ [C1' C2]]. fold u in C1', C2. unfold clear_of_tolerance2, clear_of_tolerance. cbn [nth].
  assert (Hn2 : INR N <= 1000) by (rewrite INR_IZR_INZ; apply IZR_le; lia). assert (Hn : 0 <= INR N) by apply pos_INR.
  apply Rlt_le_trans with (1 / 10 ^ 10); [|apply Rmin_glb; lra].
  apply Rle_lt_trans with (100 * (1 / 2 ^ 52) * (1000 * 2)); [|lra]. rewrite Rmult_assoc. apply Rmult_le_compat_l; [lra|]. apply Rmult_le_compat; lra.
Qed.
Example C118_bandpass_ex :
  let u := cheb2_axis 2 (10 * (ln 2 / ln 10)) in clear_of_tolerance2 (1 / 2 ^ 52) Bandpass 2 (cosh u) (sinh u) [1 / 3; 2 / 3].
Proof.
  intros u. destruct (axis_ex 2 ltac:(lia)) as [[S0 S1'] [C1' C2']]. fold u in S0, S1', C1', C2'.
  assert (A1 : PI * (1 / 3) / 2 = PI / 6) by field. assert (A2 : PI * (2 / 3) / 2 = PI / 3) by field.
  unfold clear_of_tolerance2, clear_of_tolerance. cbn [nth]. rewrite A1, A2, tan_PI6, tan_PI3. cbv zeta.
  set (b := sqrt 3 - 1 / sqrt 3). set (m := sqrt (1 / sqrt 3 * sqrt 3)).
  assert (S3' : 0 < sqrt 3) by (apply sqrt_lt_R0; lra). assert (S3 : sqrt 3 * sqrt 3 = 3) by (apply sqrt_sqrt; lra).
  assert (S1 : 17 / 10 < sqrt 3 < 18 / 10) by (split; nra).
  assert (Eb : b = sqrt 3 * 2 / 3). { unfold b. apply (Rmult_eq_reg_r (sqrt 3)); [|lra]. replace ((sqrt 3 - 1 / sqrt 3) * sqrt 3) with (sqrt 3 * sqrt 3 - 1) by (field; lra). nra. }
  assert (Em : m = 1). { unfold m. replace (1 / sqrt 3 * sqrt 3) with 1 by (field; lra). apply sqrt_1. }
  rewrite Em. assert (B : 1 < b < 12 / 10) by lra. replace (INR 2) with 2 by (cbn; ring).
  (* sinh u is at least 1/3, as sinh (2 u) = 1 *)
  assert (SU : 1 / 3 <= sinh u).
  { assert (E2 : 2 * sinh u * cosh u = 1).
    { assert (L10 : 0 < ln 10) by (rewrite <- ln_1; apply ln_increasing; lra).
      assert (Eu : u + u = arcsinh 1).
      { unfold u, cheb2_axis. replace (Rpower 10 (10 * (ln 2 / ln 10) / 10) - 1) with 1; [rewrite sqrt_1; cbn [INR]; field|].
        unfold Rpower. replace (10 * (ln 2 / ln 10) / 10 * ln 10) with (ln 2) by (field; lra). rewrite exp_ln by lra. ring. }
      rewrite <- (sinh_arcsinh 1), <- Eu. unfold sinh, cosh. rewrite Ropp_plus_distr, !exp_plus. field. }
    assert (sinh u * cosh u <= sinh u * (3 / 2)) by (apply Rmult_le_compat_l; lra). lra. }
  assert (I : 0 < 1 / sinh u <= 3).
  { split; [apply Rdiv_lt_0_compat; lra|]. apply Rle_trans with (1 / (1 / 3)); [|lra]. unfold Rdiv at 1 2. rewrite !Rmult_1_l. apply Rinv_le_contravar; lra. }
  assert (J : 1 / 3 <= 1 / (2 * cosh u)). { unfold Rdiv. rewrite !Rmult_1_l. apply Rinv_le_contravar; lra. }
  set (i := 1 / sinh u) in *. set (j := 1 / (2 * cosh u)) in *. clearbody i j b. clear - I J B.
  assert (K : forall q, 0 <= q <= 3 -> (1 + 1 + b * q) ^ 2 * (1 + b * q) ^ 2 <= 900).
  { intros q Hq. assert (0 <= b * q <= 36 / 10) by nra. replace 900 with (6 ^ 2 * 5 ^ 2) by ring. apply Rmult_le_compat; try apply pow2_ge_0; apply pow_incr; lra. }
  split; [split|].
  - rewrite Rmult_assoc. pose proof (K i ltac:(lra)). assert (2 / 3 <= 2 * b * j * 1 ^ 2) by nra. set (z := (1 + 1 + b * i) ^ 2 * (1 + b * i) ^ 2) in *. lra.
  - intros [q Q]. lia.
  - rewrite Rmult_assoc. pose proof (K 2 ltac:(lra)). set (z := (1 + 1 + b * 2) ^ 2 * (1 + b * 2) ^ 2) in *. lra.
Qed.
