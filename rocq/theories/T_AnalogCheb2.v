(** C125: second-order sections of analog Chebyshev II filters. *)
From Coq Require Import List Arith ZArith Reals Permutation Lra Lia Sorted.
From Verif Require Import Base Num Trans M_Complex M_Design M_Filter RSum Cx ListUtil S_Design S_Bessel S_Filter S_Stable S_Margin S_Margin2 S_AnalogSos S_AnalogCheb2 P_Bessel P_Savgol P_Poly P_Lp P_CPoly P_Proto P_Cheb P_Iir P_Iir2 P_Cheb2 P_Sos P_Sos2 P_Stable P_Margin P_AnalogSos P_AnalogCheb2 T_Iir T_Sos T_Cheb2 T_Stable T_ZeroPhase T_Margin T_Margin2.
Import ListNotations.
Local Open Scope R_scope.

Lemma xs_length n : (0 < n)%nat -> length (xs n) = if Nat.even n then n else (n - 1)%nat.
Proof.
  intros Hn. destruct (zm_spec n Hn) as [A [B [E1 [E2 _]]]]. unfold xs. rewrite E1. apply (f_equal (@length _)) in E2. rewrite map_length, seq_length, !app_length in E2. rewrite app_length.
  unfold Nat.odd in E2. destruct (Nat.even n); cbn [negb length] in E2; lia.
Qed.

Section Two.
Variables (n : nat) (sh ch epsilon : R).
Hypothesis Hn : (0 < n)%nat.
Hypothesis Hsh : 0 < sh.
Hypothesis Hsc : sh <= ch.
Hypothesis Hc1 : 1 <= ch.
Hypothesis He : 0 <= epsilon.
Let Z := map (fun x => ((0, 1 / x) : C)) (xs n).
Let P := map (fun r => C1 / r)%C (map (ep n sh ch) (seq 0 n)).

Lemma analog2_zeros k bt wn f1 : bt = Lowpass \/ bt = Bandpass -> valid_freqs bt wn -> apply_band bt (mkZpk Z P k) wn = Ok f1 ->
  (exists l, zk_z f1 = l ++ (match bt with Bandpass => repeat C0 (n - length (xs n)) | _ => [] end) /\
    length l = (band_arity bt * length (xs n))%nat /\ Forall (fun r => cre r = 0 /\ cim r <> 0) l) /\
  (k <> 0 -> zk_k f1 <> 0).
Proof.
  intros Hb Hv E1. destruct (analog_freqs bt wn Hv) as [W0 TF].
  assert (LP : length P = n) by (unfold P; rewrite !map_length, seq_length; reflexivity).
  assert (LZ : length Z = length (xs n)) by (unfold Z; apply map_length).
  assert (Hl : (length Z <= length P)%nat) by (rewrite LP, LZ; apply (xs_cheb n Hn 0)).
  assert (RD : relative_degree_dyn Z P = Ok (length P - length Z)%nat).
  { unfold relative_degree_dyn. destruct (Nat.ltb_spec (length P) (length Z)); [lia|reflexivity]. }
  assert (PW : forall (x : R) j, x <> 0 -> k <> 0 -> k * npow x j <> 0).
  { intros x j Hx Hk. apply Rmult_integral_contrapositive_currified; [exact Hk|]. rewrite npow_pow. apply pow_nonzero. exact Hx. }
  destruct Hb as [-> | ->]; cbn [apply_band] in E1.
  - unfold lp2lp_zpk_dyn in E1. cbn [zk_z zk_p zk_k unwrap_or] in E1. rewrite RD in E1. cbn [bind] in E1. inversion E1; subst f1. cbn [zk_z zk_k]. split; [|apply PW; lra].
    eexists. split; [symmetry; apply app_nil_r|]. split; [rewrite map_length, LZ; cbn; lia|].
    apply Forall_forall. intros s Hs. apply in_map_iff in Hs. destruct Hs as [r [<- Hr]]. apply in_map_iff in Hr. destruct Hr as [x [<- Hx]].
    destruct (xs_range n x Hn Hx) as [X0 _]. set (w := nth 0 wn 0) in *.
    assert (Es : cmul (0, 1 / x) (w, 0) = (0, w / x)) by (apply C_ext; cbn; field; exact X0).
    match goal with |- cre ?u = 0 /\ _ => replace u with ((0, w / x) : C) by (symmetry; exact Es) end. split; [reflexivity|]. cbn [cim snd]. intros Q. apply (f_equal (fun v => v * x)) in Q. unfold Rdiv in Q. rewrite Rmult_assoc, Rinv_l in Q by exact X0. lra.
  - destruct (TF (or_introl eq_refl)) as [b0 m0].
    set (m := sqrt (nth 0 wn 0 * nth 1 wn 0)) in *. set (b := nth 1 wn 0 - nth 0 wn 0) in *. clearbody m b.
    unfold lp2bp_zpk_dyn in E1. cbn [zk_z zk_p zk_k unwrap_or] in E1. rewrite RD in E1. cbn [bind] in E1. inversion E1; subst f1. cbn [zk_z zk_k]. split; [|apply PW; lra].
    rewrite LP, LZ. eexists. split; [reflexivity|]. split; [rewrite app_length, !map_length, LZ; cbn; lia|].
    apply Forall_forall. intros s Hs. apply in_pm in Hs. destruct Hs as [a [Ha Er]]. apply in_map_iff in Ha. destruct Ha as [r [<- Hr]]. apply in_map_iff in Hr. destruct Hr as [x [<- Hx]].
    destruct (xs_range n x Hn Hx) as [X0 _].
    assert (Es : (s * s - (0, (b * (1 / x))%R) * s + RtoC (m * m)%R = C0)%C).
    { rewrite <- Er. apply C_ext; destruct s; cbn; field; exact X0. }
    pose proof (imag_root s (b * (1 / x)) m m0 Es) as Hre. split; [exact Hre|]. intros Q.
    assert (s = C0) as -> by (apply C_ext; assumption). apply (f_equal cre) in Es. cbn in Es. nra.
Qed.

Lemma analog2_poles k bt wn f1 : bt = Lowpass \/ bt = Bandpass -> valid_freqs bt wn -> apply_band bt (mkZpk Z P k) wn = Ok f1 ->
  analog_clear2 epsilon bt n ch sh wn -> separated epsilon (zk_p f1).
Proof.
  intros Hb Hv E1 HC. destruct (analog_freqs bt wn Hv) as [W0 TF]. unfold analog_clear2, analog_clear in HC. cbv zeta in HC.
  assert (LP : length P = n) by (unfold P; rewrite !map_length, seq_length; reflexivity).
  assert (Hl : (length Z <= length P)%nat) by (rewrite LP; unfold Z; rewrite map_length; apply (xs_cheb n Hn 0)).
  assert (RD : relative_degree_dyn Z P = Ok (length P - length Z)%nat).
  { unfold relative_degree_dyn. destruct (Nat.ltb_spec (length P) (length Z)); [lia|reflexivity]. }
  apply Forall_forall. intros s Hs. change (clear epsilon s).
  assert (Hn' : 0 < INR n) by (apply lt_0_INR; exact Hn).
  destruct Hb as [-> | ->]; cbn [apply_band] in E1.
  - unfold lp2lp_zpk_dyn in E1. cbn [zk_z zk_p zk_k unwrap_or] in E1. rewrite RD in E1. cbn [bind] in E1. inversion E1; subst f1. cbn [zk_p] in Hs.
    apply in_map_iff in Hs. destruct Hs as [q [<- Hq]]. apply in_map_iff in Hq. destruct Hq as [p [<- Hp]]. apply in_map_iff in Hp. destruct Hp as [j [<- Hj]]. apply in_seq in Hj.
    apply clear_scale; [exact W0|]. apply (clear_inv epsilon 1); [exact Rlt_0_1|apply ep_neq0; assumption|]. apply ep_clear; try assumption. lia.
  - destruct (TF (or_introl eq_refl)) as [b0 m0]. destruct HC as [HC1 HC2].
    set (m := sqrt (nth 0 wn 0 * nth 1 wn 0)) in *. set (b := nth 1 wn 0 - nth 0 wn 0) in *. clearbody m b.
    unfold lp2bp_zpk_dyn in E1. cbn [zk_z zk_p zk_k unwrap_or] in E1. rewrite RD in E1. cbn [bind] in E1. inversion E1; subst f1. cbn [zk_p] in Hs.
    apply in_pm in Hs. destruct Hs as [a [Ha Er]]. apply in_map_iff in Ha. destruct Ha as [q [<- Hq]].
    apply in_map_iff in Hq. destruct Hq as [p [<- Hp]]. apply in_map_iff in Hp. destruct Hp as [j [<- Hj]]. apply in_seq in Hj. pose proof (ep_neq0 n sh ch Hsh Hsc j) as P0.
    assert (I : 0 < 1 / sh) by (apply Rdiv_lt_0_compat; lra).
    apply (band_clear_analog n epsilon He m b (1 / sh) (1 / (INR n * ch)) (1 / sh) (C1 / ep n sh ch j)%C); try assumption; try lra.
    + apply Rdiv_lt_0_compat; nra.
    + rewrite <- Er. set (q := (C1 / ep n sh ch j)%C). apply C_ext; destruct q, s; cbn; field.
    + rewrite inv_norm by exact P0. unfold Rdiv. rewrite Rmult_1_l. apply Rinv_le_contravar; [lra|]. apply (ep_norm n sh ch Hsh Hsc); assumption.
    + destruct (epi_im n sh ch Hn Hsh Hsc Hc1 j ltac:(lia)) as [Q|Q]; [left; exact Q|right; exact Q].
Qed.
End Two.

(** * C46 again *)
(** An odd number of poles and no real zero: panic.  This covers C46_odd_zero_free_refuted and
    every odd-order analog Chebyshev II low-pass design. *)
Theorem C46_odd_no_real_zero_refuted epsilon sort order f pairing analog :
  0 <= epsilon -> is_sort sort ->
  (pairing = Some Minimal \/ (pairing = None /\ analog = Some true)) ->
  real_filter f -> separated epsilon (zk_z f) -> separated epsilon (zk_p f) ->
  Nat.Odd (length (zk_p f)) -> Forall (fun r => cim r <> 0) (zk_z f) ->
  zpk2sos_dyn epsilon sort order f pairing analog = Panic.
Proof. apply zpk2sos_no_real_zero. Qed.
Print Assumptions C46_odd_no_real_zero_refuted.

(** * C125 *)
(** For every order, attenuation and frequencies that meet the condition, what the Sos output of an
    analog Chebyshev II low-pass or band-pass design is: the filter asked for if and only
    if the order is even. *)
Theorem C125_cheby2_analog_sections epsilon sort N rp rs wn bt :
  0 <= epsilon -> is_sort sort -> (0 < N)%nat -> 0 <= rp -> 0 < rs -> valid_freqs bt wn -> bt = Lowpass \/ bt = Bandpass ->
  analog_clear2 epsilon bt N (cosh (cheb2_axis N rs)) (sinh (cheb2_axis N rs)) wn ->
  let design output := iirfilter_dyn epsilon sort N wn (Some rp) (Some rs) (Some bt) (Some ChebyshevII) (Some true) (Some output) None in
  exists f, design OutZpk = Ok (DZpk f) /\ length (zk_p f) = (band_arity bt * N)%nat /\ analog_sections2 bt N (design OutSos) f /\
    (sections_of (design OutSos) f 0 <-> Nat.Even N).
Proof.
  intros He Hso HN Hrp Hr Hv Hb HC design.
  pose proof (eps2_pos rs Hr) as Hp. pose proof (sinh_mu N (eps2 rs) HN Hp) as Hsh. rewrite (cheb2_axis_mu N rs Hr) in HC.
  pose proof (P2_stable N rs HN Hr) as Hps. pose proof (P2_closed N rs) as Hpc. pose proof (Z2_closed N HN) as Hcz.
  pose proof (cheb2ap_eq N rs HN) as Ez.
  assert (K2 : k2 N rs <> 0).
  { intros Q. pose proof (cheb2_dc N rs HN Hr) as D. rewrite Q in D. unfold H in D. cbn [zk_z zk_p zk_k] in D.
    assert (Z0 : forall a b : C, (RtoC 0 * a / b)%C = C0) by (intros [a1 a2] [b1 b2]; apply C_ext; cbn; unfold Rdiv; ring).
    rewrite Z0 in D. apply (f_equal fst) in D. cbn in D. lra. }
  set (u := mu N (eps2 rs)) in *. change (cp N (eps2 rs)) with (ep N (sinh u) (cosh u)) in *.
  assert (Ex : exp u * exp (- u) = 1) by (rewrite <- exp_plus, Rplus_opp_r; apply exp_0).
  pose proof (exp_pos u) as P1. pose proof (exp_pos (- u)) as P2.
  assert (SC : sinh u <= cosh u) by (unfold sinh, cosh; lra).
  assert (C1' : 1 <= cosh u).
  { unfold cosh. pose proof (Rle_0_sqr (exp u - exp (- u))) as Sq. unfold Rsqr in Sq. destruct (Rle_lt_dec 2 (exp u + exp (- u))) as [L|L]; [lra|exfalso; nra]. }
  set (z := map (fun x => ((0, 1 / x) : C)) (xs N)) in *. set (p := map (fun r => C1 / r)%C (map (ep N (sinh u) (cosh u)) (seq 0 N))) in *.
  assert (Hw : valid_warped bt wn).
  { destruct Hv as [Hl' [Hf Hs]]. destruct Hb as [-> | ->]; cbn in Hl' |- *; destruct wn as [|a [|b [|? ?]]]; try discriminate Hl'; cbn [nth].
    - inversion Hf; assumption.
    - inversion Hf; subst. inversion Hs as [|? ? _ HF]; subst. inversion HF; subst. split; assumption. }
  assert (Hz : Forall (fun r => cre r = 0) z).
  { apply Forall_forall. intros r Hin. apply in_map_iff in Hin. destruct Hin as [x [<- _]]. reflexivity. }
  assert (LP : length p = N) by (unfold p; rewrite !map_length, seq_length; reflexivity).
  assert (Hl : (length z <= length p)%nat) by (rewrite LP; unfold z; rewrite map_length; apply (xs_cheb N HN 0)).
  destruct (band_specz z p (k2 N rs) Hz Hcz Hl Hps Hpc bt wn Hb Hw) as [f [E1 [Q1 [Q2 [Q3 [Q4 _]]]]]]. rewrite LP in Q4.
  assert (ED : forall output, design output = finish epsilon sort N true (Some output) f).
  { intros output. unfold design. rewrite iir_good; [|cbn [unwrap_or]; apply valid_not_bad; [exact Hv|discriminate|reflexivity|apply cheby2_ripple_ok; assumption]].
    cbn [unwrap_or]. unfold reduced. cbv zeta. cbn [proto unwrap_or normalised]. rewrite Ez, E1. reflexivity. }
  exists f. rewrite !ED. split; [reflexivity|]. split; [exact Q4|].
  destruct (analog2_zeros N (sinh u) (cosh u) HN (k2 N rs) bt wn f Hb Hv E1) as [[l [El [Ll Fl]]] Kf]. specialize (Kf K2).
  pose proof (analog2_poles N (sinh u) (cosh u) epsilon HN Hsh SC C1' He (k2 N rs) bt wn f Hb Hv E1 HC) as Hsp.
  assert (Hsl : separated epsilon l).
  { eapply Forall_impl; [|exact Fl]. intros r [R0 R1]. right. rewrite R0, Rabs_R0, Rmult_0_r. apply Rabs_pos_lt, R1. }
  assert (Hsz : separated epsilon (zk_z f)).
  { rewrite El. apply Forall_app. split; [exact Hsl|]. destruct bt; try constructor. apply Forall_forall. intros r Hin. apply repeat_spec in Hin. subst r. left. reflexivity. }
  assert (Hre : Forall (fun r => cre r = 0) (zk_z f)).
  { rewrite El. apply Forall_app. split; [eapply Forall_impl; [|exact Fl]; intros r Q; apply Q|]. destruct bt; try constructor. apply Forall_forall. intros r Hin. apply repeat_spec in Hin. subst r. reflexivity. }
  assert (Hm : (None : option ZpkPairing) = Some Minimal \/ (None : option ZpkPairing) = None /\ Some true = Some true) by (right; split; reflexivity).
  assert (Hp0 : (0 < length (zk_p f))%nat) by (rewrite Q4; destruct bt; cbn; lia).
  assert (LZ : length (zk_z f) = if Nat.even N then (band_arity bt * N)%nat else (band_arity bt * N - 1)%nat).
  { rewrite El, app_length, Ll, (xs_length N HN). destruct Hb as [-> | ->]; cbn [band_arity]; rewrite ?repeat_length; destruct (Nat.even N); cbn [length]; lia. }
  assert (Main : zpk2sos_dyn epsilon sort N f None (Some true) = Panic \/ sections_of (finish epsilon sort N true (Some OutSos) f) f (length (zk_p f) - length (zk_z f))).
  { destruct (C46_result_law epsilon sort N f None (Some true) He Hso Hm Q2 Hsz Hsp Hp0) as [Q|[sos [Es [Ls [Fs [_ Hx]]]]]]; [left; exact Q|right].
    exists sos. unfold finish. cbn [unwrap_or]. rewrite Es. split; [reflexivity|]. split; [exact Ls|]. split; [exact Fs|]. exact Hx. }
  assert (Not : sections_of (finish epsilon sort N true (Some OutSos) f) f 1 -> ~ sections_of (finish epsilon sort N true (Some OutSos) f) f 0).
  { intros [s1 [Es1 [_ [_ H1]]]] [s0 [Es0 [_ [_ H0]]]]. rewrite Es1 in Es0. injection Es0 as <-.
    assert (Z2 : RtoC 2 <> C0) by (intros Q; apply (f_equal fst) in Q; cbn in Q; lra).
    assert (N2 : ~ In (RtoC 2) (zk_p f)).
    { intros Q. unfold stable_analog in Q3. rewrite Forall_forall in Q3. specialize (Q3 _ Q). cbn in Q3. lra. }
    assert (M2 : ~ In (RtoC 2) (zk_z f)).
    { intros Q. rewrite Forall_forall in Hre. specialize (Hre _ Q). cbn in Hre. lra. }
    destruct (H1 _ Z2 N2) as [_ A]. destruct (H0 _ Z2 N2) as [_ B]. rewrite A in B. cbn [cpow] in B.
    assert (HN0 : H f (RtoC 2) <> C0).
    { unfold H. intros Q. assert (D := root_product_neq0 _ _ N2). apply (Cmul_neq0 (RtoC (zk_k f)) (root_product (zk_z f) (RtoC 2))).
      - intros Q'. apply Kf. apply (f_equal fst) in Q'. exact Q'.
      - apply root_product_neq0. exact M2.
      - transitivity (RtoC (zk_k f) * root_product (zk_z f) (RtoC 2) / root_product (zk_p f) (RtoC 2) * root_product (zk_p f) (RtoC 2))%C; [field; exact D|]. rewrite Q. ring. }
    assert (Q : RtoC 2 = C1).
    { transitivity (H f (RtoC 2) * (RtoC 2 * C1) / H f (RtoC 2))%C; [field; exact HN0|]. rewrite B. field. exact HN0. }
    apply (f_equal fst) in Q. cbn in Q. lra. }
  unfold analog_sections2. destruct (Nat.even N) eqn:Ev.
  - rewrite LZ, <- Q4, Nat.sub_diag in Main.
    assert (S0 : sections_of (finish epsilon sort N true (Some OutSos) f) f 0).
    { destruct Main as [Q|Q]; [exfalso|exact Q]. apply Nat.even_spec in Ev.
      destruct (C46_zpk2sos_analog_partial epsilon sort N f None (Some true) He Hso Hm Q2 Hsz Hsp) as [sos [Es _]]; [rewrite LZ; symmetry; exact Q4| |congruence].
      left. rewrite Q4. destruct Ev as [j ->]. exists (band_arity bt * j)%nat. lia. }
    split; [exact S0|]. split; [intros _; apply Nat.even_spec; exact Ev|intros _; exact S0].
  - assert (NE : ~ Nat.Even N) by (intros Q; apply Nat.even_spec in Q; congruence).
    assert (HO : Nat.Odd N) by (apply Nat.odd_spec; unfold Nat.odd; rewrite Ev; reflexivity).
    assert (Fin : zpk2sos_dyn epsilon sort N f None (Some true) = Panic -> finish epsilon sort N true (Some OutSos) f = Panic).
    { intros Q. unfold finish. cbn [unwrap_or]. rewrite Q. reflexivity. }
    assert (NP : finish epsilon sort N true (Some OutSos) f = Panic -> ~ sections_of (finish epsilon sort N true (Some OutSos) f) f 0).
    { intros Q [sos [Es _]]. congruence. }
    destruct Hb as [-> | ->]; cbn [band_arity] in *.
    + rewrite app_nil_r in El. assert (PN : finish epsilon sort N true (Some OutSos) f = Panic).
      { apply Fin. apply zpk2sos_no_real_zero; try assumption.
        - rewrite Q4, Nat.mul_1_l. exact HO.
        - rewrite El. eapply Forall_impl; [|exact Fl]. intros r Q. apply Q. }
      split; [exact PN|]. split; [intros Q; exact (False_ind _ (NP PN Q))|intros Q; contradiction].
    + replace (length (zk_p f) - length (zk_z f))%nat with 1%nat in Main by lia.
      destruct Main as [Q|Q].
      * split; [left; exact (Fin Q)|]. split; [intros Y; exact (False_ind _ (NP (Fin Q) Y))|intros Y; contradiction].
      * split; [right; exact Q|]. split; [intros Y; exact (False_ind _ (Not Q Y))|intros Y; contradiction].
Qed.
Print Assumptions C125_cheby2_analog_sections.

(** The condition is met: at f64's epsilon and attenuation 10 log10 2, by every low-pass order below
    10^13, and by band-pass filters of order 1 and 2. *)
Example C125_lowpass_ex N w : (0 < N)%nat -> INR N <= 10 ^ 13 -> 0 < w ->
  let u := cheb2_axis N (10 * (ln 2 / ln 10)) in analog_clear2 (/ 2 ^ 52) Lowpass N (cosh u) (sinh u) [w].
Proof.
  intros HN Hn _ u. destruct (axis_ex N HN) as [[S0 S1'] [C1' C2']]. fold u in S0, S1', C1', C2'. unfold analog_clear2, analog_clear.
  pose proof (pos_INR N) as P0. apply Rle_lt_trans with (100 * / 2 ^ 52 * INR N * 1); [apply Rmult_le_compat_l; [nra|exact S1']|].
  apply Rlt_le_trans with 1; [|exact C1']. apply Rle_lt_trans with (100 * / 2 ^ 52 * 10 ^ 13); [|lra]. rewrite Rmult_1_r. apply Rmult_le_compat_l; [lra|exact Hn].
Qed.
Example C125_bandpass_ex N : (N = 1 \/ N = 2)%nat ->
  let u := cheb2_axis N (10 * (ln 2 / ln 10)) in analog_clear2 (/ 2 ^ 52) Bandpass N (cosh u) (sinh u) [1; 4].
Proof.
  intros HN u. destruct (axis_ex N ltac:(lia)) as [[S0 S1'] [C1' C2']]. fold u in S0, S1', C1', C2'.
  assert (S4 : sqrt (1 * 4) = 2) by (replace (1 * 4) with (2 * 2) by ring; apply sqrt_square; lra).
  unfold analog_clear2, analog_clear. cbv zeta. cbn [nth]. rewrite S4.
  assert (Eu : INR N * u = arcsinh 1).
  { assert (L10 : 0 < ln 10) by (rewrite <- ln_1; apply ln_increasing; lra). assert (INR N <> 0) by (apply not_0_INR; lia).
    unfold u, cheb2_axis. replace (Rpower 10 (10 * (ln 2 / ln 10) / 10) - 1) with 1; [rewrite sqrt_1; field; assumption|].
    unfold Rpower. replace (10 * (ln 2 / ln 10) / 10 * ln 10) with (ln 2) by (field; lra). rewrite exp_ln by lra. ring. }
  assert (SU : 1 / 3 <= sinh u /\ (N = 1%nat -> sinh u = 1)).
  { destruct HN as [-> | ->]; cbn [INR] in Eu.
    - rewrite Rmult_1_l in Eu. rewrite Eu, sinh_arcsinh. split; [lra|reflexivity].
    - split; [|discriminate]. assert (E2 : 2 * sinh u * cosh u = 1).
      { rewrite <- (sinh_arcsinh 1), <- Eu. replace ((1 + 1) * u) with (u + u) by ring. unfold sinh, cosh. rewrite Ropp_plus_distr, !exp_plus. field. }
      assert (sinh u * cosh u <= sinh u * (3 / 2)) by (apply Rmult_le_compat_l; lra). lra. }
  destruct SU as [SU SN].
  assert (I : 0 < 1 / sinh u <= 3).
  { split; [apply Rdiv_lt_0_compat; lra|]. apply Rle_trans with (1 / (1 / 3)); [|lra]. unfold Rdiv at 1 2. rewrite !Rmult_1_l. apply Rinv_le_contravar; lra. }
  assert (HN2 : 1 <= INR N <= 2) by (destruct HN as [-> | ->]; cbn; lra).
  assert (J : 1 / 3 <= 1 / (INR N * cosh u)).
  { unfold Rdiv. rewrite !Rmult_1_l. apply Rinv_le_contravar; nra. }
  split.
  - set (i := 1 / sinh u) in *. set (j := 1 / (INR N * cosh u)) in *. clearbody i j.
    assert ((2 + (4 - 1) * i) ^ 3 <= 11 ^ 3) by (apply pow_incr; lra). set (z := (2 + (4 - 1) * i) ^ 3) in *. lra.
  - intros HO _. assert (N = 1%nat) as N1 by (destruct HN as [Q|Q]; [exact Q|subst N; destruct HO as [q Q]; lia]). rewrite (SN N1).
    replace (1 / 1) with 1 by field. apply Rlt_trans with 1; [lra|]. rewrite <- sqrt_1 at 1. apply sqrt_lt_1; lra.
Qed.
