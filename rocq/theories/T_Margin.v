(** C82: digital designs in second-order sections, with a condition on the arguments only. *)
From Coq Require Import List Arith ZArith Reals Permutation Lra Lia Sorted.
From Verif Require Import Base Num Trans M_Complex M_Design M_Filter RSum Cx ListUtil S_Design S_Bessel S_Filter S_Stable S_Margin P_Bessel P_Savgol P_Poly P_Lp P_CPoly P_Proto P_Cheb P_Iir P_Iir2 P_Sos P_Stable P_Margin T_Iir T_Sos T_Stable T_ZeroPhase.
Import ListNotations.
Local Open Scope R_scope.

Lemma zpk_steps epsilon sort ft N wn rp rs bt analog fs p k f :
  proto ft N rp rs = mkZpk [] p k -> ripple_ok ft rp rs -> analog <> Some true -> valid_digital bt (normalised wn fs) ->
  iirfilter_dyn epsilon sort N wn rp rs (Some bt) (Some ft) analog (Some OutZpk) fs = Ok (DZpk f) ->
  exists f1, apply_band bt (mkZpk [] p k) (map warp (normalised wn fs)) = Ok f1 /\ bilinear_zpk_dyn f1 2 = Ok f.
Proof.
  intros Hpr Hro Ha Hv E.
  assert (Ea : unwrap_or analog false = false) by (destruct analog as [[|]|]; [contradiction Ha; reflexivity|reflexivity|reflexivity]).
  rewrite iir_good in E.
  2:{ cbn [unwrap_or]. rewrite Ea. apply valid_not_bad; [exact (proj1 (valid_digital_freqs _ _ Hv))|intros _; exact (proj2 (valid_digital_freqs _ _ Hv))|discriminate|exact Hro]. }
  cbn [unwrap_or] in E. rewrite Ea in E. unfold reduced in E. cbv zeta in E. rewrite Hpr in E.
  destruct (apply_band bt (mkZpk [] p k) (map warp (normalised wn fs))) as [f1| | |] eqn:E1; cbn [bind] in E; try discriminate.
  destruct (bilinear_zpk_dyn f1 2) as [f2| | |] eqn:E2; cbn [bind] in E; try discriminate.
  exists f1. split; [reflexivity|]. unfold finish in E. cbn [unwrap_or] in E. rewrite E2. f_equal.
  apply (f_equal (fun x => match x with Ok (DZpk g) => g | _ => f2 end)) in E. exact E.
Qed.
Lemma bp_ep n : map (bp n) (seq 0 n) = map (ep n 1 1) (seq 0 n).
Proof. apply map_ext. intros k. unfold bp, ep. apply C_ext; cbn; ring. Qed.
(** The design's zeros and poles are clear of the tolerance under the stated condition. *)
Theorem C82_butter_clear epsilon sort N wn bt analog fs f :
  0 <= epsilon -> (0 < N)%nat -> analog <> Some true -> valid_digital bt (normalised wn fs) ->
  clear_of_tolerance epsilon bt N 1 1 (normalised wn fs) ->
  butter_dyn epsilon sort N wn (Some bt) analog (Some OutZpk) fs = Ok (DZpk f) ->
  separated epsilon (zk_z f) /\ separated epsilon (zk_p f).
Proof.
  intros He HN Ha Hv HC E. unfold butter_dyn in E. cbn [unwrap_or] in E.
  assert (Ha' : Some (unwrap_or analog false) <> Some true) by (destruct analog as [[|]|]; [contradiction Ha; reflexivity|discriminate|discriminate]).
  destruct (zpk_steps epsilon sort Butterworth N wn None None bt _ fs _ 1 f (proto_butter N None None) butter_ripple_ok Ha' Hv E) as [f1 [E1 E2]].
  pose proof (butter_poles_stable N) as St. pose proof (buttap_closed N) as Cc. rewrite bp_ep in *.
  apply (design_clear N 1 1 epsilon 1 bt (normalised wn fs) f1 f); try assumption; lra.
Qed.
Print Assumptions C82_butter_clear.
Theorem C82_cheby1_clear epsilon sort N rp wn bt analog fs f :
  0 <= epsilon -> (0 < N)%nat -> 0 < rp -> analog <> Some true -> valid_digital bt (normalised wn fs) ->
  clear_of_tolerance epsilon bt N (cosh (cheb_axis N rp)) (sinh (cheb_axis N rp)) (normalised wn fs) ->
  cheby1_dyn epsilon sort N rp wn (Some bt) analog (Some OutZpk) fs = Ok (DZpk f) ->
  separated epsilon (zk_z f) /\ separated epsilon (zk_p f).
Proof.
  intros He HN Hr Ha Hv HC E. unfold cheby1_dyn in E.
  pose proof (eps1_pos rp Hr) as Hp. pose proof (mu_pos N (eps1 rp) HN Hp) as Hmu. pose proof (sinh_mu N (eps1 rp) HN Hp) as Hsh.
  destruct (zpk_steps epsilon sort ChebyshevI N wn (Some rp) None bt analog fs (map (cp N (eps1 rp)) (seq 0 N)) (k1 N rp) f (cheb1ap_eq N rp HN) (cheby1_ripple_ok rp Hr) Ha Hv E) as [f1 [E1 E2]].
  assert (St : Forall (fun r => cre r < 0) (map (cp N (eps1 rp)) (seq 0 N))).
  { apply Forall_forall. intros p Hin. apply in_map_iff in Hin. destruct Hin as [k [<- Hk]]. apply in_seq in Hk. apply cp_stable; [exact HN|exact Hp|lia]. }
  pose proof (cp_closed N (eps1 rp)) as Cc.
  change (cheb_axis N rp) with (mu N (eps1 rp)) in HC. set (u := mu N (eps1 rp)) in *.
  change (cp N (eps1 rp)) with (ep N (sinh u) (cosh u)) in *.
  assert (Ex : exp u * exp (- u) = 1) by (rewrite <- exp_plus, Rplus_opp_r; apply exp_0).
  pose proof (exp_pos u) as P1. pose proof (exp_pos (- u)) as P2.
  apply (design_clear N (sinh u) (cosh u) epsilon (k1 N rp) bt (normalised wn fs) f1 f); try assumption.
  - unfold sinh, cosh. lra.
  - unfold cosh. pose proof (Rle_0_sqr (exp u - exp (- u))) as Sq. unfold Rsqr in Sq. destruct (Rle_lt_dec 2 (exp u + exp (- u))) as [L|L]; [lra|exfalso; nra].
Qed.
Print Assumptions C82_cheby1_clear.

(** Butterworth sections: for every order, band type and frequencies that satisfy the condition,
    butter_dyn returns stable sections and sosfilt with them scales each sinusoid by
    the Butterworth gain. *)
Theorem C82_butter_sections epsilon sort N wn bt analog fs :
  0 <= epsilon -> is_sort sort -> (0 < N)%nat -> analog <> Some true -> valid_digital bt (normalised wn fs) ->
  clear_of_tolerance epsilon bt N 1 1 (normalised wn fs) ->
  exists l, butter_dyn epsilon sort N wn (Some bt) analog (Some OutSos) fs = Ok (DSos l) /\ stable_sections l /\
    length l = Nat.max 1 ((band_arity bt * N + 1) / 2) /\
    forall theta, exists g psi, 0 <= g /\ steady_response l theta g psi /\
      (let (a, b) := band_ratio bt (normalised wn fs) theta in
       (b <> 0 -> g ^ 2 = 1 / (1 + (a / b) ^ (2 * N))) /\ (b = 0 -> g = 0)) /\
      (reference bt (normalised wn fs) theta -> g = 1) /\
      (forall w, In w (normalised wn fs) -> theta = PI * w -> g ^ 2 = 1 / 2).
Proof.
  intros He Hso HN Ha Hv HC.
  destruct (C67_sos_output epsilon sort N wn bt analog fs 0 He Hso Ha Hv) as [[f [Ef Q]] _].
  destruct (C82_butter_clear epsilon sort N wn bt analog fs f He HN Ha Hv HC Ef) as [Sz Sp].
  destruct (Q Sz Sp) as [l0 [El0 [Ll0 _]]].
  destruct (C71_butter_filters epsilon sort N wn bt analog fs f He Hso HN Ha Hv Ef Sz Sp) as [l [El [Hst R]]].
  exists l. split; [exact El|]. split; [exact Hst|]. split; [|exact R].
  rewrite El in El0. injection El0 as <-. exact Ll0.
Qed.
Print Assumptions C82_butter_sections.
Theorem C82_cheby1_sections epsilon sort N rp wn bt analog fs :
  0 <= epsilon -> is_sort sort -> (0 < N)%nat -> 0 < rp -> analog <> Some true -> valid_digital bt (normalised wn fs) ->
  clear_of_tolerance epsilon bt N (cosh (cheb_axis N rp)) (sinh (cheb_axis N rp)) (normalised wn fs) ->
  exists l, cheby1_dyn epsilon sort N rp wn (Some bt) analog (Some OutSos) fs = Ok (DSos l) /\ stable_sections l /\
    length l = Nat.max 1 ((band_arity bt * N + 1) / 2) /\
    forall theta, exists g psi, 0 <= g /\ steady_response l theta g psi /\
      let (a, b) := band_ratio bt (normalised wn fs) theta in
      (b <> 0 -> g ^ 2 = 1 / (1 + (Rpower 10 (rp / 10) - 1) * chebT N (a / b) ^ 2)) /\ (b = 0 -> g = 0) /\
      (Rabs a <= Rabs b -> Rpower 10 (- rp / 10) <= g ^ 2 <= 1) /\
      (Rabs b <= Rabs a -> g ^ 2 <= Rpower 10 (- rp / 10)).
Proof.
  intros He Hso HN Hr Ha Hv HC.
  destruct (C67_sos_output epsilon sort N wn bt analog fs rp He Hso Ha Hv) as [_ Q']. destruct (Q' HN Hr) as [f [Ef Q]].
  destruct (C82_cheby1_clear epsilon sort N rp wn bt analog fs f He HN Hr Ha Hv HC Ef) as [Sz Sp].
  destruct (Q Sz Sp) as [l0 [El0 [Ll0 _]]].
  destruct (C71_cheby1_filters epsilon sort N rp wn bt analog fs f He Hso HN Hr Ha Hv Ef Sz Sp) as [l [El [Hst R]]].
  exists l. split; [exact El|]. split; [exact Hst|]. split; [|exact R].
  rewrite El in El0. injection El0 as <-. exact Ll0.
Qed.
Print Assumptions C82_cheby1_sections.

(** At f64's epsilon every low-pass or high-pass order up to 1000 and every cutoff between 3e-11 and
    1 - 3e-11 of Nyquist meets the condition ... *)
Example C82_lowpass_ex N w bt : bt = Lowpass \/ bt = Highpass -> (0 < N <= 1000)%nat -> 3 / 10 ^ 11 <= w <= 1 - 3 / 10 ^ 11 ->
  clear_of_tolerance (1 / 2 ^ 52) bt N 1 1 [w].
Proof.
  intros Hb HN Hw. assert (Q : 100 * (1 / 2 ^ 52) * INR N * 1 < Rmin w (1 - w)).
  { apply Rlt_le_trans with (3 / 10 ^ 11); [|apply Rmin_glb; lra]. assert (INR N <= 1000) by (rewrite INR_IZR_INZ; apply IZR_le; lia).
    assert (0 <= INR N) by apply pos_INR. lra. }
  destruct Hb as [-> | ->]; exact Q.
Qed.
(** ... and so do the band-pass and band-stop designs between 1/3 and 2/3 of Nyquist ... *)
Example C82_bandpass_ex N bt : bt = Bandpass \/ bt = Bandstop -> (0 < N <= 1000)%nat ->
  clear_of_tolerance (1 / 2 ^ 52) bt N 1 1 [1 / 3; 2 / 3].
Proof.
  intros Hb HN. assert (Hn : 0 < INR N) by (apply lt_0_INR; lia). assert (Hn2 : INR N <= 1000) by (rewrite INR_IZR_INZ; apply IZR_le; lia).
  set (b := sqrt 3 - 1 / sqrt 3). set (m := sqrt (1 / sqrt 3 * sqrt 3)).
  assert (S0 : 0 < sqrt 3) by (apply sqrt_lt_R0; lra). assert (S3 : sqrt 3 * sqrt 3 = 3) by (apply sqrt_sqrt; lra).
  assert (S1 : 17 / 10 < sqrt 3 < 18 / 10) by (split; nra).
  assert (Eb : b = sqrt 3 * 2 / 3). { unfold b. apply (Rmult_eq_reg_r (sqrt 3)); [|lra]. replace ((sqrt 3 - 1 / sqrt 3) * sqrt 3) with (sqrt 3 * sqrt 3 - 1) by (field; lra). nra. }
  assert (Em : m = 1). { unfold m. replace (1 / sqrt 3 * sqrt 3) with 1 by (field; lra). apply sqrt_1. }
  assert (Q : forall P, 1 / INR N <= P -> 100 * (1 / 2 ^ 52) * (1 + m + b * 1) ^ 2 * (m + b * 1) ^ 2 < 2 * b * P * m ^ 2 /\
    (Nat.Odd N -> b * 1 < 2 * m -> 100 * (1 / 2 ^ 52) * (1 + m) ^ 2 < sqrt (4 * m ^ 2 - (b * 1) ^ 2))).
  { intros P HP. rewrite Em. assert (B : 1 < b < 12 / 10) by lra. assert (P0 : 1 / 1000 <= P).
    { apply Rle_trans with (2 := HP). unfold Rdiv. rewrite !Rmult_1_l. apply Rinv_le_contravar; lra. }
    split.
    - assert (U1 : (1 + 1 + b * 1) ^ 2 <= 16) by nra. assert (U2 : (1 + b * 1) ^ 2 <= 16) by nra. assert (U3 : 0 <= (1 + b * 1) ^ 2) by apply pow2_ge_0.
      assert (U : (1 + 1 + b * 1) ^ 2 * (1 + b * 1) ^ 2 <= 256) by (replace 256 with (16 * 16) by ring; apply Rmult_le_compat; try apply pow2_ge_0; assumption).
      assert (V : 2 / 1000 <= 2 * b * P * 1 ^ 2) by nra. rewrite Rmult_assoc. set (z := (1 + 1 + b * 1) ^ 2 * (1 + b * 1) ^ 2) in *. lra.
    - intros _ _. apply Rlt_le_trans with 1; [lra|]. rewrite <- sqrt_1 at 1. apply sqrt_le_1_alt. nra. }
  assert (A1 : PI * (1 / 3) / 2 = PI / 6) by field. assert (A2 : PI * (2 / 3) / 2 = PI / 3) by field.
  destruct Hb as [-> | ->]; unfold clear_of_tolerance; cbn [nth]; rewrite A1, A2, tan_PI6, tan_PI3; fold b m.
  - apply Q, Rle_refl.
  - replace (1 / 1) with 1 by field. rewrite (Rmult_1_r (INR N)). apply Q, Rle_refl.
Qed.
(** ... and the Chebyshev low-pass with ripple 10 log10 2 (3.01 dB). *)
Example C82_cheby1_ex N w : (0 < N <= 1000)%nat -> 1 / 10 ^ 10 <= w <= 1 - 1 / 10 ^ 10 ->
  let rp := 10 * (ln 2 / ln 10) in
  clear_of_tolerance (1 / 2 ^ 52) Lowpass N (cosh (cheb_axis N rp)) (sinh (cheb_axis N rp)) [w].
Proof.
  intros HN Hw rp. assert (Hn : 1 <= INR N) by (apply (le_INR 1); lia). assert (Hn2 : INR N <= 1000) by (rewrite INR_IZR_INZ; apply IZR_le; lia).
  assert (L10 : 0 < ln 10) by (rewrite <- ln_1; apply ln_increasing; lra).
  assert (E : cheb_axis N rp = arcsinh 1 / INR N).
  { unfold cheb_axis. replace (Rpower 10 (rp / 10) - 1) with 1; [rewrite sqrt_1; f_equal; f_equal; field|].
    unfold Rpower. replace (rp / 10 * ln 10) with (ln 2) by (unfold rp; field; lra). rewrite exp_ln by lra. ring. }
  cbn [clear_of_tolerance nth]. unfold clear_of_tolerance. cbn [nth]. rewrite E. set (u := arcsinh 1 / INR N).
  assert (A0 : 0 < arcsinh 1) by (rewrite <- arcsinh_0; apply arcsinh_lt; lra).
  assert (U0 : 0 < u) by (apply Rdiv_lt_0_compat; lra).
  assert (U1 : u <= arcsinh 1).
  { unfold u. apply (Rmult_le_reg_r (INR N)); [lra|]. replace (arcsinh 1 / INR N * INR N) with (arcsinh 1) by (field; lra). nra. }
  assert (S : sinh u <= 1). { rewrite <- (sinh_arcsinh 1). destruct (Rle_lt_or_eq_dec _ _ U1) as [L|L]; [left; apply sinh_lt, L|rewrite L; apply Rle_refl]. }
  assert (S0 : 0 < sinh u) by (rewrite <- sinh_0; apply sinh_lt, U0).
  assert (C2 : cosh u * cosh u = 1 + sinh u * sinh u).
  { assert (Ex : exp u * exp (- u) = 1) by (rewrite <- exp_plus, Rplus_opp_r; apply exp_0). unfold cosh, sinh. nra. }
  assert (C : cosh u <= 2) by nra.
  assert (C0' : 0 < cosh u) by (unfold cosh; pose proof (exp_pos u); pose proof (exp_pos (- u)); lra).
  apply Rlt_le_trans with (1 / 10 ^ 10); [|apply Rmin_glb; lra].
  apply Rle_lt_trans with (100 * (1 / 2 ^ 52) * (1000 * 2)); [|lra]. rewrite Rmult_assoc. apply Rmult_le_compat_l; [lra|]. apply Rmult_le_compat; lra.
Qed.
