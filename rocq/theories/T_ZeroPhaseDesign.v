(** Property C90: zero-phase filtering with designed sections, from conditions on the arguments only. *)
From Coq Require Import List Arith ZArith Reals Permutation Sorted Lra Lia.
From Verif Require Import Base Num Trans M_Complex M_Filter M_Design Cx S_Bessel S_Filter S_Design S_Stable S_Margin P_Sosfilt P_Filtfilt P_Lp P_Proto P_Iir2 P_Sos P_Stable P_ZeroPhase T_Iir T_Sos T_Stable T_ZeroPhase T_Margin.
Import ListNotations.
Local Open Scope R_scope.

Theorem C90_butter_zero_phase epsilon sort N wn bt analog fs :
  0 <= epsilon -> is_sort sort -> (0 < N)%nat -> analog <> Some true -> valid_digital bt (normalised wn fs) ->
  clear_of_tolerance epsilon bt N 1 1 (normalised wn fs) ->
  exists l K rho, butter_dyn epsilon sort N wn (Some bt) analog (Some OutSos) fs = Ok (DSos l) /\ 0 < rho < 1 /\
    forall theta A phi n, (3 * taps l < n)%nat -> exists g y,
      sosfiltfilt_dyn (sinusoid A theta phi n) l = Ok y /\ length y = n /\
      (forall i, (i < n)%nat -> Rabs (nth i y 0 - A * g * cos (theta * INR i + phi)) <= K * Rabs A * (rho ^ i + rho ^ (n - 1 - i))) /\
      (let (a, b) := band_ratio bt (normalised wn fs) theta in
       (b <> 0 -> g = 1 / (1 + (a / b) ^ (2 * N))) /\ (b = 0 -> g = 0)) /\
      (reference bt (normalised wn fs) theta -> g = 1) /\
      (forall w, In w (normalised wn fs) -> theta = PI * w -> g = 1 / 2).
Proof.
  intros He Hso HN Ha Hv HC. destruct (C57_butter_digital epsilon sort N wn bt analog fs HN Ha Hv) as [f [Ef _]].
  destruct (C82_butter_clear epsilon sort N wn bt analog fs f He HN Ha Hv HC Ef) as [Sz Sp].
  exact (C80_butter_zero_phase epsilon sort N wn bt analog fs f He Hso HN Ha Hv Ef Sz Sp).
Qed.
Print Assumptions C90_butter_zero_phase.

Theorem C90_cheby1_zero_phase epsilon sort N rp wn bt analog fs :
  0 <= epsilon -> is_sort sort -> (0 < N)%nat -> 0 < rp -> analog <> Some true -> valid_digital bt (normalised wn fs) ->
  clear_of_tolerance epsilon bt N (cosh (cheb_axis N rp)) (sinh (cheb_axis N rp)) (normalised wn fs) ->
  exists l K rho, cheby1_dyn epsilon sort N rp wn (Some bt) analog (Some OutSos) fs = Ok (DSos l) /\ 0 < rho < 1 /\
    forall theta A phi n, (3 * taps l < n)%nat -> exists g y,
      sosfiltfilt_dyn (sinusoid A theta phi n) l = Ok y /\ length y = n /\
      (forall i, (i < n)%nat -> Rabs (nth i y 0 - A * g * cos (theta * INR i + phi)) <= K * Rabs A * (rho ^ i + rho ^ (n - 1 - i))) /\
      (let (a, b) := band_ratio bt (normalised wn fs) theta in
       (b <> 0 -> g = 1 / (1 + (Rpower 10 (rp / 10) - 1) * chebT N (a / b) ^ 2)) /\ (b = 0 -> g = 0) /\
       (Rabs a <= Rabs b -> Rpower 10 (- rp / 10) <= g <= 1) /\
       (Rabs b <= Rabs a -> g <= Rpower 10 (- rp / 10))) /\
      (forall w, In w (normalised wn fs) -> theta = PI * w -> g = Rpower 10 (- rp / 10)).
Proof.
  intros He Hso HN Hr Ha Hv HC.
  destruct (C67_sos_output epsilon sort N wn bt analog fs rp He Hso Ha Hv) as [_ Q']. destruct (Q' HN Hr) as [f [Ef Q]].
  destruct (C82_cheby1_clear epsilon sort N rp wn bt analog fs f He HN Hr Ha Hv HC Ef) as [Sz Sp].
  destruct (Q Sz Sp) as [l [El [_ [Fs [Hx Hd]]]]].
  destruct (C64_cheby1_digital epsilon sort N rp wn bt analog fs HN Hr Ha Hv) as [f' [Ef' [Hst [_ [_ [_ [G1 G2]]]]]]]. rewrite Ef in Ef'. injection Ef' as <-.
  assert (SS : stable_sections l) by (split; [eapply Forall_impl; [|exact Fs]; intros s Q''; apply Q''|exact Hd]).
  destruct (C80_zero_phase l SS) as [K [rho [Hrho B]]]. exists l, K, rho. split; [exact El|]. split; [exact Hrho|].
  intros theta A phi n Hn. destruct (B theta A phi n Hn) as [_ [y [Ey [Ly By]]]]. exists (dgain_sqr f theta), y. split; [exact Ey|]. split; [exact Ly|].
  assert (Np : ~ In (E theta) (zk_p f)).
  { intros Q''. unfold stable_digital in Hst. rewrite Forall_forall in Hst. apply Hst in Q''. rewrite E_norm in Q''. lra. }
  destruct (Hx (E theta) (E_neq0 theta) Np) as [_ EH]. change (cos theta, sin theta) with (E theta) in *.
  split; [intros i Hi; specialize (By i Hi); rewrite EH in By; exact By|]. split.
  - exact (G1 theta).
  - intros w Hw ->. apply G2, Hw.
Qed.
Print Assumptions C90_cheby1_zero_phase.
(** The conditions hold at f64 for order 4 at a quarter of Nyquist, ripple 10 log10 2 dB. *)
Example C90_hyp_met : let rp := 10 * (ln 2 / ln 10) in 0 < rp /\ valid_digital Lowpass (normalised [1 / 4] None) /\
  clear_of_tolerance (1 / 2 ^ 52) Lowpass 4 1 1 [1 / 4] /\
  clear_of_tolerance (1 / 2 ^ 52) Lowpass 4 (cosh (cheb_axis 4 rp)) (sinh (cheb_axis 4 rp)) [1 / 4].
Proof.
  intros rp. assert (0 < ln 10) by (rewrite <- ln_1; apply ln_increasing; lra). assert (0 < ln 2) by (rewrite <- ln_1; apply ln_increasing; lra).
  split; [unfold rp; apply Rmult_lt_0_compat; [lra|apply Rdiv_lt_0_compat; lra]|]. split; [split; [reflexivity|]; split; repeat constructor; cbn; lra|].
  split; [apply C82_lowpass_ex; [left; reflexivity|lia|lra]|apply C82_cheby1_ex; [lia|lra]].
Qed.
