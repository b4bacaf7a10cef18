(** Property C80: sosfiltfilt filters sinusoids with zero phase and squared gain. *)
From Coq Require Import List Arith Bool Lia Reals Lra Psatz.
From Verif Require Import Base Num Trans M_Complex M_Linalg M_Filter M_Design S_Filter ListUtil P_Sosfilt P_Filtfilt P_Transfer Cx S_Design S_Stable
  S_Bessel P_Lp P_Proto P_Iir2 T_Iir P_Sos T_Sos P_Stable T_Stable P_ZeroPhase.
Import ListNotations.
Local Open Scope R_scope.

(** For stable sections, the result of sosfiltfilt on a sinusoid is that sinusoid, times the
    squared magnitude of the transfer function, with no phase shift, up to an error that dies out
    geometrically away from both ends; the constants depend on the sections only. *)
Theorem C80_zero_phase (l : list (Sos R)) : stable_sections l ->
  exists K rho, 0 < rho < 1 /\ forall theta A phi N, (3 * taps l < N)%nat ->
    let z := (cos theta, sin theta) in
    sos_den l z <> C0 /\
    exists y, sosfiltfilt_dyn (sinusoid A theta phi N) l = Ok y /\ length y = N /\
      forall i, (i < N)%nat ->
        Rabs (nth i y 0 - A * cnorm_sqr (sos_num l z / sos_den l z)%C * cos (theta * INR i + phi)) <= K * Rabs A * (rho ^ i + rho ^ (N - 1 - i)).
Proof.
  intros [HA Hs]. destruct (cascade_roots l HA Hs) as [r [Hr Hroots]].
  assert (Fd : forallb some_den l = true).
  { apply forallb_forall. intros s Hin. rewrite Forall_forall in HA. specialize (HA s Hin). unfold some_den. rewrite HA.
    cbn [neqb RNum nzero]. unfold Reqb. destruct (Req_EM_T 1 0); [lra|reflexivity]. }
  pose proof (sosfilt_zi_loop_total l none) as Q. rewrite Fd in Q. destruct Q as [init [Ei Ci]].
  destruct (filtfilt_cos l init r (Hroots r ltac:(lra)) Hr Hroots HA Ci) as [K [HK B]]. exists K, r. split; [exact Hr|].
  intros theta A phi N HN z. split.
  { intros Q. apply Hs in Q. unfold z in Q. change (cos theta, sin theta) with (E theta) in Q. rewrite E_norm in Q. lra. }
  assert (Ly : length (sinusoid A theta phi N) = N) by (unfold sinusoid; rewrite map_length; apply seq_length).
  exists (filtfilt (sinusoid A theta phi N) l init). split.
  { rewrite sosfiltfilt_eq, Ly. destruct (Nat.leb_spec N (3 * taps l)); [lia|]. unfold sosfilt_zi_dyn. rewrite Ei. reflexivity. }
  split; [rewrite filtfilt_length; exact Ly|]. intros i Hi. apply B, Hi.
Qed.
Print Assumptions C80_zero_phase.
(** Two stable sections, one of them with nonzero delays. *)
Example C80_ex : stable_sections [mkSos 1 2 3 1 0 (1 / 4) 5 6; mkSos 1 0 1 1 0 (1 / 9) 0 0].
Proof.
  assert (Q : forall c x, 0 < c < 1 -> rpoly_at [1; 0; c * c] x = C0 -> cnorm_sqr x < 1).
  { intros c [a b] Hc Q. rewrite rpoly3 in Q. assert (Q1 := f_equal fst Q). assert (Q2 := f_equal snd Q). cbn in Q1, Q2. unfold cnorm_sqr. cbn.
    assert (H : a * b = 0) by lra. assert (a * a - b * b = - (c * c)) by lra. destruct (Rmult_integral _ _ H) as [Z|Z]; subst; nra. }
  split; [repeat constructor|]. intros x Hx. unfold sos_den in Hx. cbn [fold_right M_Filter.a0 M_Filter.a1 M_Filter.a2] in Hx.
  assert (M1 : forall u : C, (u * C1)%C = u) by (intros; ring). rewrite M1 in Hx.
  destruct (Req_dec (cnorm_sqr (rpoly_at [1; 0; 1 / 4] x)) 0) as [Z|Z].
  - apply (Q (1 / 2) x); [lra|]. replace (1 / 2 * (1 / 2)) with (1 / 4) by field. apply cnorm_sqr_zero, Z.
  - apply (Q (1 / 3) x); [lra|]. replace (1 / 3 * (1 / 3)) with (1 / 9) by field.
    apply (P_CPoly.Cmul_cancel (rpoly_at [1; 0; 1 / 4] x)); [|rewrite Hx; ring]. intros Q'. apply Z. rewrite Q'. unfold cnorm_sqr. cbn. ring.
Qed.

(** A Butterworth design applied forwards and backwards: gain 1 / (1 + v^(2N)) (1/2 at the critical
    frequencies, i.e. -6 dB), no phase shift. *)
Theorem C80_butter_zero_phase epsilon sort N wn bt analog fs f :
  0 <= epsilon -> is_sort sort -> (0 < N)%nat -> analog <> Some true -> valid_digital bt (normalised wn fs) ->
  butter_dyn epsilon sort N wn (Some bt) analog (Some OutZpk) fs = Ok (DZpk f) -> separated epsilon (zk_z f) -> separated epsilon (zk_p f) ->
  exists l K rho, butter_dyn epsilon sort N wn (Some bt) analog (Some OutSos) fs = Ok (DSos l) /\ 0 < rho < 1 /\
    forall theta A phi n, (3 * taps l < n)%nat -> exists g y,
      sosfiltfilt_dyn (sinusoid A theta phi n) l = Ok y /\ length y = n /\
      (forall i, (i < n)%nat -> Rabs (nth i y 0 - A * g * cos (theta * INR i + phi)) <= K * Rabs A * (rho ^ i + rho ^ (n - 1 - i))) /\
      (let (a, b) := band_ratio bt (normalised wn fs) theta in
       (b <> 0 -> g = 1 / (1 + (a / b) ^ (2 * N))) /\ (b = 0 -> g = 0)) /\
      (reference bt (normalised wn fs) theta -> g = 1) /\
      (forall w, In w (normalised wn fs) -> theta = PI * w -> g = 1 / 2).
Proof.
  intros He Hso HN Ha Hv Ef Hz Hp.
  destruct (C67_sos_output epsilon sort N wn bt analog fs 0 He Hso Ha Hv) as [[f' [Ef' Q]] _]. rewrite Ef in Ef'. injection Ef' as <-.
  destruct (Q Hz Hp) as [l [El [_ [Fs [Hx Hd]]]]]. 
  destruct (C57_butter_digital epsilon sort N wn bt analog fs HN Ha Hv) as [f' [Ef' [G1 [G2 [G3 _]]]]]. rewrite Ef in Ef'. injection Ef' as <-.
  destruct (C58_butter_stable epsilon sort N wn bt analog fs Ha Hv) as [f' [Ef' [Hst _]]]. rewrite Ef in Ef'. injection Ef' as <-.
  assert (SS : stable_sections l) by (split; [eapply Forall_impl; [|exact Fs]; intros s Q'; apply Q'|exact Hd]).
  destruct (C80_zero_phase l SS) as [K [rho [Hr B]]]. exists l, K, rho. split; [exact El|]. split; [exact Hr|].
  intros theta A phi n Hn. destruct (B theta A phi n Hn) as [_ [y [Ey [Ly By]]]]. exists (dgain_sqr f theta), y. split; [exact Ey|]. split; [exact Ly|].
  assert (Np : ~ In (E theta) (zk_p f)).
  { intros Q'. unfold stable_digital in Hst. rewrite Forall_forall in Hst. apply Hst in Q'. rewrite E_norm in Q'. lra. }
  destruct (Hx (E theta) (E_neq0 theta) Np) as [_ EH]. change (cos theta, sin theta) with (E theta) in *.
  split; [intros i Hi; specialize (By i Hi); rewrite EH in By; exact By|]. split; [|split].
  - exact (G1 theta).
  - exact (G2 theta).
  - intros w Hw ->. apply G3, Hw.
Qed.
Print Assumptions C80_butter_zero_phase.
Example C80_butter_ex sort : exists f, butter_dyn 0 sort 2 [1 / 2] (Some Lowpass) None (Some OutZpk) None = Ok (DZpk f) /\
  valid_digital Lowpass (normalised [1 / 2] None) /\ separated 0 (zk_z f) /\ separated 0 (zk_p f).
Proof. exact (C71_ex sort). Qed.
