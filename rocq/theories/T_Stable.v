(** Properties C69-C71: stability and frequency response of the running filter. *)
From Coq Require Import List Arith Bool Lia Reals Lra.
From Verif Require Import Base Num Trans M_Complex M_Linalg M_Filter M_Design S_Filter ListUtil P_Sosfilt P_Transfer Cx S_Design S_Stable
  S_Bessel P_Lp P_Proto P_Iir2 T_Iir P_Sos T_Sos P_Stable.
Import ListNotations.
Local Open Scope R_scope.

Lemma same_of_tuple l l0 : map (fun s : Sos R => (b0 s, b1 s, b2 s, a0 s, a1 s, a2 s)) l0 = map (fun s => (b0 s, b1 s, b2 s, a0 s, a1 s, a2 s)) l -> same_coefs l0 l.
Proof.
  revert l. induction l0 as [|s l0 IH]; intros [|t l] Q; try discriminate Q; [reflexivity|]. cbn [map] in Q. 
  unfold same_coefs in *. cbn [map]. injection Q as Q1 Q2 Q3 Q4 Q5 Q6 Q7. rewrite (IH _ Q7). unfold coefs. congruence.
Qed.

(** ** C69: bounded output, fading memory *)
Theorem C69_bounded_output (l : list (Sos R)) : stable_sections l ->
  exists G, forall l0 x M, same_coefs l0 l -> (forall v, In v x -> Rabs v <= M) ->
    exists y l', sosfilt_dyn x l0 = Ok (y, l') /\ length y = length x /\
      forall v, In v y -> Rabs v <= G * (M + state_size l0).
Proof.
  intros [HA Hs]. destruct (cascade_roots l HA Hs) as [r [Hr Hroots]].
  destruct (cascade_bound l 1 (Hroots 1 ltac:(lra)) ltac:(lra)) as [G [HG B]]. exists G. intros l0 x M Hc Hx.
  exists (fst (filt x l0)), (snd (filt x l0)). split; [rewrite sosfilt_dyn_pure; f_equal; apply surjective_pairing|]. split; [apply filt_length_out|].
  intros v Hv. destruct (In_nth _ _ 0 Hv) as [n [Hn <-]]. rewrite filt_length_out in Hn. rewrite filt_cout by exact Hn.
  assert (HM : 0 <= M). { destruct x as [|x0 x]; [cbn in Hn; lia|]. eapply Rle_trans; [apply Rabs_pos|apply Hx; left; reflexivity]. }
  set (lz := map (fun s => set_state s 0 0) l).
  assert (Hz : same_coefs lz l) by (unfold same_coefs, lz; rewrite map_map; reflexivity).
  assert (S0 : state_size lz = 0).
  { unfold lz. clear. induction l as [|s l IH]; cbn; [reflexivity|]. unfold state_size in IH. rewrite IH, Rabs_R0. ring. }
  assert (C0' : forall n, cout lz (fun _ => 0) n = 0).
  { clear. unfold lz. induction l as [|s l IH]; intros n; cbn [map cout]; [reflexivity|].
    rewrite (cout_local _ _ (fun _ => 0)); [apply IH|]. intros k _. unfold sout. cbn [set_state M_Filter.zi0 M_Filter.zi1 M_Filter.b0].
    assert (Z : forall m, sst (set_state s 0 0) (0, 0) (fun _ => 0) m = (0, 0)). { induction m as [|m IHm]; cbn [sst]; [reflexivity|]. rewrite IHm. cbn. f_equal; ring. }
    rewrite Z. cbn. ring. }
  pose proof (B l0 lz (fun k => nth k x 0) (fun _ => 0) M Hc Hz HM) as B'. rewrite S0 in B'.
  assert (B2 : forall n, Rabs (cout l0 (fun k => nth k x 0) n - cout lz (fun _ => 0) n) <= G * (M + state_size l0 + 0) * 1 ^ n).
  { apply B'. intros k. rewrite pow1, Rmult_1_r, Rminus_0_r. destruct (Nat.lt_ge_cases k (length x)) as [L|L].
    - apply Hx, nth_In, L.
    - rewrite nth_overflow by exact L. rewrite Rabs_R0. exact HM. }
  specialize (B2 n). rewrite C0', Rminus_0_r, pow1 in B2. lra.
Qed.
Print Assumptions C69_bounded_output.

(** Two runs with the same input from different states approach each other geometrically. *)
Theorem C69_fading_memory (l : list (Sos R)) : stable_sections l ->
  exists G rho, 0 < rho < 1 /\ forall l1 l2 x y1 l1' y2 l2', same_coefs l1 l -> same_coefs l2 l ->
    sosfilt_dyn x l1 = Ok (y1, l1') -> sosfilt_dyn x l2 = Ok (y2, l2') ->
    forall n, (n < length x)%nat -> Rabs (nth n y1 0 - nth n y2 0) <= G * (state_size l1 + state_size l2) * rho ^ n.
Proof.
  intros [HA Hs]. destruct (cascade_roots l HA Hs) as [r [Hr Hroots]].
  destruct (cascade_bound l r (Hroots r ltac:(lra)) ltac:(lra)) as [G [HG B]]. exists G, r. split; [exact Hr|].
  intros l1 l2 x y1 l1' y2 l2' H1 H2. rewrite !sosfilt_dyn_pure. intros Q1 Q2 n Hn. injection Q1 as Q1. injection Q2 as Q2.
  pose proof (filt_cout l1 x n Hn) as E1. pose proof (filt_cout l2 x n Hn) as E2. rewrite Q1 in E1. rewrite Q2 in E2. cbn [fst] in E1, E2. rewrite E1, E2.
  replace (state_size l1 + state_size l2) with (0 + state_size l1 + state_size l2) by ring. apply (B l1 l2 _ _ 0 H1 H2); [lra|].
  intros k. rewrite Rminus_diag_eq, Rabs_R0 by reflexivity. lra.
Qed.
Print Assumptions C69_fading_memory.
Example C69_ex : stable_sections [mkSos 1 2 3 1 0 (1 / 4) 5 6].
Proof.
  split; [repeat constructor|]. intros x Q. unfold sos_den in Q. cbn [fold_right] in Q. rewrite rpoly3 in Q. cbn [M_Filter.a0 M_Filter.a1 M_Filter.a2] in Q.
  destruct x as [a b]. assert (Q1 := f_equal fst Q). assert (Q2 := f_equal snd Q). cbn in Q1, Q2. unfold cnorm_sqr. cbn.
  assert (a * b = 0) by lra. assert (a * a - b * b = - (1 / 4)) by lra. destruct (Rmult_integral _ _ H) as [Z|Z]; subst; nra.
Qed.

(** ** C70: the frequency response *)
Lemma polar (z : C) : exists psi, z = (cnorm z * cos psi, cnorm z * sin psi).
Proof.
  destruct (Req_dec (cnorm z) 0) as [Z|Z].
  - exists 0. assert (Q := cnorm_sq z). rewrite Z in Q. assert (z = C0) by (apply cnorm_sqr_zero; lra). subst z. rewrite Z. apply C_ext; cbn; ring.
  - pose proof (cnorm_pos z). pose proof (cnorm_sq z) as Q. set (r := cnorm z) in *. clearbody r. destruct z as [a b]. unfold cnorm_sqr in Q. cbn in Q.
    assert (Hu : (a / r) * (a / r) + (b / r) * (b / r) = 1) by (field_simplify; [|lra]; apply (Rmult_eq_reg_r (r * r)); [|nra]; field_simplify; lra).
    set (c := a / r) in *. set (s := b / r) in *. assert (Hc : -1 <= c <= 1) by nra.
    assert (Ea : a = r * c) by (unfold c; field; lra). assert (Eb : b = r * s) by (unfold s; field; lra).
    assert (Hs : sqrt (1 - c²) = Rabs s) by (unfold Rsqr; replace (1 - c * c) with (s * s) by lra; apply sqrt_Rsqr_abs).
    destruct (Rle_dec 0 s) as [P|P].
    + exists (acos c). rewrite cos_acos, sin_acos, Hs, Rabs_right by lra. apply C_ext; cbn; assumption.
    + exists (- acos c). rewrite cos_neg, sin_neg, cos_acos, sin_acos, Hs, Rabs_left by lra. apply C_ext; cbn; lra.
Qed.
Lemma E_pow theta n : cpow (E theta) n = E (theta * INR n).
Proof.
  induction n as [|n IH]; [cbn [cpow INR]; rewrite Rmult_0_r, E_0; reflexivity|].
  cbn [cpow]. rewrite IH, <- E_add. f_equal. rewrite S_INR. ring.
Qed.
Lemma E_neq0 t : E t <> C0.
Proof. intros Q. pose proof (E_norm t) as Q'. rewrite Q in Q'. unfold cnorm_sqr in Q'. cbn in Q'. lra. Qed.

Theorem C70_frequency_response (l : list (Sos R)) (theta : R) : stable_sections l ->
  let z := (cos theta, sin theta) in
  sos_den l z <> C0 /\
  (exists psi, (sos_num l z / sos_den l z)%C = (cnorm (sos_num l z / sos_den l z)%C * cos psi, cnorm (sos_num l z / sos_den l z)%C * sin psi)) /\
  forall g psi, (sos_num l z / sos_den l z)%C = (g * cos psi, g * sin psi) -> steady_response l theta g psi.
Proof.
  intros [HA Hs] z. change z with (E theta).
  assert (Hd : sos_den l (E theta) <> C0). { intros Q. apply Hs in Q. rewrite E_norm in Q. lra. }
  split; [exact Hd|]. split; [apply polar|]. intros g psi Hg.
  destruct (cascade_roots l HA Hs) as [r [Hr Hroots]]. exists r. split; [exact Hr|]. intros l0 A phi Hl0. apply same_of_tuple in Hl0.
  destruct (cascade_bound l r (Hroots r ltac:(lra)) ltac:(lra)) as [G [HG B]].
  set (c := (RtoC A * E phi)%C). destruct (cascade_steady l (E theta) HA (E_neq0 theta) Hd c) as [ls [Els Hst]].
  exists (G * (0 + state_size l0 + state_size ls)). intros N. set (x := sinusoid A theta phi N).
  exists (fst (filt x l0)), (snd (filt x l0)). split; [rewrite sosfilt_dyn_pure; f_equal; apply surjective_pairing|].
  split; [rewrite filt_length_out; unfold x, sinusoid; rewrite map_length; apply seq_length|].
  intros n Hn. unfold x, sinusoid. rewrite (filt_signal l0 (fun n => A * cos (theta * INR n + phi)) N n Hn).
  replace (A * g * cos (theta * INR n + phi + psi)) with (cout ls (fun k => cre (c * cpow (E theta) k)%C) n).
  2:{ rewrite Hst, Hg, E_pow. unfold c. replace (g * cos psi, g * sin psi) with (RtoC g * E psi)%C by (apply C_ext; cbn; ring).
      replace (RtoC A * E phi * (RtoC g * E psi) * E (theta * INR n))%C with (RtoC A * RtoC g * (E (theta * INR n) * E phi * E psi))%C by ring.
      rewrite <- !E_add, <- RtoC_mul. cbn. ring. }
  apply (B l0 ls); [exact Hl0|exact Els|lra|]. intros k. rewrite E_pow. unfold c.
  replace (cre (RtoC A * E phi * E (theta * INR k))%C) with (A * cos (theta * INR k + phi)).
  2:{ replace (RtoC A * E phi * E (theta * INR k))%C with (RtoC A * (E (theta * INR k) * E phi))%C by ring. rewrite <- E_add. cbn. ring. }
  rewrite Rminus_diag_eq, Rabs_R0 by reflexivity. lra.
Qed.
Print Assumptions C70_frequency_response.

(** ** C71: designed filters, from the specification to the filtered samples *)
Lemma sos_steady (f : @ZpkFormatFilter R) l theta : stable_digital f ->
  Forall (fun s => a0 s = 1 /\ zi0 s = 0 /\ zi1 s = 0) l ->
  (forall x, x <> C0 -> ~ In x (zk_p f) -> sos_den l x <> C0 /\ (sos_num l x / sos_den l x)%C = H f x) ->
  (forall x, sos_den l x = C0 -> cnorm_sqr x < 1) ->
  exists g psi, 0 <= g /\ g * g = dgain_sqr f theta /\ steady_response l theta g psi.
Proof.
  intros Hst Fs Hx Hd. assert (SS : stable_sections l) by (split; [eapply Forall_impl; [|exact Fs]; intros s Q; apply Q|exact Hd]).
  destruct (C70_frequency_response l theta SS) as [D0 [[psi Hpsi] R]].
  assert (Np : ~ In (E theta) (zk_p f)).
  { intros Q. unfold stable_digital in Hst. rewrite Forall_forall in Hst. apply Hst in Q. rewrite E_norm in Q. lra. }
  destruct (Hx (E theta) (E_neq0 theta) Np) as [_ EH]. change (cos theta, sin theta) with (E theta) in *. rewrite EH in *.
  exists (cnorm (H f (E theta))), psi. split; [apply cnorm_pos|]. split; [rewrite cnorm_sq; reflexivity|]. apply R. exact Hpsi.
Qed.

(** For a digital Butterworth design in sections (zeros and poles clear of the real axis by
    the code's tolerance), sosfilt scales a sinusoid at angle theta by the
    Butterworth gain; in particular by 1 at the reference frequency, and by
    1/sqrt 2 at each critical frequency. *)
Theorem C71_butter_filters epsilon sort N wn bt analog fs f :
  0 <= epsilon -> is_sort sort -> (0 < N)%nat -> analog <> Some true -> valid_digital bt (normalised wn fs) ->
  butter_dyn epsilon sort N wn (Some bt) analog (Some OutZpk) fs = Ok (DZpk f) -> separated epsilon (zk_z f) -> separated epsilon (zk_p f) ->
  exists l, butter_dyn epsilon sort N wn (Some bt) analog (Some OutSos) fs = Ok (DSos l) /\ stable_sections l /\
    forall theta, exists g psi, 0 <= g /\ steady_response l theta g psi /\
      (let (a, b) := band_ratio bt (normalised wn fs) theta in
       (b <> 0 -> g ^ 2 = 1 / (1 + (a / b) ^ (2 * N))) /\ (b = 0 -> g = 0)) /\
      (reference bt (normalised wn fs) theta -> g = 1) /\
      (forall w, In w (normalised wn fs) -> theta = PI * w -> g ^ 2 = 1 / 2).
Proof.
  intros He Hso HN Ha Hv Ef Hz Hp.
  destruct (C67_sos_output epsilon sort N wn bt analog fs 0 He Hso Ha Hv) as [[f' [Ef' Q]] _]. rewrite Ef in Ef'. injection Ef' as <-.
  destruct (Q Hz Hp) as [l [El [_ [Fs [Hx Hd]]]]]. 
  destruct (C57_butter_digital epsilon sort N wn bt analog fs HN Ha Hv) as [f' [Ef' [G1 [G2 [G3 _]]]]]. rewrite Ef in Ef'. injection Ef' as <-.
  destruct (C58_butter_stable epsilon sort N wn bt analog fs Ha Hv) as [f' [Ef' [Hst _]]]. rewrite Ef in Ef'. injection Ef' as <-.
  exists l. split; [exact El|]. split; [split; [eapply Forall_impl; [|exact Fs]; intros s Q'; apply Q'|exact Hd]|].
  intros theta. destruct (sos_steady f l theta Hst Fs Hx Hd) as [g [psi [Hg [Eg St]]]]. exists g, psi. split; [exact Hg|]. split; [exact St|].
  replace (g ^ 2) with (dgain_sqr f theta) by (rewrite <- Eg; ring).
  split; [|split].
  - specialize (G1 theta). destruct (band_ratio bt (normalised wn fs) theta) as [a b]. destruct G1 as [G1 G1']. split; [exact G1|].
    intros Hb. specialize (G1' Hb). rewrite <- Eg in G1'. nra.
  - intros Hr. specialize (G2 theta Hr). rewrite <- Eg in G2. nra.
  - intros w Hw ->. apply G3, Hw.
Qed.
Print Assumptions C71_butter_filters.
(** The same for Chebyshev I: equiripple pass band, gain below the ripple floor outside. *)
Theorem C71_cheby1_filters epsilon sort N rp wn bt analog fs f :
  0 <= epsilon -> is_sort sort -> (0 < N)%nat -> 0 < rp -> analog <> Some true -> valid_digital bt (normalised wn fs) ->
  cheby1_dyn epsilon sort N rp wn (Some bt) analog (Some OutZpk) fs = Ok (DZpk f) -> separated epsilon (zk_z f) -> separated epsilon (zk_p f) ->
  exists l, cheby1_dyn epsilon sort N rp wn (Some bt) analog (Some OutSos) fs = Ok (DSos l) /\ stable_sections l /\
    forall theta, exists g psi, 0 <= g /\ steady_response l theta g psi /\
      let (a, b) := band_ratio bt (normalised wn fs) theta in
      (b <> 0 -> g ^ 2 = 1 / (1 + (Rpower 10 (rp / 10) - 1) * chebT N (a / b) ^ 2)) /\ (b = 0 -> g = 0) /\
      (Rabs a <= Rabs b -> Rpower 10 (- rp / 10) <= g ^ 2 <= 1) /\
      (Rabs b <= Rabs a -> g ^ 2 <= Rpower 10 (- rp / 10)).
Proof.
  intros He Hso HN Hr Ha Hv Ef Hz Hp.
  destruct (C67_sos_output epsilon sort N wn bt analog fs rp He Hso Ha Hv) as [_ Q]. destruct (Q HN Hr) as [f' [Ef' Q']]. rewrite Ef in Ef'. injection Ef' as <-.
  destruct (Q' Hz Hp) as [l [El [_ [Fs [Hx Hd]]]]]. 
  destruct (C64_cheby1_digital epsilon sort N rp wn bt analog fs HN Hr Ha Hv) as [f' [Ef' [Hst [_ [_ [_ [G1 _]]]]]]]. rewrite Ef in Ef'. injection Ef' as <-.
  exists l. split; [exact El|]. split; [split; [eapply Forall_impl; [|exact Fs]; intros s Q2; apply Q2|exact Hd]|].
  intros theta. destruct (sos_steady f l theta Hst Fs Hx Hd) as [g [psi [Hg [Eg St]]]]. exists g, psi. split; [exact Hg|]. split; [exact St|].
  replace (g ^ 2) with (dgain_sqr f theta) by (rewrite <- Eg; ring). specialize (G1 theta).
  destruct (band_ratio bt (normalised wn fs) theta) as [a b]. destruct G1 as [G1 [G2 [G3 G4]]]. split; [exact G1|]. split; [|split; assumption].
  intros Hb. specialize (G2 Hb). rewrite <- Eg in G2. nra.
Qed.
Print Assumptions C71_cheby1_filters.
(** The hypotheses are met, e.g. by the second-order low-pass with cutoff 1/2 of Nyquist. *)
Example C71_ex sort : exists f, butter_dyn 0 sort 2 [1 / 2] (Some Lowpass) None (Some OutZpk) None = Ok (DZpk f) /\
  valid_digital Lowpass (normalised [1 / 2] None) /\ separated 0 (zk_z f) /\ separated 0 (zk_p f).
Proof.
  assert (Hv : valid_digital Lowpass (normalised [1 / 2] None)) by (split; [reflexivity|]; split; repeat constructor; cbn; lra).
  destruct (C58_butter_stable 0 sort 2 [1 / 2] Lowpass None None ltac:(discriminate) Hv) as [f [Ef _]].
  exists f. split; [exact Ef|]. split; [exact Hv|]. split; apply C67_separated_exact.
Qed.
