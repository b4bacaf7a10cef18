(** Sections of analog all-pole designs (C117): an even number of poles with real zeros, and
    poles clear of the tolerance. *)
From Coq Require Import List Arith ZArith Reals Permutation Sorted Lra Lia Bool.
From Verif Require Import Base Num Trans M_Complex M_Fourier M_Filter M_Design Cx S_Design S_Margin S_AnalogSos P_Bessel P_Zi P_Poly P_Lp P_Proto P_Iir P_Iir2 P_Sos P_Sos2 P_Stable P_Margin.
Import ListNotations.
Local Open Scope R_scope.

Section One.
Variable sort : forall A : Type, (A -> A -> bool) -> list A -> list A.
Hypothesis Hsort : is_sort sort.

Lemma step_even_real analog p z sos n : length (full p) = (2 * S n)%nat -> Forall (fun r => isr r = true) z ->
  exists p' z' s, pair_step sort Minimal analog (p, z, sos) = Ok (p', z', sos ++ [s]) /\ Forall (fun r => isr r = true) z' /\
    length (full p') = (2 * n)%nat /\ length z' = (length z - 2)%nat.
Proof.
  intros Hp HF. destruct (full_count p) as [cp Ecp].
  assert (Hpn : p <> []) by (intros ->; discriminate Hp).
  destruct (pick_worst analog p Hpn) as [i1 [p1 [p' [E1 [E2 HP]]]]]. unfold pair_step. rewrite E1. cbn [bind]. rewrite E2. cbn [bind].
  pose proof (count_real_perm _ _ HP) as Cp. rewrite count_real_cons in Cp.
  pose proof (Permutation_length (full_perm _ _ HP)) as LP. rewrite full_cons, app_length in LP.
  change (is_zero (cim p1)) with (isr p1).
  assert (Sub : forall a l l', Permutation l (a :: l') -> Forall (fun r => isr r = true) l -> Forall (fun r : C => isr r = true) l').
  { intros a l l' Hpm Hf. assert (Q : Forall (fun r => isr r = true) (a :: l')) by (eapply Permutation_Forall; eassumption). inversion Q; assumption. }
  assert (Ex : forall l : list C, l <> [] -> Forall (fun r => isr r = true) l -> forall w, w <> WComplex -> exists r, In r l /\ sel w r = true).
  { intros l Hn Hf w Hw. destruct l as [|r l]; [contradiction|]. exists r. split; [left; reflexivity|]. inversion Hf; subst. destruct w; [assumption|contradiction|reflexivity]. }
  assert (P2 : exists p2 p'', (if isr p1 then
        let! i := idx_worst analog (map snd (filter (fun ip => is_zero (cim (snd ip))) (enumerate p'))) in
        let! ip := index (filter (fun ip => is_zero (cim (snd ip))) (enumerate p')) i in remove_at p' (fst ip)
      else Ok (cconj p1, p')) = Ok (p2, p'') /\ length (full p) = (2 + length (full p''))%nat /\ conj_closed [p1; p2]).
  { destruct (isr p1) eqn:Er.
    - assert (Hc : count_real p' <> 0%nat) by (cbn in Cp; lia).
      destruct (pick_worst_real analog p' Hc) as [i [ip [p2 [p'' [F1 [F2 [F3 [HP' Er']]]]]]]]. exists p2, p''. rewrite F1. cbn [bind]. rewrite F2. cbn [bind].
      split; [exact F3|]. split.
      + pose proof (Permutation_length (full_perm _ _ HP')) as LP'. rewrite full_cons, app_length, Er' in LP'. cbn [length] in *. lia.
      + apply conj_closed_reals. repeat constructor; assumption.
    - exists (cconj p1), p'. split; [reflexivity|]. split; [exact LP|apply conj_closed_pair]. }
  destruct P2 as [p2 [p'' [EP2 [PP2 CC2]]]].
  replace (isr p1 && (count_real p' =? 0)%nat) with false.
  2:{ symmetry. apply andb_false_iff. destruct (isr p1); [right|left; reflexivity]. apply Nat.eqb_neq. cbn in Cp. lia. }
  replace ((length p' + 1 =? length z)%nat && negb (isr p1) && (count_real p' =? 1)%nat && (count_real z =? 1)%nat) with false.
  2:{ symmetry. destruct (isr p1); [rewrite andb_false_r; reflexivity|]. cbn in Cp.
      replace (count_real p' =? 1)%nat with false by (symmetry; apply Nat.eqb_neq; lia). rewrite !andb_false_r. reflexivity. }
  cbv zeta. rewrite EP2. cbn [bind].
  destruct (Nat.eqb_spec (length z) 0) as [Ez|Ez]; cbn [negb].
  - destruct z; [|discriminate]. destruct (single_ok sort Hsort [] [p1; p2]) as [s [Es Hs]]; try (cbn; lia); [apply Permutation_refl|exact CC2|].
    rewrite Es. cbn [bind]. exists p'', [], s. split; [reflexivity|]. split; [constructor|]. split; [lia|reflexivity].
  - destruct (pick_nearest z p1 WAny) as [j1 [z1 [z' [G1 [G2 [HZ _]]]]]]; [apply Ex; [intros ->; apply Ez; reflexivity|exact HF|discriminate]|].
    rewrite G1. cbn [bind]. rewrite G2. cbn [bind]. change (is_zero (cim z1)) with (isr z1).
    assert (Ez1 : isr z1 = true) by (rewrite Forall_forall in HF; apply HF; eapply Permutation_in; [apply Permutation_sym, HZ|left; reflexivity]).
    rewrite Ez1. cbn [negb]. pose proof (Permutation_length HZ) as LZ. cbn [length] in LZ. pose proof (Sub _ _ _ HZ HF) as HF'.
    destruct (Nat.eqb_spec (length z') 0) as [Q|Q]; cbn [negb].
    + destruct (single_ok sort Hsort [z1] [p1; p2]) as [s [Es Hs]]; try (cbn; lia); [apply conj_closed_reals; repeat constructor; assumption|exact CC2|].
      rewrite Es. cbn [bind]. exists p'', z', s. split; [reflexivity|]. split; [exact HF'|]. split; lia.
    + destruct (pick_nearest z' p1 WReal) as [j2 [z2 [z'' [K1 [K2 [HZ' Ez2]]]]]]; [apply Ex; [intros ->; apply Q; reflexivity|exact HF'|discriminate]|]. cbn [sel] in Ez2.
      rewrite K1. cbn [bind]. rewrite K2. cbn [bind]. change (is_zero (cim z2)) with (isr z2). rewrite Ez2. cbn [rassert bind].
      destruct (single_ok sort Hsort [z1; z2] [p1; p2]) as [s [Es Hs]]; try (cbn; lia); [apply conj_closed_reals; repeat constructor; assumption|exact CC2|].
      rewrite Es. cbn [bind]. exists p'', z'', s. split; [reflexivity|]. pose proof (Permutation_length HZ') as LZ'. cbn [length] in LZ'.
      split; [apply (Sub _ _ _ HZ' HF')|]. split; lia.
Qed.
Lemma loop_even_real analog n : forall p z sos (idx : list nat), length (full p) = (2 * n)%nat -> (length z <= 2 * n)%nat ->
  Forall (fun r => isr r = true) z -> length idx = n ->
  exists ss, rfold (fun st (_ : nat) => pair_step sort Minimal analog st) idx (p, z, sos) = Ok ([], [], sos ++ ss) /\ length ss = n.
Proof.
  induction n as [|n IH]; intros p z sos idx Hp Hz HF Hi.
  - destruct idx; [|discriminate]. rewrite (full_nil p Hp). destruct z; [|cbn in Hz; lia]. exists []. rewrite app_nil_r. split; reflexivity.
  - destruct idx as [|i0 idx]; [discriminate|]. injection Hi as Hi. cbn [rfold].
    destruct (step_even_real analog p z sos n Hp HF) as [p' [z' [s [E [HF' [L1 L2]]]]]]. rewrite E. cbn [bind].
    destruct (IH p' z' (sos ++ [s]) idx L1 ltac:(lia) HF' Hi) as [ss [E2 L3]]. exists (s :: ss). rewrite E2, <- app_assoc. split; [reflexivity|cbn; lia].
Qed.
End One.

Section Whole.
Variable epsilon : R.
Hypothesis He : 0 <= epsilon.
Variable sort : forall A : Type, (A -> A -> bool) -> list A -> list A.
Hypothesis Hsort : is_sort sort.

Theorem zpk2sos_even_real_zeros order f pairing analog n : minimal_pairing pairing analog ->
  real_filter f -> separated epsilon (zk_z f) -> separated epsilon (zk_p f) ->
  length (zk_p f) = (2 * S n)%nat -> (length (zk_z f) <= 2 * S n)%nat ->
  Forall (fun r => cim r = 0) (zk_z f) ->
  exists sos, zpk2sos_dyn epsilon sort order f pairing analog = Ok sos /\ length sos = S n /\ Forall fresh sos /\
    forall x, sos_num sos x = (RtoC (zk_k f) * root_product (zk_z f) x * cpow x (length (zk_p f) - length (zk_z f)))%C /\
              sos_den sos x = root_product (zk_p f) x.
Proof.
  intros Hm Hr Hsz Hsp Lp Lz Hre.
  assert (En : ((length (zk_p f) + 1) / 2 = S n)%nat) by (rewrite Lp, Nat.mul_comm, Nat.div_add_l by lia; cbn; lia).
  destruct (zpk2sos_minimal_any epsilon He sort Hsort order f pairing analog Hm Hr Hsz Hsp ltac:(lia)) as [E|[sos [E [Ls [Fs [_ Hx]]]]]].
  - exfalso. rewrite (zpk2sos_minimal_body epsilon sort order f pairing analog Hm) in E by (unfold proper; lia).
    rewrite En in E. destruct f as [z p k]. destruct Hr as [Hcz Hcp]. cbn [zk_z zk_p zk_k] in *. unfold body in E.
    destruct (cplxreal_ok epsilon He sort Hsort z Hcz Hsz) as [zc [zr [E' [Fc [Fr HP]]]]].
    destruct (cplxreal_full epsilon He sort Hsort p Hcp Hsp) as [pc [pr [Epc [PP _]]]]. rewrite E', Epc in E. cbn [bind] in E.
    assert (zc = []) as ->.
    { destruct zc as [|r zc]; [reflexivity|]. exfalso. inversion Fc; subst. rewrite Forall_forall in Hre. assert (cim r = 0); [|lra].
      apply Hre. eapply Permutation_in; [apply Permutation_sym, HP|]. left. reflexivity. }
    cbn [app map] in *.
    destruct (loop_even_real sort Hsort (unwrap_or analog false) (S n) (pc ++ pr) zr [] (seq 0 (S n))) as [ss [Ess Lss]].
    + rewrite <- (Permutation_length PP). exact Lp.
    + rewrite <- (Permutation_length HP). exact Lz.
    + eapply Forall_impl; [|exact Fr]. intros r Q. apply isr_true. exact Q.
    + apply seq_length.
    + rewrite Ess in E. cbn [bind length Nat.eqb rassert app] in E.
      assert (Hss : rev ss <> []) by (intros Q; apply (f_equal (@length _)) in Q; rewrite rev_length in Q; cbn in Q; lia).
      destruct (rev ss); [contradiction|discriminate E].
  - exists sos. rewrite En in *. split; [exact E|]. split; [exact Ls|]. split; [exact Fs|]. intros x. destruct (Hx x) as [-> ->].
    rewrite <- Lp, Nat.sub_diag. cbn [cpow]. split; [reflexivity|ring].
Qed.
End Whole.

(** ** Poles clear of the tolerance *)
Section Clear.
Variables (n : nat) (sh ch epsilon : R).
Hypothesis Hn : (0 < n)%nat.
Hypothesis Hsh : 0 < sh.
Hypothesis Hsc : sh <= ch.
Hypothesis Hc1 : 1 <= ch.
Hypothesis He : 0 <= epsilon.
Let Hn' : 0 < INR n.
Proof. apply lt_0_INR. exact Hn. Qed.
Let Hn1 : 1 <= INR n.
Proof. apply (le_INR 1). lia. Qed.

Lemma ep_re k : Rabs (cre (ep n sh ch k)) <= sh.
Proof.
  unfold ep. cbn [cre fst]. rewrite Rabs_Ropp, Rabs_mult, (Rabs_right sh) by lra. pose proof (COS_bound (phi n k)) as B.
  assert (Rabs (cos (phi n k)) <= 1) by (apply Rabs_le; lra). nra.
Qed.
Lemma ep_clear k : (k < n)%nat -> 100 * epsilon * INR n * sh < ch -> clear epsilon (ep n sh ch k).
Proof.
  intros Hk HC. destruct (ep_im n sh ch Hc1 k Hk) as [[Q _]|Q]; [left; exact Q|right]. pose proof (ep_re k) as R.
  apply Rle_lt_trans with (100 * epsilon * sh); [apply Rmult_le_compat_l; lra|]. eapply Rlt_le_trans; [|exact Q].
  apply (Rmult_lt_reg_r (INR n)); [lra|]. replace (ch / INR n * INR n) with ch by (field; lra). lra.
Qed.
Lemma clear_scale w (c : C) : 0 < w -> clear epsilon c -> clear epsilon (c * RtoC w)%C.
Proof.
  intros Hw. unfold clear. replace (cim (c * RtoC w)%C) with (cim c * w) by (destruct c; cbn; ring). replace (cre (c * RtoC w)%C) with (cre c * w) by (destruct c; cbn; ring).
  rewrite !Rabs_mult, (Rabs_right w) by lra. intros [Q|Q]; [left; rewrite Q; ring|right]. nra.
Qed.
Lemma clear_inv w (c : C) : 0 < w -> c <> C0 -> clear epsilon c -> clear epsilon (RtoC w / c)%C.
Proof.
  intros Hw Hc. pose proof (cnorm_sqr_pos c Hc) as N. unfold clear. set (D := cnorm_sqr c) in *.
  assert (I : 0 < w / D) by (apply Rdiv_lt_0_compat; assumption).
  replace (cim (RtoC w / c)%C) with (- cim c * (w / D)). 2:{ unfold D, cnorm_sqr in *. destruct c as [x y]. cbn in *. field. lra. }
  replace (cre (RtoC w / c)%C) with (cre c * (w / D)). 2:{ unfold D, cnorm_sqr in *. destruct c as [x y]. cbn in *. field. lra. }
  rewrite !Rabs_mult, Rabs_Ropp, (Rabs_right (w / D)) by lra. intros [Q|Q]; [left; rewrite Q; ring|right]. nra.
Qed.
Lemma band_clear_analog m b Q P r (q s : C) : 0 < m -> 0 < b -> 0 < P -> 0 <= Q -> 0 <= r ->
  (s * s - RtoC b * q * s + RtoC (m * m)%R = C0)%C -> cnorm q <= Q ->
  (Nat.Odd n /\ q = RtoC (- r)) \/ P <= Rabs (cim q) ->
  100 * epsilon * (m + b * Q) ^ 3 < b * P * m ^ 2 ->
  (Nat.Odd n -> b * r < 2 * m -> 200 * epsilon * m < sqrt (4 * m ^ 2 - (b * r) ^ 2)) ->
  clear epsilon s.
Proof.
  intros Hm Hb HP HQ Hr E Hq Hi H1 H2. assert (bQ : 0 <= b * Q) by nra.
  assert (RN : Rabs (cre s) <= cnorm s).
  { pose proof (cnorm_sq s) as Es. pose proof (cnorm_pos s) as Ps. unfold cnorm_sqr in Es. change (cnorm s * cnorm s = cre s * cre s + cim s * cim s) in Es.
    rewrite <- (Rabs_right (cnorm s)) by lra. apply Rsqr_le_abs_0. unfold Rsqr. rewrite Es. pose proof (Rle_0_sqr (cim s)) as Q0. unfold Rsqr in Q0. lra. }
  destruct Hi as [[O ->]|Hi].
  - destruct (band_root_real s (- r) b m Hm E) as [Z|[Nw Z]]; [left; exact Z|].
    destruct (Req_dec (cim s) 0) as [Y|Y]; [left; exact Y|right].
    assert (Y2 : 0 < cim s * cim s) by (destruct (Rdichotomy _ _ Y); nra).
    assert (D : 4 * m ^ 2 - (b * r) ^ 2 = (2 * Rabs (cim s)) ^ 2).
    { replace ((2 * Rabs (cim s)) ^ 2) with (4 * (Rabs (cim s) * Rabs (cim s))) by ring. rewrite <- Rabs_mult, Rabs_right by lra. nra. }
    assert (L : b * r < 2 * m) by (assert (0 <= b * r) by nra; assert (0 < (2 * m) ^ 2 - (b * r) ^ 2) by nra; nra).
    specialize (H2 O L). rewrite D in H2. rewrite sqrt_pow2 in H2 by (pose proof (Rabs_pos (cim s)); lra). rewrite Nw in RN.
    apply Rle_lt_trans with (100 * epsilon * m); [apply Rmult_le_compat_l; lra|lra].
  - destruct (band_root_im s q b m P Q Hm Hb HP Hi Hq E) as [U V]. right.
    apply Rle_lt_trans with (100 * epsilon * (m + b * Q)); [apply Rmult_le_compat_l; lra|]. eapply Rlt_le_trans; [|exact V].
    assert (M0 : 0 < (m + b * Q) ^ 2) by (apply pow_lt; lra). apply (Rmult_lt_reg_r ((m + b * Q) ^ 2)); [exact M0|].
    replace (b * P * m ^ 2 / (m + b * Q) ^ 2 * (m + b * Q) ^ 2) with (b * P * m ^ 2) by (field; lra).
    replace (100 * epsilon * (m + b * Q) * (m + b * Q) ^ 2) with (100 * epsilon * (m + b * Q) ^ 3) by ring. exact H1.
Qed.

Lemma analog_freqs bt wn : valid_freqs bt wn -> 0 < nth 0 wn 0 /\ (bt = Bandpass \/ bt = Bandstop -> 0 < nth 1 wn 0 - nth 0 wn 0 /\ 0 < sqrt (nth 0 wn 0 * nth 1 wn 0)).
Proof.
  intros [Hl [Hf Hso]]. destruct bt; cbn in Hl; destruct wn as [|a [|b [|? ?]]]; try discriminate Hl; cbn [nth]; inversion Hf; subst; (split; [assumption|]); intros [Q|Q]; try discriminate Q.
  all: inversion Hso as [|? ? _ HF]; subst; inversion HF; subst; (split; [lra|]); apply sqrt_lt_R0; nra.
Qed.

(** What the band transform of an all-pole filter has for zeros, and that its poles are clear. *)
Theorem analog_clear_poles k bt wn f1 : valid_freqs bt wn ->
  apply_band bt (mkZpk [] (map (ep n sh ch) (seq 0 n)) k) wn = Ok f1 ->
  analog_clear epsilon bt n ch sh wn -> separated epsilon (zk_p f1).
Proof.
  intros Hv E1 HC. destruct (analog_freqs bt wn Hv) as [W0 TF]. unfold analog_clear in HC. cbv zeta in HC.
  set (m := sqrt (nth 0 wn 0 * nth 1 wn 0)) in *. set (b := nth 1 wn 0 - nth 0 wn 0) in *.
  apply Forall_forall. intros s Hs. change (clear epsilon s).
  destruct bt; cbn [apply_band] in E1.
  - unfold lp2lp_zpk_dyn, relative_degree_dyn in E1. cbn [zk_z zk_p zk_k length map unwrap_or] in E1. inversion E1; subst f1. cbn [zk_p] in Hs.
    apply in_map_iff in Hs. destruct Hs as [p [<- Hp]]. apply in_map_iff in Hp. destruct Hp as [j [<- Hj]]. apply in_seq in Hj.
    apply clear_scale; [exact W0|]. apply ep_clear; [lia|exact HC].
  - unfold lp2hp_zpk_dyn, relative_degree_dyn in E1. cbn [zk_z zk_p zk_k length map app unwrap_or] in E1. inversion E1; subst f1. cbn [zk_p] in Hs.
    apply in_map_iff in Hs. destruct Hs as [p [<- Hp]]. apply in_map_iff in Hp. destruct Hp as [j [<- Hj]]. apply in_seq in Hj.
    apply clear_inv; [exact W0|apply ep_neq0; assumption|]. apply ep_clear; [lia|exact HC].
  - destruct (TF (or_introl eq_refl)) as [b0 m0]. destruct HC as [HC1 HC2].
    fold m b in E1. clearbody m b. unfold lp2bp_zpk_dyn, relative_degree_dyn in E1. cbn [zk_z zk_p zk_k length map app unwrap_or] in E1. inversion E1; subst f1. cbn [zk_p] in Hs.
    apply in_pm in Hs. destruct Hs as [a [Ha Er]]. apply in_map_iff in Ha. destruct Ha as [p [<- Hp]]. apply in_map_iff in Hp. destruct Hp as [j [<- Hj]]. apply in_seq in Hj.
    apply (band_clear_analog m b ch (ch / INR n) sh (ep n sh ch j)); try assumption; try lra.
    + apply Rdiv_lt_0_compat; lra.
    + rewrite <- Er. apply C_ext; destruct (ep n sh ch j), s; cbn; field.
    + apply ep_norm; assumption.
    + destruct (ep_im n sh ch Hc1 j ltac:(lia)) as [[_ Q]|Q]; [left; exact Q|right; exact Q].
  - destruct (TF (or_intror eq_refl)) as [b0 m0]. destruct HC as [HC1 HC2].
    fold m b in E1. clearbody m b. unfold lp2bs_zpk_dyn, relative_degree_dyn in E1. cbn [zk_z zk_p zk_k length map app unwrap_or] in E1. inversion E1; subst f1. cbn [zk_p] in Hs.
    apply in_pm in Hs. destruct Hs as [a [Ha Er]]. apply in_map_iff in Ha. destruct Ha as [p [<- Hp]]. apply in_map_iff in Hp. destruct Hp as [j [<- Hj]]. apply in_seq in Hj.
    pose proof (ep_neq0 n sh ch Hsh Hsc j) as P0.
    assert (I : 0 < 1 / sh) by (apply Rdiv_lt_0_compat; lra).
    apply (band_clear_analog m b (1 / sh) (1 / (INR n * ch)) (1 / sh) (C1 / ep n sh ch j)%C); try assumption; try lra.
    + apply Rdiv_lt_0_compat; nra.
    + rewrite <- Er.
      match goal with |- context [cmul (cdiv ?u (ep n sh ch j)) ?v] => replace (cmul (cdiv u (ep n sh ch j)) v) with (RtoC (b / 2)%R * (C1 / ep n sh ch j))%C end.
      { set (q := (C1 / ep n sh ch j)%C). apply C_ext; destruct q, s; cbn; field. }
      apply cnorm_sqr_pos in P0. destruct (ep n sh ch j) as [x y]. unfold two. unfold cnorm_sqr in P0. apply C_ext; cbn in *; field; lra.
    + rewrite inv_norm by exact P0. unfold Rdiv. rewrite Rmult_1_l. apply Rinv_le_contravar; [lra|]. apply (ep_norm n sh ch Hsh Hsc); assumption.
    + destruct (epi_im n sh ch Hn Hsh Hsc Hc1 j ltac:(lia)) as [Q|Q]; [left; exact Q|right; exact Q].
Qed.
End Clear.

Lemma band_zeros bt p k wn f1 : apply_band bt (mkZpk [] p k) wn = Ok f1 ->
  match bt with
  | Lowpass => zk_z f1 = []
  | Highpass | Bandpass => zk_z f1 = repeat C0 (length p)
  | Bandstop => exists m, zk_z f1 = repeat (0, m) (length p) ++ repeat (0, - m) (length p)
  end.
Proof.
  intros E1. destruct bt; cbn [apply_band] in E1.
  - unfold lp2lp_zpk_dyn, relative_degree_dyn in E1. cbn [zk_z zk_p zk_k length map] in E1. inversion E1. reflexivity.
  - unfold lp2hp_zpk_dyn, relative_degree_dyn in E1. cbn [zk_z zk_p zk_k length map app] in E1. inversion E1. cbn [zk_z]. rewrite Nat.sub_0_r. reflexivity.
  - unfold lp2bp_zpk_dyn, relative_degree_dyn in E1. cbn [zk_z zk_p zk_k length map app] in E1. inversion E1. cbn [zk_z]. rewrite Nat.sub_0_r. reflexivity.
  - unfold lp2bs_zpk_dyn, relative_degree_dyn in E1. cbn [zk_z zk_p zk_k length map app unwrap_or] in E1. inversion E1. cbn [zk_z]. rewrite Nat.sub_0_r.
    exists (sqrt (nth 0 wn 0 * nth 1 wn 0)). f_equal; f_equal; apply C_ext; cbn; ring.
Qed.
Lemma band_gain bt p k wn f1 : apply_band bt (mkZpk [] p k) wn = Ok f1 -> valid_freqs bt wn -> k <> 0 -> bt = Lowpass \/ bt = Bandpass -> zk_k f1 <> 0.
Proof.
  intros E1 Hv Hk Hb. destruct (analog_freqs bt wn Hv) as [W0 TF]. destruct Hb as [-> | ->]; cbn [apply_band] in E1.
  - unfold lp2lp_zpk_dyn, relative_degree_dyn in E1. cbn [zk_z zk_p zk_k length map unwrap_or] in E1. inversion E1. cbn [zk_k].
    change (k * npow (nth 0 wn 0) (length p - 0) <> 0). apply Rmult_integral_contrapositive_currified; [exact Hk|]. rewrite npow_pow. apply pow_nonzero. lra.
  - destruct (TF (or_introl eq_refl)) as [b0 _]. unfold lp2bp_zpk_dyn, relative_degree_dyn in E1. cbn [zk_z zk_p zk_k length map app unwrap_or] in E1. inversion E1. cbn [zk_k].
    change (k * npow (nth 1 wn 0 - nth 0 wn 0) (length p - 0) <> 0). apply Rmult_integral_contrapositive_currified; [exact Hk|]. rewrite npow_pow. apply pow_nonzero. lra.
Qed.
