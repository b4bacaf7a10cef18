(** The response of a cascade at rest to a sampled sinusoid with perturbed samples: the
    bound is uniform in frequency, amplitude, phase and length, and the same for every realisation of
    one transfer function. *)
From Coq Require Import List Arith ZArith Reals Permutation Lra Lia.
From Verif Require Import Base Num Trans M_Complex M_Filter M_Design Cx S_Filter S_Design S_Stable P_Sosfilt P_Transfer P_Lp P_Proto P_Sos T_Sos P_Stable T_Stable P_ZeroPhase T_Unique.
Import ListNotations.
Local Open Scope R_scope.

Lemma nth_lincomb c d x y n : length x = length y -> nth n (lincomb c d x y) 0 = c * nth n x 0 + d * nth n y 0.
Proof.
  unfold lincomb. revert y n. induction x as [|a x IH]; intros [|b y] n L; try discriminate L; [destruct n; cbn; ring|].
  destruct n as [|n]; cbn [combine map nth fst snd]; [reflexivity|]. apply IH. injection L as L. exact L.
Qed.
Lemma lincomb_rest c d l : Forall zero_state l -> lincomb_state c d l l = l.
Proof.
  unfold lincomb_state. induction 1 as [|s l [Z0 Z1] F IH]; [reflexivity|]. cbn [combine map fst snd]. rewrite IH. f_equal.
  destruct s. cbn in *. unfold set_state. cbn. rewrite Z0, Z1. f_equal; ring.
Qed.
Lemma filt_lincomb c d l x y n : Forall zero_state l -> length x = length y ->
  nth n (fst (filt (lincomb c d x y) l)) 0 = c * nth n (fst (filt x l)) 0 + d * nth n (fst (filt y l)) 0.
Proof.
  intros Z L. rewrite <- (lincomb_rest c d l Z) at 1. rewrite filt_lin by (try reflexivity; exact L). cbn [fst].
  apply nth_lincomb. rewrite !filt_length_out. exact L.
Qed.

Lemma realises_stable l f : stable_digital f -> realises l f -> stable_sections l.
Proof.
  intros Hs [F Q]. split; [eapply Forall_impl; [|exact F]; intros s X; apply X|]. intros x Hx.
  destruct (Rlt_dec (cnorm_sqr x) 1) as [L|L]; [exact L|exfalso].
  assert (X0 : x <> C0) by (intros ->; apply L; cbn; lra).
  apply (proj1 (Q x X0 ltac:(intros I; apply L; unfold stable_digital in Hs; rewrite Forall_forall in Hs; exact (Hs x I)))). exact Hx.
Qed.

Lemma tone_core f : stable_digital f -> length (zk_z f) = length (zk_p f) -> (exists l0, realises l0 f) ->
  exists K rho, 0 <= K /\ 0 < rho < 1 /\ forall theta, exists g psi, 0 <= g /\ H f (cos theta, sin theta) = (g * cos psi, g * sin psi) /\ g ^ 2 = dgain_sqr f theta /\
  forall l, realises l f -> forall A phi x d y l', 0 <= A -> 0 <= d ->
    (forall n, (n < length x)%nat -> Rabs (nth n x 0 - A * cos (theta * INR n + phi)) <= d) ->
    sosfilt_dyn x l = Ok (y, l') ->
    forall n, (n < length x)%nat -> Rabs (nth n y 0 - A * g * cos (theta * INR n + phi + psi)) <= K * (d + A * rho ^ n).
Proof.
  intros Hs Hl [l0 R0]. pose proof (realises_stable l0 f Hs R0) as SS. pose proof R0 as [F0 Q0].
  assert (Z0 : Forall zero_state l0) by (eapply Forall_impl; [|exact F0]; intros s X; split; apply X).
  assert (SZ : state_size l0 = 0). { clear -Z0. unfold state_size. induction Z0 as [|s l [A B] F IH]; [reflexivity|]. cbn [fold_right]. rewrite IH, A, B, Rabs_R0. ring. }
  pose proof SS as [HA Hp]. destruct (cascade_roots l0 HA Hp) as [rho [Hr Hroots]].
  destruct (one_pass l0 rho (Hroots rho ltac:(lra)) Hr Hroots HA) as (Z & K & _ & HK & P). destruct (C69_bounded_output l0 SS) as [B HB].
  exists (Rabs B + 2 * K), rho. pose proof (Rabs_pos B) as HB0. split; [lra|]. split; [exact Hr|]. intros theta.
  destruct (P theta) as [_ P1]. destruct (polar (sos_num l0 (E theta) / sos_den l0 (E theta))%C) as [psi Hpsi]. set (g := cnorm (sos_num l0 (E theta) / sos_den l0 (E theta))%C) in *.
  assert (Hg : 0 <= g) by apply cnorm_pos. destruct (P1 g psi Hg Hpsi) as [_ P2].
  assert (EH : H f (E theta) = (sos_num l0 (E theta) / sos_den l0 (E theta))%C).
  { assert (Np : ~ In (E theta) (zk_p f)). { intros Q'. unfold stable_digital in Hs. rewrite Forall_forall in Hs. apply Hs in Q'. rewrite E_norm in Q'. lra. }
    destruct (Q0 _ (E_neq0 theta) Np) as [_ EH]. rewrite EH. pose proof (Hd_H f _ (E_neq0 theta) Np) as X. rewrite Hl in X.
    assert (Pn : cpow (E theta) (length (zk_p f)) <> C0) by (apply cpow_neq0, E_neq0).
    transitivity (H f (E theta) * cpow (E theta) (length (zk_p f)) / cpow (E theta) (length (zk_p f)))%C; [field; exact Pn|]. rewrite <- X. field. exact Pn. }
  exists g, psi. split; [exact Hg|]. split; [change (cos theta, sin theta) with (E theta); rewrite EH; exact Hpsi|]. split.
  { unfold dgain_sqr. change (cos theta, sin theta) with (E theta). rewrite EH. unfold g. rewrite <- cnorm_sq. ring. }
  intros l Rl A phi x d y l' HA' Hd' Hx Ey n Hn.
  rewrite sosfilt_dyn_pure in Ey. injection Ey as Ey. assert (Y : y = fst (filt x l0)) by (rewrite <- (realises_same l l0 f Rl R0), Ey; reflexivity).
  set (N := length x) in *. set (s := sinusoid A theta phi N). assert (Ls : length s = N) by (unfold s, sinusoid; rewrite map_length; apply seq_length).
  set (e := lincomb 1 (-1) x s). assert (Le : length e = N) by (unfold e, lincomb; rewrite map_length, combine_length, Ls; apply Nat.min_id).
  assert (Es : forall k, (k < N)%nat -> nth k s 0 = A * cos (theta * INR k + phi)).
  { intros k Hk. unfold s, sinusoid. rewrite (nth_indep _ 0 ((fun n => A * cos (theta * INR n + phi)) 0%nat)) by (rewrite map_length, seq_length; exact Hk).
    rewrite (map_nth (fun n => A * cos (theta * INR n + phi))), seq_nth by exact Hk. reflexivity. }
  assert (De : nth n (fst (filt e l0)) 0 = nth n y 0 - nth n (fst (filt s l0)) 0).
  { unfold e. rewrite filt_lincomb by (try exact Z0; unfold N in Ls; congruence). rewrite Y. ring. }
  assert (Be : Rabs (nth n (fst (filt e l0)) 0) <= Rabs B * d).
  { destruct (HB l0 e d eq_refl) as (ye & le & E1 & E2 & E3).
    - intros v Hv. apply (In_nth _ _ 0) in Hv. destruct Hv as [k [Hk <-]]. rewrite Le in Hk. unfold e. rewrite nth_lincomb by (unfold N in Ls; congruence). rewrite Es by exact Hk.
      replace (1 * nth k x 0 + -1 * (A * cos (theta * INR k + phi))) with (nth k x 0 - A * cos (theta * INR k + phi)) by ring. apply Hx, Hk.
    - rewrite sosfilt_dyn_pure in E1. injection E1 as E1. rewrite E1. cbn [fst].
      eapply Rle_trans; [apply E3, nth_In; rewrite E2, Le; exact Hn|]. rewrite SZ, Rplus_0_r. apply Rmult_le_compat_r; [exact Hd'|apply Rle_abs]. }
  assert (Bt : Rabs (nth n (fst (filt s l0)) 0 - A * g * cos (theta * INR n + phi + psi)) <= 2 * K * (A * rho ^ n)).
  { rewrite filt_cout by lia. eapply Rle_trans; [apply (P2 l0 (fun k => nth k s 0) 0%nat N A phi A 0 eq_refl HA' (Rle_refl 0))|].
    - intros k. destruct (Nat.lt_ge_cases k N) as [L|L]; [|rewrite nth_overflow, Rabs_R0 by lia; exact HA']. rewrite Es by exact L.
      rewrite Rabs_mult, (Rabs_right A) by lra. assert (Rabs (cos (theta * INR k + phi)) <= 1) by (apply Rabs_le; apply COS_bound). pose proof (Rabs_pos (cos (theta * INR k + phi))). nra.
    - intros k Hk. cbn [Nat.add]. rewrite Es, Rminus_diag_eq, Rabs_R0 by (exact Hk || reflexivity). lra.
    - exact Hn.
    - rewrite SZ, (Rabs_right A) by lra. right. ring. }
  replace (nth n y 0 - A * g * cos (theta * INR n + phi + psi)) with (nth n (fst (filt e l0)) 0 + (nth n (fst (filt s l0)) 0 - A * g * cos (theta * INR n + phi + psi))) by (rewrite De; ring).
  eapply Rle_trans; [apply Rabs_triang|].
  assert (0 <= A * rho ^ n) by (apply Rmult_le_pos; [exact HA'|apply pow_le; lra]).
  assert (0 <= Rabs B * (A * rho ^ n)) by (apply Rmult_le_pos; assumption). assert (0 <= 2 * K * d) by (apply Rmult_le_pos; lra). lra.
Qed.
