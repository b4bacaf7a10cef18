(** Zero-phase filtering of a sampled sinusoid with perturbed samples: the bound is uniform
    in frequency, amplitude, phase and length, and the same for every realisation of one
    transfer function with the same number of taps. *)
From Coq Require Import List Arith ZArith Reals Permutation Lra Lia.
From Verif Require Import Base Num Trans M_Complex M_Filter M_Design Cx S_Filter S_Design S_Stable ListUtil P_Sosfilt P_Zi P_Filtfilt P_Transfer P_Lp P_Proto P_Iir2 P_Sos T_Sos P_Stable T_Stable T_Unique P_Tone
  P_ZeroPhase T_ZeroPhase P_FiltfiltSame.
Import ListNotations.
Local Open Scope R_scope.

Lemma filtfilt_bound l init : stable_sections l -> same_coefs init l ->
  exists G, 0 <= G /\ forall x d, 0 <= d -> (forall k, Rabs (nth k x 0) <= d) -> forall n, Rabs (nth n (filtfilt x l init) 0) <= G * d.
Proof.
  intros SS HI. destruct (C69_bounded_output l SS) as [B HB]. set (b := Rabs B). assert (Hb : 0 <= b) by apply Rabs_pos.
  set (Z := state_size init). assert (HZ : 0 <= Z) by apply state_size_pos.
  assert (P : forall y c M, 0 <= M -> (forall k, Rabs (nth k y 0) <= M) -> Rabs c <= M -> forall k, Rabs (nth k (fst (filt y (scale_state c init))) 0) <= b * (1 + Z) * M).
  { intros y c M HM Hy Hc k. assert (Q : 0 <= b * (1 + Z) * M) by (apply Rmult_le_pos; [apply Rmult_le_pos; lra|exact HM]).
    destruct (HB (scale_state c init) y M) as (o & l' & E1 & E2 & E3).
    { unfold same_coefs. rewrite scale_coefs. exact HI. }
    { intros v Hv. apply (In_nth _ _ 0) in Hv. destruct Hv as [j [_ <-]]. apply Hy. }
    rewrite sosfilt_dyn_pure in E1. injection E1 as E1. rewrite E1. cbn [fst].
    destruct (Nat.lt_ge_cases k (length o)) as [L|L]; [|rewrite nth_overflow, Rabs_R0 by exact L; exact Q].
    eapply Rle_trans; [apply E3, nth_In, L|]. rewrite scale_size. fold Z.
    assert (U : 0 <= M + Rabs c * Z) by (pose proof (Rabs_pos c); nra). assert (V : M + Rabs c * Z <= (1 + Z) * M) by nra.
    apply Rle_trans with (b * (M + Rabs c * Z)); [apply Rmult_le_compat_r; [exact U|apply Rle_abs]|]. rewrite Rmult_assoc. apply Rmult_le_compat_l; assumption. }
  assert (PR : forall (y : list R) M, 0 <= M -> (forall k, Rabs (nth k y 0) <= M) -> forall k, Rabs (nth k (rev y) 0) <= M).
  { intros y M HM Hy k. destruct (Nat.lt_ge_cases k (length y)) as [L|L]; [rewrite rev_nth by exact L; apply Hy|]. rewrite nth_overflow, Rabs_R0 by (rewrite rev_length; exact L). exact HM. }
  assert (PI' : forall (y z : list R) M, 0 <= M -> (forall v, In v y -> In v z) -> (forall k, Rabs (nth k z 0) <= M) -> forall k, Rabs (nth k y 0) <= M).
  { intros y z M HM Hi Hz k. destruct (Nat.lt_ge_cases k (length y)) as [L|L]; [|rewrite nth_overflow, Rabs_R0 by exact L; exact HM].
    pose proof (Hi _ (nth_In y 0 L)) as Q. apply (In_nth _ _ 0) in Q. destruct Q as [j [_ Q]]. rewrite <- Q. apply Hz. }
  set (q := b * (1 + Z)). assert (Hq : 0 <= q) by (apply Rmult_le_pos; lra). exists (q * (q * 3)). split; [repeat apply Rmult_le_pos; lra|].
  intros x d Hd Hx n. unfold filtfilt. cbn zeta. set (e := (3 * taps l)%nat). set (ext := odd_extension e x).
  pose proof (ext_bound x e d Hd Hx) as B0. fold ext in B0. assert (H3 : 0 <= 3 * d) by lra.
  pose proof (P ext (nth 0 ext nzero) (3 * d) H3 B0 (B0 0%nat)) as B1. fold q in B1. assert (H4 : 0 <= q * (3 * d)) by (apply Rmult_le_pos; assumption).
  set (w := fst (filt ext (scale_state (nth 0 ext nzero) init))) in *. pose proof (PR w _ H4 B1) as B2.
  pose proof (P (rev w) (nth 0 (rev w) nzero) _ H4 B2 (B2 0%nat)) as B3. fold q in B3.
  replace (q * (q * 3) * d) with (q * (q * (3 * d))) by ring. apply PR; [apply Rmult_le_pos; assumption|].
  eapply PI'; [apply Rmult_le_pos; assumption| |exact B3]. intros v Hv.
  rewrite <- (firstn_skipn e). apply in_or_app. right. rewrite <- (firstn_skipn (length x)). apply in_or_app. left. exact Hv.
Qed.

Lemma zero_core h m : stable_digital h -> length (zk_z h) = length (zk_p h) -> (exists l0, realises l0 h /\ taps l0 = m) ->
  exists K rho, 1 <= K /\ 0 < rho < 1 /\ forall theta l A phi d x y, realises l h -> taps l = m -> 0 <= A -> 0 <= d ->
    (forall n, (n < length x)%nat -> Rabs (nth n x 0 - A * cos (theta * INR n + phi)) <= d) -> sosfiltfilt_dyn x l = Ok y ->
    forall n, (n < length x)%nat -> Rabs (nth n y 0 - A * dgain_sqr h theta * cos (theta * INR n + phi)) <= K * (d + A * (rho ^ n + rho ^ (length x - 1 - n))).
Proof.
  intros Hs Hl (l0 & R0 & T0). pose proof (realises_stable l0 h Hs R0) as SS. pose proof R0 as [F0 Q0].
  assert (N1 : ~ In C1 (zk_p h)). { intros I. unfold stable_digital in Hs. rewrite Forall_forall in Hs. apply Hs in I. unfold cnorm_sqr in I. cbn in I. lra. }
  destruct (realises_sections l0 h R0 N1) as (S1 & _ & _). destruct (sosfilt_zi_steady l0 S1) as (z & Ez & _).
  destruct (C80_zero_phase l0 SS) as (K & rho & Hr & B).
  assert (Cz : same_coefs z l0).
  { assert (Fd : forallb some_den l0 = true).
    { apply forallb_forall. intros s Hin. destruct SS as [HA _]. rewrite Forall_forall in HA. specialize (HA s Hin). unfold some_den. rewrite HA.
      cbn [neqb RNum nzero]. unfold Reqb. destruct (Req_EM_T 1 0); [lra|reflexivity]. }
    pose proof (sosfilt_zi_loop_total l0 none) as Q. rewrite Fd in Q. destruct Q as [init [Ei Ci]]. unfold sosfilt_zi_dyn in Ez. rewrite Ei in Ez. injection Ez as <-. exact Ci. }
  destruct (filtfilt_bound l0 z SS Cz) as (G & HG & BB).
  exists (1 + G + Rabs K), rho. pose proof (Rabs_pos K) as HK. split; [lra|]. split; [exact Hr|].
  intros theta l A phi d x y Rl Tl HA HD Hx Ey n Hn. rewrite (realises_filtfilt l l0 h Rl R0 N1 ltac:(congruence)) in Ey.
  set (N := length x) in *. rewrite sosfiltfilt_eq in Ey. fold N in Ey. destruct (Nat.leb_spec N (3 * taps l0)) as [L|L]; [discriminate|]. rewrite Ez in Ey. cbn [bind] in Ey. injection Ey as Ey.
  set (s := sinusoid A theta phi N). assert (Ls : length s = N) by (unfold s, sinusoid; rewrite map_length; apply seq_length).
  destruct (B theta A phi N L) as (_ & ys & Es & Lys & Bs). fold s in Es. rewrite sosfiltfilt_eq, Ls in Es. destruct (Nat.leb_spec N (3 * taps l0)) as [L'|_]; [lia|]. rewrite Ez in Es. cbn [bind] in Es. injection Es as Es.
  assert (Ns : forall k, (k < N)%nat -> nth k s 0 = A * cos (theta * INR k + phi)).
  { intros k Hk. unfold s, sinusoid. rewrite (nth_indep _ 0 ((fun n => A * cos (theta * INR n + phi)) 0%nat)) by (rewrite map_length, seq_length; exact Hk).
    rewrite (map_nth (fun n => A * cos (theta * INR n + phi))), seq_nth by exact Hk. reflexivity. }
  set (e := lincomb 1 (-1) x s). assert (Le : length e = N) by (unfold e, lincomb; rewrite map_length, combine_length, Ls; apply Nat.min_id).
  assert (De : nth n (filtfilt e l0 z) 0 = nth n y 0 - nth n ys 0).
  { unfold e. rewrite filtfilt_linear by (symmetry; exact Ls). rewrite Ey, Es. rewrite nth_lincomb; [ring|]. rewrite <- Ey, <- Es, !filtfilt_length, Ls. reflexivity. }
  assert (Be : Rabs (nth n (filtfilt e l0 z) 0) <= G * d).
  { apply BB; [exact HD|]. intros k. destruct (Nat.lt_ge_cases k N) as [Lk|Lk]; [|rewrite nth_overflow, Rabs_R0 by lia; exact HD].
    unfold e. rewrite nth_lincomb by (symmetry; exact Ls). rewrite Ns by exact Lk.
    replace (1 * nth k x 0 + -1 * (A * cos (theta * INR k + phi))) with (nth k x 0 - A * cos (theta * INR k + phi)) by ring. apply Hx, Lk. }
  assert (EG : cnorm_sqr (sos_num l0 (cos theta, sin theta) / sos_den l0 (cos theta, sin theta))%C = dgain_sqr h theta).
  { change (cos theta, sin theta) with (E theta).
    assert (Np : ~ In (E theta) (zk_p h)). { intros Q'. unfold stable_digital in Hs. rewrite Forall_forall in Hs. apply Hs in Q'. rewrite E_norm in Q'. lra. }
    destruct (Q0 _ (E_neq0 theta) Np) as [_ EH]. rewrite EH. 
    pose proof (Hd_H h _ (E_neq0 theta) Np) as X. rewrite Hl in X.
    assert (P : cpow (E theta) (length (zk_p h)) <> C0) by (apply cpow_neq0, E_neq0).
    unfold dgain_sqr. f_equal. change (cos theta, sin theta) with (E theta).
    transitivity (Hd h (E theta) * cpow (E theta) (length (zk_p h)) / cpow (E theta) (length (zk_p h)))%C; [field; exact P|]. rewrite X. field. exact P. }
  specialize (Bs n Hn). rewrite EG, (Rabs_pos_eq A HA) in Bs. set (t := rho ^ n + rho ^ (N - 1 - n)) in *.
  assert (Ht : 0 <= A * t) by (apply Rmult_le_pos; [exact HA|]; apply Rplus_le_le_0_compat; apply pow_le; lra).
  replace (nth n y 0 - A * dgain_sqr h theta * cos (theta * INR n + phi)) with
    ((nth n y 0 - nth n ys 0) + (nth n ys 0 - A * dgain_sqr h theta * cos (theta * INR n + phi))) by ring.
  eapply Rle_trans; [apply Rabs_triang|]. rewrite <- De.
  assert (K * A * t <= Rabs K * (A * t)) by (rewrite Rmult_assoc; apply Rmult_le_compat_r; [exact Ht|apply Rle_abs]).
  assert (0 <= Rabs K * d) by (apply Rmult_le_pos; assumption). assert (0 <= G * (A * t)) by (apply Rmult_le_pos; assumption). lra.
Qed.
