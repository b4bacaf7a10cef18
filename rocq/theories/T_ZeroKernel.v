(** C124: what sosfiltfilt computes from any signal: convolution with the autocorrelation of the
    impulse response, a kernel that is symmetric and largest at zero, up to effects of the ends. *)
From Coq Require Import List Arith ZArith Bool Lia Reals Lra SpecFloat.
From Verif Require Import Base Num Trans M_Complex M_Linalg M_Filter M_Design S_Filter S_Float ListUtil RSum P_Sosfilt P_Filtfilt P_Transfer Cx S_Design S_Stable S_Peak S_ZeroKernel
  T_Convolve P_Stable T_Stable P_ZeroPhase T_ZeroPhase P_Energy T_Energy P_Peak T_FloatFilt T_FloatFiltfilt P_ZeroKernel.
Import ListNotations.
Local Open Scope R_scope.

Lemma at_rest_self l : Forall (fun s => zi0 s = 0 /\ zi1 s = 0) l -> at_rest l = l.
Proof. intros H. unfold at_rest. induction H as [|s l [A B] _ IH]; [reflexivity|]. cbn [map]. rewrite IH. f_equal. destruct s. cbn in *. subst. reflexivity. Qed.
Lemma coefs_at_rest l1 l2 : same_coefs l1 l2 -> at_rest l1 = at_rest l2.
Proof.
  unfold same_coefs, at_rest. revert l2. induction l1 as [|s l1 IH]; intros [|t l2] E; cbn in E; try discriminate E; [reflexivity|].
  assert (E1 : coefs s = coefs t) by congruence. assert (E2 : map coefs l1 = map coefs l2) by congruence. cbn [map]. rewrite (IH l2 E2). f_equal. destruct s, t. unfold coefs in E1. cbn in E1. injection E1 as -> -> -> -> -> ->. reflexivity.
Qed.
Lemma impulse_is l N : impulse_response l N (map (ir l) (seq 0 (S N))).
Proof.
  exists (snd (filt (1 :: repeat 0 N) l)). rewrite sosfilt_dyn_pure. rewrite (surjective_pairing (filt (1 :: repeat 0 N) l)) at 1. do 2 f_equal.
  assert (L : length (fst (filt (1 :: repeat 0 N) l)) = S N) by (rewrite filt_length_out; cbn [length]; rewrite repeat_length; reflexivity).
  apply (nth_ext _ _ 0 0); [rewrite map_length, seq_length; exact L|]. intros k Hk. rewrite L in Hk.
  rewrite (nth_indep (map (ir l) (seq 0 (S N))) 0 (ir l 0)) by (rewrite map_length, seq_length; exact Hk). rewrite map_nth, seq_nth by exact Hk.
  cbn [Nat.add]. rewrite <- (ir_nth l (S N) k Hk). unfold impulse. replace (S N - 1)%nat with N by lia. reflexivity.
Qed.

Lemma tone_convolution r theta n :
  symmetric_convolution r (sinusoid 1 theta (- (theta * INR n)) (2 * n + 1)) n = rsum (S n) (fun m => match m with O => r 0%nat | S _ => 2 * r m * cos (theta * INR m) end).
Proof.
  unfold symmetric_convolution. assert (L : length (sinusoid 1 theta (- (theta * INR n)) (2 * n + 1)) = (2 * n + 1)%nat) by (unfold sinusoid; rewrite map_length; apply seq_length). rewrite L.
  rewrite (rsum_ext _ _ (fun j => cos (theta * INR j - theta * INR n) * r (dist n j))).
  2:{ intros j Hj. f_equal. unfold sinusoid. rewrite (nth_indep _ 0 (1 * cos (theta * INR 0 + - (theta * INR n)))) by (rewrite map_length, seq_length; exact Hj).
      rewrite (map_nth (fun k => 1 * cos (theta * INR k + - (theta * INR n)))), seq_nth by exact Hj. rewrite Rmult_1_l. reflexivity. }
  replace (2 * n + 1)%nat with (n + S n)%nat by lia. rewrite rsum_add, !(rsum_first n), rsum_rev.
  replace (n + 0)%nat with n by lia. rewrite Rminus_diag_eq, cos_0 by reflexivity. replace (dist n n) with 0%nat by (unfold dist; lia).
  transitivity (r 0%nat + (rsum n (fun i => cos (theta * INR (S i)) * r (S i)) + rsum n (fun i => cos (theta * INR (S i)) * r (S i)))).
  - rewrite Rmult_1_l. assert (A1 : rsum n (fun i => cos (theta * INR (n - 1 - i) - theta * INR n) * r (dist n (n - 1 - i))) = rsum n (fun i => cos (theta * INR (S i)) * r (S i))).
    { apply rsum_ext. intros i Hi. replace (dist n (n - 1 - i)) with (S i) by (unfold dist; lia). f_equal. rewrite <- cos_neg. f_equal. replace n with (n - 1 - i + S i)%nat at 2 by lia. rewrite plus_INR. ring. }
    assert (A2 : rsum n (fun i => cos (theta * INR (n + S i) - theta * INR n) * r (dist n (n + S i))) = rsum n (fun i => cos (theta * INR (S i)) * r (S i))).
    { apply rsum_ext. intros i Hi. replace (dist n (n + S i)) with (S i) by (unfold dist; lia). f_equal. f_equal. rewrite plus_INR. ring. }
    rewrite A1, A2. ring.
  - f_equal. rewrite <- rsum_plus. apply rsum_ext. intros i _. ring.
Qed.

(** Besides, the spectrum of the kernel is the squared gain. *)
Theorem C124_zero_phase_kernel (l : list (Sos R)) : stable_sections l ->
  exists h r K rho, 0 < rho < 1 /\
    (forall l0 N, same_coefs l0 l -> Forall (fun s => zi0 s = 0 /\ zi1 s = 0) l0 -> impulse_response l0 N (map h (seq 0 (S N)))) /\
    (forall m, infinite_sum (fun k => h k * h (k + m)%nat) (r m)) /\
    (forall m, Rabs (r m) <= r 0%nat /\ Rabs (r m) <= K * rho ^ m) /\
    (forall theta, let z := (cos theta, sin theta) in
       infinite_sum (fun m => match m with O => r 0%nat | S _ => 2 * r m * cos (theta * INR m) end) (cnorm_sqr (sos_num l z / sos_den l z)%C)) /\
    forall x M, (3 * taps l < length x)%nat -> (forall v, In v x -> Rabs v <= M) ->
    exists y, sosfiltfilt_dyn x l = Ok y /\ length y = length x /\
      forall n, (n < length x)%nat ->
        Rabs (nth n y 0 - symmetric_convolution r x n) <= K * M * (rho ^ n + rho ^ (length x - 1 - n)).
Proof.
  intros Sl. pose proof (proj1 Sl) as HA. pose proof (proj2 Sl) as Hs. destruct (cascade_roots l HA Hs) as [rho [Hr Hroots]].
  assert (Fd : forallb some_den l = true).
  { apply forallb_forall. intros s Hin. rewrite Forall_forall in HA. specialize (HA s Hin). unfold some_den. rewrite HA.
    cbn [neqb RNum nzero]. unfold Reqb. destruct (Req_EM_T 1 0); [lra|reflexivity]. }
  pose proof (sosfilt_zi_loop_total l none) as Q. rewrite Fd in Q. destruct Q as [init [Ei Ci]].
  destruct (filtfilt_kernel l init rho (Hroots rho ltac:(lra)) Hr Hroots Ci) as (K & r & HK & _ & Hsum & Hdec & B).
  exists (ir (at_rest l)), r, K, rho. split; [exact Hr|]. split.
  { intros l0 N Hc Hz. rewrite <- (at_rest_self l0 Hz). rewrite (coefs_at_rest l0 l Hc). apply impulse_is. }
  split; [exact Hsum|]. split; [intros m; split; [exact (kernel_peak _ r Hsum m)|apply Hdec]|].
  match goal with |- _ /\ ?Q => assert (Main : Q) end.
  { intros x M HN Hx. exists (filtfilt x l init). split.
  { rewrite sosfiltfilt_eq. destruct (Nat.leb_spec (length x) (3 * taps l)); [lia|]. unfold sosfilt_zi_dyn. rewrite Ei. reflexivity. }
  split; [apply filtfilt_length|]. intros n Hn.
  assert (HM : 0 <= M) by (eapply Rle_trans; [apply Rabs_pos|apply (Hx (nth n x 0)); apply nth_In; exact Hn]).
  apply B; [exact HM| |exact Hn]. intros k. destruct (Nat.lt_ge_cases k (length x)) as [L|L]; [apply Hx, nth_In, L|]. rewrite nth_overflow, Rabs_R0 by exact L. exact HM. }
  split; [|exact Main]. intros theta z e He. destruct (C80_zero_phase l Sl) as (K2 & rho2 & Hr2 & T).
  destruct (small_pow rho (e / (8 * (K + 1))) Hr ltac:(apply Rdiv_lt_0_compat; lra)) as [n1 H1]. pose proof (Rabs_pos K2) as PK. destruct (small_pow rho2 (e / (8 * (Rabs K2 + 1))) Hr2 ltac:(apply Rdiv_lt_0_compat; lra)) as [n2 H2].
  exists (n1 + n2 + 3 * taps l)%nat. intros n Hn. rewrite rsum_sum_f. rewrite <- tone_convolution. unfold R_dist.
  set (x := sinusoid 1 theta (- (theta * INR n)) (2 * n + 1)). assert (L : length x = (2 * n + 1)%nat) by (unfold x, sinusoid; rewrite map_length; apply seq_length).
  destruct (Main x 1) as (y & Ey & Ly & By). { rewrite L. lia. } { intros v Hv. unfold x, sinusoid in Hv. apply in_map_iff in Hv. destruct Hv as (k & <- & _). rewrite Rmult_1_l. apply Rabs_le, COS_bound. }
  destruct (T theta 1 (- (theta * INR n)) (2 * n + 1)%nat ltac:(lia)) as (_ & y' & Ey' & Ly' & By'). fold x in Ey'. rewrite Ey in Ey'. injection Ey' as <-.
  specialize (By n ltac:(lia)). specialize (By' n ltac:(lia)). rewrite L in By. replace (2 * n + 1 - 1 - n)%nat with n in By, By' by lia. fold z in By'. replace (theta * INR n + - (theta * INR n)) with 0 in By' by ring. rewrite cos_0, Rabs_R1, !Rmult_1_r, Rmult_1_l in By'. rewrite Rmult_1_r in By.
  specialize (H1 n ltac:(lia)). specialize (H2 n ltac:(lia)).
  assert (Q1 : K * (rho ^ n + rho ^ n) < e / 2). { assert (0 < rho ^ n) by (apply pow_lt; lra). apply Rle_lt_trans with (2 * ((K + 1) * rho ^ n)); [lra|]. apply Rlt_le_trans with (2 * ((K + 1) * (e / (8 * (K + 1))))); [apply Rmult_lt_compat_l; [lra|apply Rmult_lt_compat_l; lra]|]. replace (2 * ((K + 1) * (e / (8 * (K + 1))))) with (e / 4) by (field; lra). lra. }
  assert (Q2 : K2 * (rho2 ^ n + rho2 ^ n) < e / 2). { assert (0 < rho2 ^ n) by (apply pow_lt; lra). pose proof (Rle_abs K2). apply Rle_lt_trans with (2 * ((Rabs K2 + 1) * rho2 ^ n)); [nra|]. apply Rlt_le_trans with (2 * ((Rabs K2 + 1) * (e / (8 * (Rabs K2 + 1))))); [apply Rmult_lt_compat_l; [lra|apply Rmult_lt_compat_l; lra]|]. replace (2 * ((Rabs K2 + 1) * (e / (8 * (Rabs K2 + 1))))) with (e / 4) by (field; lra). lra. }
  set (s := symmetric_convolution r x n) in *. set (g := cnorm_sqr _) in *. pose proof (Rabs_triang (nth n y 0 - g) (- (nth n y 0 - s))) as TT. rewrite Rabs_Ropp in TT. replace (nth n y 0 - g + - (nth n y 0 - s)) with (s - g) in TT by ring. lra.
Qed.
Print Assumptions C124_zero_phase_kernel.

(** Filtering the reversed signal gives the reversed output, up to effects of the ends. *)
Lemma convolution_rev r x n : (n < length x)%nat -> symmetric_convolution r (rev x) (length x - 1 - n) = symmetric_convolution r x n.
Proof.
  intros Hn. unfold symmetric_convolution. rewrite rev_length, (rsum_rev (length x)). apply rsum_ext. intros i Hi. rewrite rev_nth by lia. f_equal; f_equal; [lia|unfold dist; lia].
Qed.
Theorem C124_reversal (l : list (Sos R)) : stable_sections l ->
  exists K rho, 0 < rho < 1 /\ forall x M, (3 * taps l < length x)%nat -> (forall v, In v x -> Rabs v <= M) ->
    exists y y', sosfiltfilt_dyn x l = Ok y /\ sosfiltfilt_dyn (rev x) l = Ok y' /\ length y = length x /\ length y' = length x /\
      forall n, (n < length x)%nat -> Rabs (nth n (rev y') 0 - nth n y 0) <= K * M * (rho ^ n + rho ^ (length x - 1 - n)).
Proof.
  intros Sl. destruct (C124_zero_phase_kernel l Sl) as (h & r & K & rho & Hr & _ & _ & _ & _ & B). exists (K + K), rho. split; [exact Hr|].
  intros x M HN Hx. destruct (B x M HN Hx) as (y & Ey & Ly & By). destruct (B (rev x) M ltac:(rewrite rev_length; exact HN) ltac:(intros v Hv; apply Hx, in_rev, Hv)) as (y' & Ey' & Ly' & By'). rewrite rev_length in Ly', By'.
  exists y, y'. repeat (split; [assumption|]). intros n Hn. rewrite rev_nth by lia. rewrite Ly'. specialize (By n Hn). specialize (By' (length x - 1 - n)%nat ltac:(lia)). rewrite (convolution_rev r x n Hn) in By'.
  replace (length x - 1 - (length x - 1 - n))%nat with n in By' by lia. replace (length x - S n)%nat with (length x - 1 - n)%nat by lia. set (s := symmetric_convolution r x n) in *.
  pose proof (Rabs_triang (nth (length x - 1 - n) y' 0 - s) (- (nth n y 0 - s))) as T. rewrite Rabs_Ropp in T. replace (nth (length x - 1 - n) y' 0 - s + - (nth n y 0 - s)) with (nth (length x - 1 - n) y' 0 - nth n y 0) in T by ring. lra.
Qed.
Print Assumptions C124_reversal.

(** The same in floats, with rounding errors that do not grow with the signal. *)
Theorem C124_kernel_in_floats (l : list (Sos R)) : stable_sections l ->
  exists h r K rho, 0 < rho < 1 /\ 1 <= K /\
    (forall l0 N, same_coefs l0 l -> Forall (fun s => zi0 s = 0 /\ zi1 s = 0) l0 -> impulse_response l0 N (map h (seq 0 (S N)))) /\
    (forall m, infinite_sum (fun k => h k * h (k + m)%nat) (r m)) /\
    forall prec emax szero lf (x : list spec_float) X, (1 < prec < emax)%Z ->
    same_coefs (map sos_val lf) l -> Forall (fun s => Forall (finite prec emax) (coefs s)) lf ->
    Forall (finite prec emax) x -> Forall (fun v => Rabs (fval v) <= X) x -> (3 * taps l < length x)%nat ->
    K * uround prec <= 1 -> K * (X + ftiny prec emax) <= fmax prec emax ->
    exists yf, @sosfiltfilt_dyn _ (SFNum prec emax szero) x lf = Ok yf /\ length yf = length x /\ Forall (finite prec emax) yf /\
      forall n, (n < length x)%nat ->
        Rabs (fval (nth n yf (S754_zero false)) - symmetric_convolution r (map fval x) n) <=
          K * X * (rho ^ n + rho ^ (length x - 1 - n)) + K * (uround prec * X + ftiny prec emax).
Proof.
  intros Sl. destruct (C124_zero_phase_kernel l Sl) as (h & r & K1 & rho & Hr & Hh & Hsum & _ & _ & B). destruct (C92_filtfilt_rounding l Sl) as (K2 & HK2 & Q). exists h, r, (Rmax K1 K2), rho.
  pose proof (Rmax_l K1 K2) as M1. pose proof (Rmax_r K1 K2) as M2. set (K := Rmax K1 K2) in *. split; [exact Hr|]. split; [lra|]. split; [exact Hh|]. split; [exact Hsum|].
  intros prec emax szero lf x X Hp Hc Fc Fx Bx HN Ku Ko.
  assert (Hu : 0 < uround prec) by (apply powerRZ_lt; lra). assert (Ht : 0 < ftiny prec emax) by (apply Rdiv_lt_0_compat; [apply powerRZ_lt; lra|lra]).
  assert (HX : 0 <= X). { destruct x as [|v x]; [cbn in HN; lia|]. inversion Bx as [|? ? Bv _]; subst. pose proof (Rabs_pos (fval v)). lra. }
  destruct (Q prec emax szero lf x X Hp Hc Fc Fx Bx HN) as (yf & y & E1 & E2 & L1 & L2 & F & D); [nra|nra|].
  exists yf. split; [exact E1|]. split; [exact L1|]. split; [exact F|]. intros n Hn. specialize (D n Hn).
  destruct (B (map fval x) X) as (y2 & E3 & L3 & B3). { rewrite map_length. exact HN. } { intros v Hv. apply in_map_iff in Hv. destruct Hv as (u & <- & Hu'). rewrite Forall_forall in Bx. exact (Bx u Hu'). }
  rewrite E2 in E3. injection E3 as <-. rewrite map_length in B3. specialize (B3 n Hn). set (s := symmetric_convolution r (map fval x) n) in *. set (a := fval (nth n yf (S754_zero false))) in *. set (b := nth n y 0) in *.
  pose proof (Rabs_triang (a - b) (b - s)) as T. replace (a - b + (b - s)) with (a - s) in T by ring.
  assert (P1 : 0 < rho ^ n) by (apply pow_lt; lra). assert (P2 : 0 < rho ^ (length x - 1 - n)) by (apply pow_lt; lra).
  assert (W1 : K1 * (X * (rho ^ n + rho ^ (length x - 1 - n))) <= K * (X * (rho ^ n + rho ^ (length x - 1 - n)))) by (apply Rmult_le_compat_r; [apply Rmult_le_pos; lra|exact M1]).
  assert (W2 : K2 * (uround prec * X + ftiny prec emax) <= K * (uround prec * X + ftiny prec emax)) by (apply Rmult_le_compat_r; [|exact M2]; assert (0 <= uround prec * X) by (apply Rmult_le_pos; lra); lra).
  lra.
Qed.
Print Assumptions C124_kernel_in_floats.

(** The smoother (x_n + y_{n-1})/2 and a signal longer than its padding. *)
Example C124_ex : let l := [mkSos (1 / 2) 0 0 1 (- (1 / 2)) 0 0 0] in stable_sections l /\
  exists x, (3 * taps l < length x)%nat /\ exists v, In v x /\ v <> 0.
Proof.
  cbv zeta. split; [apply C121_smoother_ex|]. exists (repeat 1 100). split; [apply Nat.ltb_lt; rewrite repeat_length|exists 1; split; [left; reflexivity|lra]].
  unfold taps. cbn. unfold Reqb. repeat destruct (Req_EM_T _ _); reflexivity.
Qed.
