(** The peak gain is the sum of the magnitudes of the impulse response; a bounded sum leaves no
    uncancelled pole outside the open unit disc. *)
From Coq Require Import List Arith ZArith Reals Lra Lia.
From Verif Require Import Base Num Trans M_Complex M_Filter M_Design Cx RSum S_Filter S_Design S_Stable S_Fourier S_Energy S_Peak P_Sosfilt P_Transfer P_Proto P_Fourier T_Convolve P_Stable T_Stable P_ZeroPhase P_FloatResponse P_Unique P_Energy.
Import ListNotations.
Local Open Scope R_scope.

Lemma abs_sum_rsum x : abs_sum x = rsum (length x) (fun n => Rabs (nth n x 0)).
Proof. induction x as [|v x IH]; [reflexivity|]. cbn [length]. rewrite rsum_first. cbn [abs_sum fold_right nth]. fold (abs_sum x). rewrite IH. reflexivity. Qed.
Lemma ir_sum l N : abs_sum (fst (filt (1 :: repeat 0 N) l)) = rsum (S N) (fun k => Rabs (ir l k)).
Proof.
  rewrite abs_sum_rsum, filt_length_out. cbn [length]. rewrite repeat_length. apply rsum_ext. intros k Hk. f_equal.
  rewrite <- (ir_nth l (S N) k Hk). unfold impulse. replace (S N - 1)%nat with N by lia. reflexivity.
Qed.

Lemma pure_peak l G : peak_bound l G <-> forall x M, (forall v, In v x -> Rabs v <= M) -> forall n, (n < length x)%nat -> Rabs (nth n (fst (filt x l)) 0) <= G * M.
Proof.
  split; intros Q x M B.
  - destruct (Q x M B) as (y & l' & E & L & P). rewrite sosfilt_dyn_pure in E. destruct (filt x l) as [y2 l2]. injection E as <- <-. intros n Hn. apply P. apply nth_In. cbn. lia.
  - exists (fst (filt x l)), (snd (filt x l)). rewrite sosfilt_dyn_pure. split; [f_equal; apply surjective_pairing|]. split; [apply filt_length_out|].
    intros v Hv. destruct (In_nth _ _ 0 Hv) as (n & Hn & <-). rewrite filt_length_out in Hn. exact (Q x M B n Hn).
Qed.
Definition sgn (v : R) : R := if Rle_dec 0 v then 1 else -1.
Lemma sgn_abs v : sgn v * v = Rabs v.
Proof. unfold sgn. destruct (Rle_dec 0 v) as [H|H]; [rewrite Rabs_pos_eq by exact H; ring|rewrite Rabs_left by lra; ring]. Qed.
Lemma sgn_one v : Rabs (sgn v) = 1.
Proof. unfold sgn. destruct (Rle_dec 0 v) as [H|H]; [apply Rabs_R1|rewrite Rabs_left; lra]. Qed.

Lemma rsum_abs n f : Rabs (rsum n f) <= rsum n (fun i => Rabs (f i)).
Proof. induction n as [|n IH]; cbn [rsum]; [rewrite Rabs_R0; lra|]. pose proof (Rabs_triang (rsum n f) (f n)). lra. Qed.
Lemma rsum_flip n f : rsum (S n) (fun j => f (n - j)%nat) = rsum (S n) f.
Proof. symmetry. rewrite rsum_rev. apply rsum_ext. intros i Hi. f_equal. lia. Qed.

Lemma peak_iff l G : Forall zero_state l -> (peak_bound l G <-> forall N, rsum (S N) (fun k => Rabs (ir l k)) <= G).
Proof.
  intros Z. rewrite pure_peak. split; intros Q.
  - intros N. set (x := map (fun j => sgn (ir l (N - j))) (seq 0 (S N))).
    assert (L : length x = S N) by (unfold x; rewrite map_length, seq_length; reflexivity).
    specialize (Q x 1). assert (B : forall v, In v x -> Rabs v <= 1). { intros v Hv. unfold x in Hv. apply in_map_iff in Hv. destruct Hv as (j & <- & _). rewrite sgn_one. lra. }
    specialize (Q B N ltac:(lia)). rewrite filt_ir in Q by (try exact Z; lia).
    rewrite (rsum_ext _ _ (fun j => Rabs (ir l (N - j)))) in Q.
    2:{ intros j Hj. rewrite <- sgn_abs. f_equal. unfold x. rewrite (nth_indep _ 0 (sgn (ir l (N - 0)))) by (rewrite map_length, seq_length; lia). rewrite (map_nth (fun j => sgn (ir l (N - j)))), seq_nth by exact Hj. reflexivity. }
    rewrite (rsum_flip N (fun k => Rabs (ir l k))) in Q. rewrite Rabs_pos_eq in Q by (apply rsum_nonneg; intros; apply Rabs_pos). lra.
  - intros x M B n Hn. rewrite filt_ir by (try exact Z; exact Hn). apply Rle_trans with (rsum (S n) (fun j => M * Rabs (ir l (n - j)))).
    + eapply Rle_trans; [apply rsum_abs|]. apply rsum_le. intros j Hj. rewrite Rabs_mult. apply Rmult_le_compat_r; [apply Rabs_pos|]. apply B. apply nth_In. lia.
    + rewrite rsum_scale, (rsum_flip n (fun k => Rabs (ir l k))), Rmult_comm. apply Rmult_le_compat_r; [|apply Q].
      eapply Rle_trans; [apply Rabs_pos|]. apply (B (nth n x 0)). apply nth_In. exact Hn.
Qed.

(** ** Sums that stay bounded *)
Definition tends (f : nat -> R) : Prop := forall e, 0 < e -> exists n0, forall n, (n0 <= n)%nat -> Rabs (f n) <= e.
Lemma summable_tends f G : (forall N, rsum (S N) (fun k => Rabs (f k)) <= G) -> tends f.
Proof.
  intros Q. set (Un := fun N => rsum N (fun k => Rabs (f k))).
  assert (Gr : Un_growing Un) by (intros n; unfold Un; cbn [rsum]; pose proof (Rabs_pos (f n)); lra).
  assert (Bd : bound (EUn Un)). { exists G. intros y (n & ->). unfold Un. eapply Rle_trans; [|apply (Q n)]. cbn [rsum]. pose proof (Rabs_pos (f n)). lra. }
  destruct (growing_cv Un Gr Bd) as [L HL]. intros e He. destruct (HL (e / 2) ltac:(lra)) as [n0 H0]. exists n0. intros n Hn.
  pose proof (H0 n Hn) as A. pose proof (H0 (S n) ltac:(lia)) as B. unfold R_dist, Un in A, B. cbn [rsum] in B. apply Rabs_def2 in A. apply Rabs_def2 in B. lra.
Qed.
Lemma tends_op p f : tends f -> tends (op p f).
Proof.
  intros Hf. induction p as [|a p IH]; intros e He.
  - exists 0%nat. intros n _. cbn [op]. rewrite Rabs_R0. lra.
  - pose proof (Rabs_pos a) as Pa. destruct (Hf (e / (2 * (Rabs a + 1)))) as [n1 H1]. { apply Rdiv_lt_0_compat; lra. } destruct (IH (e / 2) ltac:(lra)) as [n2 H2].
    exists (S (n1 + n2)). intros n Hn. destruct n as [|n]; [lia|]. cbn [op D]. eapply Rle_trans; [apply Rabs_triang|]. rewrite Rabs_mult.
    specialize (H1 (S n) ltac:(lia)). specialize (H2 n ltac:(lia)). assert (Rabs a * Rabs (f (S n)) <= e / 2); [|lra].
    apply Rle_trans with ((Rabs a + 1) * (e / (2 * (Rabs a + 1)))); [|right; field; lra]. apply Rmult_le_compat; try apply Rabs_pos; lra.
Qed.
Definition psum (w : C) (f : nat -> R) (N : nat) : C := csum N (fun k => RtoC (f k) * cpow w k)%C.
Definition tendsC (f : nat -> C) : Prop := forall e, 0 < e -> exists n0, forall n, (n0 <= n)%nat -> cnorm (f n) <= e.

Lemma cnorm_minus (a b : C) : cnorm (a - b)%C <= cnorm a + cnorm b.
Proof. pose proof (cnorm_le_diff (a - b)%C a) as Q. replace (a - b - a)%C with (RtoC (-1) * b)%C in Q by (apply C_ext; cbn; ring). rewrite cnorm_mul, cnorm_RtoC in Q. rewrite Rabs_left in Q by lra. lra. Qed.
Lemma psum_op w p f : cnorm w <= 1 -> tends f -> tendsC (fun N => psum w (op p f) N - cev p w * psum w f N)%C.
Proof.
  intros Hw Hf. induction p as [|a p IH]; intros e He.
  - exists 0%nat. intros n _. cbn [op cev]. replace (psum w (fun _ => 0) n) with C0. 2:{ unfold psum. symmetry. apply csum_zero. intros. change (RtoC 0) with C0. ring. }
    replace (C0 - C0 * psum w f n)%C with C0 by ring. rewrite cnorm_C0. lra.
  - destruct (IH (e / 2) ltac:(lra)) as [n1 H1]. destruct (tends_op p f Hf (e / 2) ltac:(lra)) as [n2 H2]. exists (S (n1 + n2)). intros n Hn. destruct n as [|n]; [lia|].
    assert (S1 : psum w (op (a :: p) f) (S n) = (RtoC a * psum w f (S n) + w * psum w (op p f) n)%C).
    { unfold psum. rewrite <- !csum_scale, !(csum_first n). cbn [op D cpow]. rewrite Rplus_0_r, RtoC_mul.
      rewrite (csum_ext n (fun i => RtoC (a * f (S i) + op p f i)%R * (w * cpow w i))%C (fun i => RtoC a * (RtoC (f (S i)) * (w * cpow w i)) + w * (RtoC (op p f i) * cpow w i))%C).
      - rewrite csum_plus. ring.
      - intros i _. rewrite RtoC_add, RtoC_mul. ring. }
    assert (S2 : psum w (op p f) (S n) = (psum w (op p f) n + RtoC (op p f n) * cpow w n)%C) by reflexivity.
    replace (psum w (op (a :: p) f) (S n) - cev (a :: p) w * psum w f (S n))%C with (w * (psum w (op p f) (S n) - cev p w * psum w f (S n)) - w * (RtoC (op p f n) * cpow w n))%C.
    2:{ rewrite S1, S2. cbn [cev]. ring. }
    specialize (H1 (S n) ltac:(lia)). specialize (H2 n ltac:(lia)).
    assert (W : cnorm (cpow w n) <= 1). { rewrite cnorm_pow. pose proof (cnorm_pos w). replace 1 with (1 ^ n) by apply pow1. apply pow_incr. lra. }
    eapply Rle_trans; [apply cnorm_minus|]. rewrite !cnorm_mul. rewrite cnorm_RtoC. pose proof (cnorm_pos w). pose proof (cnorm_pos (cpow w n)). pose proof (Rabs_pos (op p f n)). pose proof (cnorm_pos (psum w (op p f) (S n) - cev p w * psum w f (S n))%C) as P3.
    set (t := cnorm (psum w (op p f) (S n) - cev p w * psum w f (S n))%C) in *. set (o := Rabs (op p f n)) in *. set (q := cnorm (cpow w n)) in *. set (cw := cnorm w) in *. clearbody t o q cw.
    assert (T1 : cw * t <= 1 * t) by (apply Rmult_le_compat_r; assumption). assert (T2 : o * q <= o * 1) by (apply Rmult_le_compat_l; assumption). assert (T4 : 0 <= o * q) by (apply Rmult_le_pos; assumption). assert (T3 : cw * (o * q) <= 1 * (o * q)) by (apply Rmult_le_compat_r; assumption). lra.
Qed.

Lemma ir_equation l i : Forall zero_state l -> Forall (fun s => a0 s = 1) l -> op (cascade_den l) (ir l) i = nth i (cascade_num l) 0.
Proof.
  intros Z A. pose proof (cascade_transfer l (impulse (S i)) Z A i) as Q. unfold impulse in Q at 1. cbn [length] in Q. rewrite repeat_length in Q. specialize (Q ltac:(lia)).
  rewrite (op_local _ _ (ir l)) in Q. 2:{ intros j Hj. unfold sig. apply ir_nth. lia. }
  rewrite (op_local (cascade_num l) _ delta) in Q. 2:{ intros j Hj. unfold sig, impulse. destruct j as [|j]; [reflexivity|]. cbn [nth delta]. apply nth_repeat. }
  rewrite op_delta in Q. exact Q.
Qed.
Lemma psum_poly w p N : (length p <= N)%nat -> psum w (fun i => nth i p 0) N = cev p w.
Proof.
  revert N. induction p as [|a p IH]; intros N HN.
  - unfold psum. apply csum_zero. intros i _. destruct i; cbn [nth]; change (RtoC 0) with C0; ring.
  - destruct N as [|N]; [cbn in HN; lia|]. unfold psum. rewrite csum_first. cbn [nth cpow cev]. rewrite <- (IH N) by (cbn in HN; lia). unfold psum. rewrite <- csum_scale.
    f_equal; [ring|]. apply csum_ext. intros i _. ring.
Qed.
Lemma uncancelled l G z : Forall zero_state l -> Forall (fun s => a0 s = 1) l -> (forall N, rsum (S N) (fun k => Rabs (ir l k)) <= G) ->
  1 <= cnorm z -> sos_den l z = C0 -> sos_num l z = C0.
Proof.
  intros Z A Q Hz Hd. assert (N0 : z <> C0) by (intros ->; rewrite cnorm_C0 in Hz; lra).
  rewrite cnum_at by exact N0. rewrite cden_at in Hd by exact N0. set (w := (C1 / z)%C) in *.
  assert (Hw : cnorm w <= 1). { pose proof (cnorm_div C1 z N0) as Q1. fold w in Q1. rewrite cnorm_C1 in Q1. pose proof (cnorm_pos w) as P0. pose proof (Rmult_le_compat_l _ _ _ P0 Hz). lra. }
  assert (D0 : cev (cascade_den l) w = C0). { destruct (Cmul_eq0 _ _ Hd) as [E|E]; [exfalso; exact (cpow_neq0 z _ N0 E)|exact E]. }
  assert (E0 : cnorm (cev (cascade_num l) w) <= 0).
  { apply Rnot_lt_le. intros Hp. assert (He : 0 < cnorm (cev (cascade_num l) w) / 2) by lra. destruct (psum_op w (cascade_den l) (ir l) Hw (summable_tends _ G Q) _ He) as [n0 H0].
    specialize (H0 (n0 + length (cascade_num l))%nat ltac:(lia)). rewrite D0 in H0.
    replace (psum w (op (cascade_den l) (ir l)) (n0 + length (cascade_num l))) with (cev (cascade_num l) w) in H0.
    2:{ rewrite <- (psum_poly w (cascade_num l) (n0 + length (cascade_num l))) by lia. unfold psum. apply csum_ext. intros i _. rewrite ir_equation by assumption. reflexivity. }
    match type of H0 with cnorm ?e <= _ => replace e with (cev (cascade_num l) w) in H0 by ring end. lra. }
  replace (cev (cascade_num l) w) with C0; [ring|]. symmetry. apply cnorm_sqr_zero. rewrite <- cnorm_sq. pose proof (cnorm_pos (cev (cascade_num l) w)). replace (cnorm (cev (cascade_num l) w)) with 0 by lra. ring.
Qed.

(** ** Stable sections: the sums converge *)
Lemma ir_decay l : stable_sections l -> Forall zero_state l -> exists K rho, 0 <= K /\ 0 < rho < 1 /\ forall n, Rabs (ir l n) <= K * rho ^ n.
Proof.
  intros Sl Z. destruct (partial_sums l Sl Z) as (K & rho & HK & Hr & P). exists (K * (1 + / rho) + Rabs (ir l 0)), rho.
  assert (Ir : 0 < / rho) by (apply Rinv_0_lt_compat; lra). pose proof (Rabs_pos (ir l 0)) as P0. split; [nra|]. split; [exact Hr|]. intros n.
  destruct n as [|n]; [cbn [pow]; nra|]. pose proof (P 0 (S n)) as A. pose proof (P 0 n) as B.
  assert (Q : (Fs l 0 (S n) - Hs l 0 - (Fs l 0 n - Hs l 0))%C = RtoC (ir l (S n))).
  { unfold Fs. cbn [csum]. replace (E (- (0 * INR (S n)))) with C1 by (unfold E; rewrite Rmult_0_l, Ropp_0, cos_0, sin_0; reflexivity). ring. }
  pose proof (cnorm_minus (Fs l 0 (S n) - Hs l 0)%C (Fs l 0 n - Hs l 0)%C) as T. rewrite Q, cnorm_RtoC in T.
  assert (Hp : 0 < rho ^ n) by (apply pow_lt; lra). assert (E1 : / rho * rho ^ S n = rho ^ n) by (cbn [pow]; field; lra).
  assert (0 <= Rabs (ir l 0) * rho ^ S n) by (apply Rmult_le_pos; [exact P0|apply pow_le; lra]).
  replace ((K * (1 + / rho) + Rabs (ir l 0)) * rho ^ S n) with (K * rho ^ S n + K * (/ rho * rho ^ S n) + Rabs (ir l 0) * rho ^ S n) by ring. rewrite E1. lra.
Qed.
Lemma geom_tail K rho f : 0 <= K -> 0 < rho < 1 -> (forall n, Rabs (f n) <= K * rho ^ n) ->
  forall m n, rsum m (fun k => Rabs (f (n + k)%nat)) <= K / (1 - rho) * rho ^ n.
Proof.
  intros HK Hr Hf m n. assert (Q : rsum m (fun k => Rabs (f (n + k)%nat)) <= K / (1 - rho) * rho ^ n * (1 - rho ^ m)).
  { induction m as [|m IH]; cbn [rsum]; [cbn [pow]; lra|]. specialize (Hf (n + m)%nat). rewrite pow_add in Hf.
    replace (K / (1 - rho) * rho ^ n * (1 - rho ^ S m)) with (K / (1 - rho) * rho ^ n * (1 - rho ^ m) + K * (rho ^ n * rho ^ m)) by (cbn [pow]; field; lra). lra. }
  assert (0 <= K / (1 - rho) * rho ^ n). { apply Rmult_le_pos; [apply Rmult_le_pos; [exact HK|left; apply Rinv_0_lt_compat; lra]|apply pow_le; lra]. }
  assert (0 <= rho ^ m) by (apply pow_le; lra). nra.
Qed.
Lemma peak_exists l : stable_sections l -> Forall zero_state l -> exists g K rho, 0 <= K /\ 0 < rho < 1 /\ peak_gain l g /\
  forall N, g - K * rho ^ N <= rsum (S N) (fun k => Rabs (ir l k)) <= g.
Proof.
  intros Sl Z. destruct (ir_decay l Sl Z) as (K & rho & HK & Hr & P). set (Un := fun N => rsum N (fun k => Rabs (ir l k))).
  assert (Hm : forall N m, Un N <= Un (N + m)%nat /\ Un (N + m)%nat <= Un N + K / (1 - rho) * rho ^ N).
  { intros N m. unfold Un. rewrite rsum_add. pose proof (geom_tail K rho (ir l) HK Hr P m N). assert (0 <= rsum m (fun i => Rabs (ir l (N + i)))) by (apply rsum_nonneg; intros; apply Rabs_pos). lra. }
  destruct (completeness (EUn Un)) as [g [U L]].
  - exists (K / (1 - rho)). intros y (n & ->). destruct (Hm 0%nat n) as [_ Q]. cbn [Nat.add] in Q. unfold Un at 2 in Q. cbn [rsum pow] in Q. lra.
  - exists (Un 0%nat), 0%nat. reflexivity.
  - assert (Ub : forall N, Un N <= g) by (intros N; apply U; exists N; reflexivity).
    assert (Lb : forall N, g <= Un N + K / (1 - rho) * rho ^ N).
    { intros N. apply L. intros y (n & ->). destruct (le_ge_dec N n) as [H|H].
      - replace n with (N + (n - N))%nat by lia. apply Hm.
      - destruct (Hm n (N - n)%nat) as [A _]. replace (n + (N - n))%nat with N in A by lia. destruct (Hm N 0%nat) as [A1 A2]. rewrite Nat.add_0_r in *. lra. }
    exists g, (K / (1 - rho)), rho. split; [apply Rmult_le_pos; [exact HK|left; apply Rinv_0_lt_compat; lra]|]. split; [exact Hr|]. split.
    + intros G. rewrite (peak_iff l G Z). split; intros Q.
      * apply L. intros y (n & ->). destruct n as [|n]; [|apply Q]. pose proof (Q 0%nat) as Q0. unfold Un. cbn [rsum] in *. pose proof (Rabs_pos (ir l 0)). lra.
      * intros N. pose proof (Ub (S N)) as Q1. unfold Un in Q1. lra.
    + intros N. pose proof (Ub (S N)) as Q1. pose proof (Lb (S N)) as Q2. unfold Un in Q1, Q2. split; [|exact Q1].
      assert (K / (1 - rho) * rho ^ S N <= K / (1 - rho) * rho ^ N); [|lra]. apply Rmult_le_compat_l; [apply Rmult_le_pos; [exact HK|left; apply Rinv_0_lt_compat; lra]|].
      cbn [pow]. assert (0 <= rho ^ N) by (apply pow_le; lra). nra.
Qed.
Lemma gain_below l G theta : stable_sections l -> Forall zero_state l -> (forall N, rsum (S N) (fun k => Rabs (ir l k)) <= G) -> cnorm (Hs l theta) <= G.
Proof.
  intros Sl Z Q. destruct (partial_sums l Sl Z) as (K & rho & HK & Hr & P). apply Rnot_lt_le. intros Hc.
  destruct (small_pow rho ((cnorm (Hs l theta) - G) / (K + 1)) Hr) as [n0 H0]. { apply Rdiv_lt_0_compat; lra. }
  specialize (H0 n0 (le_n n0)). specialize (P theta n0). specialize (Q n0).
  assert (F : cnorm (Fs l theta n0) <= G). { unfold Fs. eapply Rle_trans; [apply csum_norm|]. eapply Rle_trans; [|exact Q]. apply rsum_le. intros i _. rewrite cnorm_mul, cnorm_E, cnorm_RtoC. lra. }
  pose proof (cnorm_ge_diff (Fs l theta n0) (Hs l theta)) as T.
  assert (Rn : 0 < rho ^ n0) by (apply pow_lt; lra). assert ((K + 1) * rho ^ n0 < cnorm (Hs l theta) - G).
  { apply Rlt_le_trans with ((K + 1) * ((cnorm (Hs l theta) - G) / (K + 1))); [apply Rmult_lt_compat_l; lra|right; field; lra]. }
  nra.
Qed.
