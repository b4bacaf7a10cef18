(** Rounding error of the running filter. *)
From Coq Require Import Reals ZArith SpecFloat List Lia Lra Psatz Bool.
From Flocq Require Import Core BinarySingleNaN.
From Verif Require Import Base Num M_Complex M_Linalg M_Filter S_Filter ListUtil Cx S_Design S_Stable P_Sosfilt P_Stable S_Float P_Float P_FloatStats.
Import ListNotations.
Local Open Scope R_scope.

(** ** A stable section under bounded disturbances, up to a horizon [N] *)
Lemma geo_local (p : C) (v e : nat -> C) K N : cnorm p < 1 -> 0 <= K ->
  (forall k, (k < N)%nat -> cnorm (e k) <= K) -> (forall k, (k < N)%nat -> v (S k) = (p * v k + e k)%C) ->
  forall n, (n <= N)%nat -> cnorm (v n) <= cnorm (v 0%nat) + K / (1 - cnorm p).
Proof.
  intros Hp HK He Hv. pose proof (cnorm_pos p) as P0. pose proof (cnorm_pos (v 0%nat)) as V0.
  assert (D : 0 <= K / (1 - cnorm p)) by (apply Rmult_le_pos; [lra|left; apply Rinv_0_lt_compat; lra]).
  set (B := cnorm (v 0%nat) + K / (1 - cnorm p)).
  assert (HB : cnorm p * B + K <= B).
  { assert (E' : K = (1 - cnorm p) * (K / (1 - cnorm p))) by (field; lra). unfold B. nra. }
  induction n as [|n IH]; intros Hn; [unfold B; lra|].
  rewrite Hv by lia. eapply Rle_trans; [apply cnorm_add|]. rewrite cnorm_mul. specialize (He n ltac:(lia)). specialize (IH ltac:(lia)). nra.
Qed.

(** Poles of modulus at most [r]. *)
Definition poles_within (r : R) (s : Sos R) : Prop :=
  exists p q : C, (p + q = RtoC (- a1 s)%R)%C /\ (p * q = RtoC (a2 s))%C /\ cnorm p <= r /\ cnorm q <= r.
Definition gain (r : R) : R := 4 * (/ (1 - r)) ^ 2.
Lemma h_ge r : 0 <= r < 1 -> 1 <= / (1 - r).
Proof. intros H. rewrite <- Rinv_1 at 1. apply Rinv_le_contravar; lra. Qed.
Lemma gain_ge r : 0 <= r < 1 -> 4 <= gain r.
Proof. intros H. pose proof (h_ge r H). unfold gain. nra. Qed.

Lemma disturbed r s (e0 e1 g0 g1 : nat -> R) D Z N : 0 <= r < 1 -> poles_within r s -> 0 <= D -> 
  Rabs (e0 0%nat) + Rabs (e1 0%nat) <= Z ->
  (forall k, (k < N)%nat -> Rabs (g0 k) <= D /\ Rabs (g1 k) <= D) ->
  (forall k, (k < N)%nat -> e0 (S k) = - a1 s * e0 k + e1 k + g0 k /\ e1 (S k) = - a2 s * e0 k + g1 k) ->
  forall n, (n <= N)%nat -> Rabs (e0 n) <= gain r * (D + Z) /\ Rabs (e1 n) <= gain r * (D + Z).
Proof.
  intros Hr [p [q [Hs [Hq [Pp Pq]]]]] HD HZ Hg Hrec. pose proof (h_ge r Hr) as H1. set (h := / (1 - r)) in *.
  pose proof (cnorm_pos p) as P0. pose proof (cnorm_pos q) as Q0.
  pose proof (Rabs_pos (e0 0%nat)) as A0. pose proof (Rabs_pos (e1 0%nat)) as A1.
  assert (Ea1 : RtoC (a1 s) = (- (p + q))%C) by (rewrite Hs; cx).
  set (w := fun n => (p * RtoC (e0 n) + RtoC (e1 n))%C).
  assert (Ew : forall k, (k < N)%nat -> w (S k) = (p * w k + (p * RtoC (g0 k) + RtoC (g1 k)))%C).
  { intros k Hk. destruct (Hrec k Hk) as [R0 R1]. unfold w. rewrite R0, R1.
    replace (- a1 s * e0 k + e1 k + g0 k) with (e1 k + g0 k - a1 s * e0 k) by ring.
    replace (- a2 s * e0 k + g1 k) with (g1 k - a2 s * e0 k) by ring.
    rewrite !RtoC_sub, !RtoC_add, !RtoC_mul, Ea1, <- Hq. ring. }
  assert (Eu : forall k, (k < N)%nat -> RtoC (e0 (S k)) = (q * RtoC (e0 k) + (w k + RtoC (g0 k)))%C).
  { intros k Hk. destruct (Hrec k Hk) as [R0 _]. unfold w. rewrite R0.
    replace (- a1 s * e0 k + e1 k + g0 k) with (e1 k + g0 k - a1 s * e0 k) by ring.
    rewrite RtoC_sub, RtoC_add, RtoC_mul, Ea1. ring. }
  assert (Hdiv : forall x K, 0 <= K -> 0 <= x <= r -> K / (1 - x) <= K * h).
  { intros x K HK Hx. unfold Rdiv, h. apply Rmult_le_compat_l; [exact HK|]. apply Rinv_le_contravar; lra. }
  assert (W0 : cnorm (w 0%nat) <= Z).
  { unfold w. eapply Rle_trans; [apply cnorm_add|]. rewrite cnorm_mul, !cnorm_RtoC. nra. }
  assert (Bw : forall n, (n <= N)%nat -> cnorm (w n) <= Z + 2 * D * h).
  { intros n Hn. eapply Rle_trans; [apply (geo_local p w (fun k => p * RtoC (g0 k) + RtoC (g1 k))%C (2 * D) N); [lra|lra| |exact Ew|exact Hn]|].
    - intros k Hk. destruct (Hg k Hk) as [G0 G1]. eapply Rle_trans; [apply cnorm_add|]. rewrite cnorm_mul, !cnorm_RtoC.
      pose proof (Rabs_pos (g0 k)). nra.
    - pose proof (Hdiv (cnorm p) (2 * D) ltac:(lra) ltac:(lra)). lra. }
  assert (Be : forall n, (n <= N)%nat -> Rabs (e0 n) <= 3 * h ^ 2 * (D + Z)).
  { intros n Hn. rewrite <- cnorm_RtoC.
    assert (K0 : 0 <= Z + 2 * D * h + D) by nra.
    eapply Rle_trans; [apply (geo_local q (fun k => RtoC (e0 k)) (fun k => w k + RtoC (g0 k))%C (Z + 2 * D * h + D) N); [lra|exact K0| |exact Eu|exact Hn]|].
    - intros k Hk. eapply Rle_trans; [apply cnorm_add|]. rewrite cnorm_RtoC. specialize (Bw k ltac:(lia)). destruct (Hg k Hk). lra.
    - rewrite cnorm_RtoC. pose proof (Hdiv (cnorm q) _ K0 (conj Q0 Pq)) as Q.
      assert (Z0 : 0 <= Z) by lra.
      assert (E : Z + (Z + 2 * D * h + D) * h <= 3 * h ^ 2 * (D + Z)); [|lra].
      replace (3 * h ^ 2 * (D + Z)) with (Z * (3 * h ^ 2) + D * (3 * h ^ 2)) by ring.
      replace (Z + (Z + 2 * D * h + D) * h) with (Z * (1 + h) + D * (2 * h ^ 2 + h)) by ring.
      apply Rplus_le_compat; apply Rmult_le_compat_l; nra. }
  assert (G3 : 3 * h ^ 2 * (D + Z) <= gain r * (D + Z)) by (unfold gain; fold h; apply Rmult_le_compat_r; [lra|nra]).
  intros n Hn. split; [eapply Rle_trans; [apply Be; exact Hn|exact G3]|].
  destruct n as [|n].
  - apply Rle_trans with (1 * (D + Z)); [lra|]. apply Rmult_le_compat_r; [lra|]. pose proof (gain_ge r Hr). lra.
  - destruct (Hrec n ltac:(lia)) as [_ R1]. rewrite R1. eapply Rle_trans; [apply Rabs_triang|]. rewrite Rabs_mult, Rabs_Ropp.
    assert (A2 : Rabs (a2 s) <= 1) by (rewrite <- cnorm_RtoC, <- Hq, cnorm_mul; nra).
    specialize (Be n ltac:(lia)). destruct (Hg n ltac:(lia)) as [_ G1]. pose proof (Rabs_pos (e0 n)). pose proof (Rabs_pos (a2 s)).
    apply Rle_trans with (3 * h ^ 2 * (D + Z) + D); [nra|]. unfold gain. fold h.
    replace (4 * h ^ 2 * (D + Z)) with (3 * h ^ 2 * (D + Z) + h ^ 2 * (D + Z)) by ring.
    assert (D <= h ^ 2 * (D + Z)); [|lra]. apply Rle_trans with (1 * (D + Z)); [lra|]. apply Rmult_le_compat_r; [lra|nra].
Qed.

(** ** Sections as signal maps, over any number type *)
Section Gen.
Context {F : Type} {NF : Num F}.
Local Open Scope num_scope.
Fixpoint gst (s : Sos F) (z : F * F) (x : nat -> F) (n : nat) : F * F :=
  match n with
  | O => z
  | S k => let w := gst s z x k in
           let y := b0 s * x k + fst w in
           (b1 s * x k - a1 s * y + snd w, b2 s * x k - a2 s * y)
  end.
Definition gout (s : Sos F) (z : F * F) (x : nat -> F) (n : nat) : F := b0 s * x n + fst (gst s z x n).
Fixpoint gcout (l : list (Sos F)) (x : nat -> F) : nat -> F :=
  match l with [] => x | s :: l' => gcout l' (gout s (zi0 s, zi1 s) x) end.
Lemma gst_shift s z x n : gst s z x (S n) =
  gst s (b1 s * x 0%nat - a1 s * (b0 s * x 0%nat + fst z) + snd z, b2 s * x 0%nat - a2 s * (b0 s * x 0%nat + fst z)) (fun k => x (S k)) n.
Proof. induction n as [|n IH]; [reflexivity|]. cbn [gst] in IH |- *. rewrite IH. reflexivity. Qed.
Lemma gst_coefs s t z x n : coefs s = coefs t -> gst s z x n = gst t z x n.
Proof.
  intros Q. unfold coefs in Q. injection Q as Q1 Q2 Q3 Q4 Q5 Q6. induction n as [|n IH]; cbn [gst]; [reflexivity|]. rewrite IH, Q1, Q2, Q3, Q5, Q6. reflexivity.
Qed.
Lemma gst_local s z x x' n : (forall k, (k < n)%nat -> x k = x' k) -> gst s z x n = gst s z x' n.
Proof.
  induction n as [|n IH]; intros Hx; [reflexivity|]. cbn [gst]. rewrite IH by (intros; apply Hx; lia). rewrite (Hx n) by lia. reflexivity.
Qed.
Lemma gout_local s z x x' n : (forall k, (k <= n)%nat -> x k = x' k) -> gout s z x n = gout s z x' n.
Proof. intros Hx. unfold gout. rewrite (Hx n) by lia. rewrite (gst_local s z x x') by (intros; apply Hx; lia). reflexivity. Qed.
Lemma gcout_local l x x' n : (forall k, (k <= n)%nat -> x k = x' k) -> gcout l x n = gcout l x' n.
Proof.
  revert x x'. induction l as [|s l IH]; intros x x' Hx; cbn [gcout]; [apply Hx; lia|].
  apply IH. intros k Hk. apply gout_local. intros j Hj. apply Hx. lia.
Qed.
Lemma gfilt_single d s y n : (n < length y)%nat -> nth n (fst (filt y [s])) d = gout s (zi0 s, zi1 s) (fun k => nth k y d) n.
Proof.
  revert s n. induction y as [|x y IH]; intros s n Hn; [cbn in Hn; lia|].
  cbn [filt sosfilt_item biquad_fold]. cbn zeta. set (s' := set_state s _ _).
  destruct (filt y [s']) as [os s''] eqn:Ef. destruct n as [|n].
  - cbn [fst nth]. unfold gout. cbn. reflexivity.
  - cbn [fst nth]. specialize (IH s' n ltac:(cbn in Hn; lia)). rewrite Ef in IH. cbn [fst] in IH. rewrite IH.
    unfold gout. rewrite gst_shift. cbn [nth fst snd]. rewrite (gst_coefs s' s) by reflexivity. reflexivity.
Qed.
Lemma gfilt_cout d l y n : (n < length y)%nat -> nth n (fst (filt y l)) d = gcout l (fun k => nth k y d) n.
Proof.
  revert y. induction l as [|s l IH]; intros y Hn.
  - cbn [gcout]. replace (fst (filt y [])) with y; [reflexivity|]. clear. induction y as [|x y IH]; [reflexivity|]. cbn. destruct (filt y []). cbn in *. congruence.
  - change (s :: l) with ([s] ++ l). rewrite filt_cascade. cbn [fst app]. rewrite IH by (rewrite filt_length_out; exact Hn).
    cbn [gcout]. apply gcout_local. intros k Hk. apply gfilt_single. lia.
Qed.
End Gen.

(** ** One step of a section in floats *)
Section Err.
Variables prec emax : Z.
Hypothesis Hpe : (1 < prec < emax)%Z.
Local Instance Hp'' : Prec_gt_0 prec.
Proof. unfold Prec_gt_0. lia. Qed.
Local Instance He'' : Prec_lt_emax prec emax.
Proof. unfold Prec_lt_emax. lia. Qed.
Notation u := (uround prec).
Notation FM := (fmax prec emax).
Notation tn := (ftiny prec emax).
Notation fin := (finite prec emax).
Notation "a ⊕ b" := (SFadd prec emax a b) (at level 50, left associativity).
Notation "a ⊖ b" := (SFsub prec emax a b) (at level 50, left associativity).
Notation "a ⊗ b" := (SFmul prec emax a b) (at level 40, left associativity).

Lemma sub_step x y : fin x -> fin y -> Rabs (fval x) + Rabs (fval y) <= FM ->
  fin (x ⊖ y) /\ Rabs (fval (x ⊖ y) - (fval x - fval y)) <= u * (Rabs (fval x) + Rabs (fval y)).
Proof.
  intros Fx Fy B. pose proof (Rabs_triang (fval x) (- fval y)) as T. rewrite Rabs_Ropp in T.
  destruct (fsub_ok prec emax Hp'' He'' x y Fx Fy) as [F V]; [unfold Rminus; lra|]. split; [exact F|]. rewrite V.
  unfold Rminus at 1 2 3. eapply Rle_trans.
  - apply (add_err prec emax Hp''); [apply (finite_format prec emax); exact Fx|].
    apply (finite_opp_format prec emax), (finite_format prec emax); exact Fy.
  - apply Rmult_le_compat_l; [pose proof (u_pos prec); lra|exact T].
Qed.
Lemma mul_step x y A B : fin x -> fin y -> Rabs (fval x) <= A -> Rabs (fval y) <= B -> A * B <= FM ->
  fin (x ⊗ y) /\ Rabs (fval (x ⊗ y) - fval x * fval y) <= u * (A * B) + tn.
Proof.
  intros Fx Fy HA HB M. pose proof (Rabs_pos (fval x)). pose proof (Rabs_pos (fval y)).
  assert (Q : Rabs (fval x * fval y) <= A * B) by (rewrite Rabs_mult; apply Rmult_le_compat; assumption).
  destruct (fmul_ok prec emax Hp'' He'' x y Fx Fy) as [F V]; [lra|]. split; [exact F|]. rewrite V.
  eapply Rle_trans; [apply (rnd_err prec emax Hp'')|]. pose proof (u_pos prec). nra.
Qed.
Lemma abs_close a b d B : Rabs (a - b) <= d -> Rabs b <= B -> Rabs a <= B + d.
Proof. intros H1 H2. replace a with ((a - b) + b) by ring. eapply Rle_trans; [apply Rabs_triang|]. lra. Qed.

Definition coef_le (C : R) (s : Sos R) : Prop :=
  Rabs (b0 s) <= C /\ Rabs (b1 s) <= C /\ Rabs (b2 s) <= C /\ Rabs (a1 s) <= C /\ Rabs (a2 s) <= C.
Definition coef_fin (s : Sos spec_float) : Prop := fin (b0 s) /\ fin (b1 s) /\ fin (b2 s) /\ fin (a1 s) /\ fin (a2 s).

Lemma step_ok (s : Sos spec_float) x z0 z1 C M : coef_fin s -> coef_le C (sos_val s) -> 1 <= C ->
  fin x -> fin z0 -> fin z1 -> Rabs (fval x) <= M -> Rabs (fval z0) <= M -> Rabs (fval z1) <= M ->
  tn <= M -> 20 * C ^ 2 * M <= FM ->
  let y := b0 s ⊗ x ⊕ z0 in
  let w0 := b1 s ⊗ x ⊖ a1 s ⊗ y ⊕ z1 in
  let w1 := b2 s ⊗ x ⊖ a2 s ⊗ y in
  let e := 32 * u * C ^ 2 * M + 2 * tn in
  fin y /\ fin w0 /\ fin w1 /\ Rabs (fval y) <= 5 * C * M /\
  Rabs (fval y - (fval (b0 s) * fval x + fval z0)) <= e /\
  Rabs (fval w0 - (fval (b1 s) * fval x - fval (a1 s) * fval y + fval z1)) <= e /\
  Rabs (fval w1 - (fval (b2 s) * fval x - fval (a2 s) * fval y)) <= e.
Proof.
  intros (Fb0 & Fb1 & Fb2 & Fa1 & Fa2) (Cb0 & Cb1 & Cb2 & Ca1 & Ca2) HC Fx F0 F1 Hx H0 H1 HT HM.
  cbn [sos_val M_Filter.b0 M_Filter.b1 M_Filter.b2 M_Filter.a1 M_Filter.a2] in *. cbv zeta.
  pose proof (u_pos prec) as U. pose proof (u14 prec emax Hpe) as U4. pose proof (tiny_pos prec emax) as T.
  set (P := C * M). set (Q := C ^ 2 * M).
  assert (M00 : 0 < M) by lra. assert (MP : M <= P) by (unfold P; nra).
  assert (PQ : P <= Q). { assert (Q = C * P) by (unfold P, Q; ring). nra. }
  replace (20 * C ^ 2 * M) with (20 * Q) in HM by (unfold Q; ring). replace (32 * u * C ^ 2 * M) with (32 * (u * Q)) by (unfold Q; ring).
  replace (5 * C * M) with (5 * P) by (unfold P; ring).
  assert (uP : u * P <= P / 4) by nra. assert (uQ : u * Q <= Q / 4) by nra. assert (uPQ : u * P <= u * Q) by nra. assert (uMP : u * M <= u * P) by nra.
  assert (uM0 : 0 <= u * M) by nra.
  destruct (mul_step (b0 s) x C M Fb0 Fx Cb0 Hx ltac:(fold P; lra)) as [Ft0 Et0]. fold P in Et0.
  assert (Bp : forall c v, Rabs c <= C -> Rabs v <= M -> Rabs (c * v) <= P).
  { intros c v Hc Hv. rewrite Rabs_mult. apply Rmult_le_compat; try apply Rabs_pos; assumption. }
  pose proof (abs_close _ _ _ P Et0 (Bp _ _ Cb0 Hx)) as Bt0.
  destruct (add_step prec emax Hpe _ z0 Ft0 F0 ltac:(lra)) as [Fy [Ey _]]. set (y := b0 s ⊗ x ⊕ z0) in *. set (t0 := fval (b0 s ⊗ x)) in *.
  assert (Ey' : Rabs (fval y - (fval (b0 s) * fval x + fval z0)) <= 7 / 2 * (u * P) + 5 / 4 * tn).
  { replace (fval y - (fval (b0 s) * fval x + fval z0)) with ((fval y - (t0 + fval z0)) + (t0 - fval (b0 s) * fval x)) by ring.
    eapply Rle_trans; [apply Rabs_triang|].
    assert (u * (Rabs t0 + Rabs (fval z0)) <= u * (P + (u * P + tn) + M)) by (apply Rmult_le_compat_l; lra).
    assert (u * (u * P) <= / 4 * (u * P)) by (apply Rmult_le_compat_r; lra). assert (u * tn <= / 4 * tn) by (apply Rmult_le_compat_r; lra).
    assert (u * (P + (u * P + tn) + M) = u * P + u * (u * P) + u * tn + u * M) by ring. lra. }
  assert (Hy : Rabs (fval y) <= 5 * P).
  { assert (B : Rabs (fval (b0 s) * fval x + fval z0) <= P + M) by (eapply Rle_trans; [apply Rabs_triang|]; pose proof (Bp _ _ Cb0 Hx); lra).
    pose proof (abs_close _ _ _ _ Ey' B). lra. }
  split; [exact Fy|].
  assert (CP : C * (5 * P) = 5 * Q) by (unfold P, Q; ring).
  assert (Bq : forall c, Rabs c <= C -> Rabs (c * fval y) <= 5 * Q).
  { intros c Hc. rewrite Rabs_mult, <- CP. apply Rmult_le_compat; try apply Rabs_pos; assumption. }
  destruct (mul_step (b1 s) x C M Fb1 Fx Cb1 Hx ltac:(fold P; lra)) as [Ft1 Et1]. fold P in Et1.
  destruct (mul_step (b2 s) x C M Fb2 Fx Cb2 Hx ltac:(fold P; lra)) as [Ft4 Et4]. fold P in Et4.
  destruct (mul_step (a1 s) y C (5 * P) Fa1 Fy Ca1 Hy ltac:(lra)) as [Ft2 Et2]. rewrite CP in Et2.
  destruct (mul_step (a2 s) y C (5 * P) Fa2 Fy Ca2 Hy ltac:(lra)) as [Ft5 Et5]. rewrite CP in Et5.
  pose proof (abs_close _ _ _ P Et1 (Bp _ _ Cb1 Hx)) as Bt1. pose proof (abs_close _ _ _ P Et4 (Bp _ _ Cb2 Hx)) as Bt4.
  pose proof (abs_close _ _ _ _ Et2 (Bq _ Ca1)) as Bt2. pose proof (abs_close _ _ _ _ Et5 (Bq _ Ca2)) as Bt5.
  set (t1 := b1 s ⊗ x) in *. set (t2 := a1 s ⊗ y) in *. set (t4 := b2 s ⊗ x) in *. set (t5 := a2 s ⊗ y) in *.
  destruct (sub_step t1 t2 Ft1 Ft2 ltac:(lra)) as [Ft3 Et3]. destruct (sub_step t4 t5 Ft4 Ft5 ltac:(lra)) as [Fw1 Ew1].
  assert (S12 : Rabs (fval t1) + Rabs (fval t2) <= 19 / 2 * Q) by lra.
  assert (S45 : Rabs (fval t4) + Rabs (fval t5) <= 19 / 2 * Q) by lra.
  assert (E3 : Rabs (fval (t1 ⊖ t2) - (fval t1 - fval t2)) <= 19 / 2 * (u * Q)).
  { eapply Rle_trans; [exact Et3|]. replace (19 / 2 * (u * Q)) with (u * (19 / 2 * Q)) by ring. apply Rmult_le_compat_l; lra. }
  assert (E5 : Rabs (fval (t4 ⊖ t5) - (fval t4 - fval t5)) <= 19 / 2 * (u * Q)).
  { eapply Rle_trans; [exact Ew1|]. replace (19 / 2 * (u * Q)) with (u * (19 / 2 * Q)) by ring. apply Rmult_le_compat_l; lra. }
  assert (B3 : Rabs (fval (t1 ⊖ t2)) <= 12 * Q).
  { assert (B : Rabs (fval t1 - fval t2) <= 19 / 2 * Q).
    { unfold Rminus. eapply Rle_trans; [apply Rabs_triang|]. rewrite Rabs_Ropp. exact S12. }
    pose proof (abs_close _ _ _ _ E3 B). lra. }
  destruct (add_step prec emax Hpe _ z1 Ft3 F1 ltac:(lra)) as [Fw0 [Ew0 _]].
  assert (E0 : Rabs (fval (t1 ⊖ t2 ⊕ z1) - (fval (t1 ⊖ t2) + fval z1)) <= 13 * (u * Q)).
  { eapply Rle_trans; [exact Ew0|]. replace (13 * (u * Q)) with (u * (13 * Q)) by ring. apply Rmult_le_compat_l; lra. }
  split; [exact Fw0|]. split; [exact Fw1|]. split; [exact Hy|]. split; [|split].
  - lra.
  - replace (fval (t1 ⊖ t2 ⊕ z1) - (fval (b1 s) * fval x - fval (a1 s) * fval y + fval z1)) with
      ((fval (t1 ⊖ t2 ⊕ z1) - (fval (t1 ⊖ t2) + fval z1)) + ((fval (t1 ⊖ t2) - (fval t1 - fval t2)) +
       ((fval t1 - fval (b1 s) * fval x) + - (fval t2 - fval (a1 s) * fval y)))) by ring.
    eapply Rle_trans; [apply Rabs_triang|]. eapply Rle_trans; [apply Rplus_le_compat_l, Rabs_triang|].
    eapply Rle_trans; [apply Rplus_le_compat_l, Rplus_le_compat_l, Rabs_triang|]. rewrite Rabs_Ropp. lra.
  - replace (fval (t4 ⊖ t5) - (fval (b2 s) * fval x - fval (a2 s) * fval y)) with
      ((fval (t4 ⊖ t5) - (fval t4 - fval t5)) +
       ((fval t4 - fval (b2 s) * fval x) + - (fval t5 - fval (a2 s) * fval y))) by ring.
    eapply Rle_trans; [apply Rabs_triang|]. eapply Rle_trans; [apply Rplus_le_compat_l, Rabs_triang|]. rewrite Rabs_Ropp. lra.
Qed.

(** ** A whole section *)
Definition Ksec (r C : R) : R := 768 * gain r ^ 2 * C ^ 5.

Lemma section_err (sz : bool) (s : Sos spec_float) (x : nat -> spec_float) r C X N :
  let NF := SFNum prec emax sz in
  0 <= r < 1 -> poles_within r (sos_val s) -> 1 <= C -> coef_fin s -> coef_le C (sos_val s) ->
  fin (zi0 s) -> fin (zi1 s) -> Rabs (fval (zi0 s)) <= X -> Rabs (fval (zi1 s)) <= X ->
  (forall k, (k < N)%nat -> fin (x k) /\ Rabs (fval (x k)) <= X) ->
  Ksec r C * u <= 1 -> Ksec r C * (X + tn) <= FM ->
  forall n, (n < N)%nat ->
    fin (@gout _ NF s (zi0 s, zi1 s) x n) /\
    Rabs (fval (@gout _ NF s (zi0 s, zi1 s) x n)) <= Ksec r C * (X + tn) /\
    Rabs (fval (@gout _ NF s (zi0 s, zi1 s) x n) -
          sout (sos_val s) (fval (zi0 s), fval (zi1 s)) (fun k => fval (x k)) n) <= Ksec r C * (u * X + tn).
Proof.
  intros NF Hr Hpol HC Cf Cc Fz0 Fz1 Hz0 Hz1 Hx HKu HKM.
  pose proof (u_pos prec) as U. pose proof (u14 prec emax Hpe) as U4. pose proof (tiny_pos prec emax) as T.
  pose proof (gain_ge r Hr) as HG. set (G := gain r) in *.
  assert (X0 : 0 <= X) by (eapply Rle_trans; [apply Rabs_pos|exact Hz0]).
  set (Y := X + tn) in *. assert (Y0 : 0 < Y) by (unfold Y; lra).
  set (M := 8 * G * C ^ 2 * Y). unfold Ksec in *. fold G in HKu, HKM |- *.
  assert (C1 : C <= C ^ 2) by nra. assert (C2 : 1 <= C ^ 2) by nra. assert (C3 : C ^ 2 <= C ^ 3) by (cbn; nra).
  assert (C4 : C ^ 3 <= C ^ 4) by (cbn [pow] in *; nra). assert (C5 : C ^ 4 <= C ^ 5).
  { replace (C ^ 5) with (C * C ^ 4) by ring. assert (0 <= C ^ 4) by lra. nra. }
  assert (G2 : 4 * G <= G ^ 2) by nra.
  assert (GC : forall a b, 0 <= a -> a * G <= b * G ^ 2 -> True) by auto.
  assert (YM : 32 * Y <= M).
  { unfold M. assert (1 * Y <= C ^ 2 * Y) by (apply Rmult_le_compat_r; lra). assert (0 <= C ^ 2 * Y) by nra.
    replace (8 * G * C ^ 2 * Y) with (8 * (G * (C ^ 2 * Y))) by ring. assert (4 * (C ^ 2 * Y) <= G * (C ^ 2 * Y)) by (apply Rmult_le_compat_r; lra). lra. }
  assert (GG : forall k a, (0 <= a)%R -> k <= 5 -> True) by auto. clear GG GC.
  (* 20 C^2 M <= FM *)
  assert (HM20 : 20 * C ^ 2 * M <= FM).
  { eapply Rle_trans; [|exact HKM]. unfold M. replace (20 * C ^ 2 * (8 * G * C ^ 2 * Y)) with (160 * G * C ^ 4 * Y) by ring.
    apply Rmult_le_compat_r; [lra|]. replace (160 * G * C ^ 4) with (160 * (G * C ^ 4)) by ring.
    replace (768 * G ^ 2 * C ^ 5) with (768 * (G ^ 2 * C ^ 5)) by ring.
    assert (G * C ^ 4 <= G ^ 2 * C ^ 5) by (apply Rmult_le_compat; lra). assert (0 <= G * C ^ 4) by nra. lra. }
  (* 128 G C^3 u <= 1 *)
  assert (Hu : 128 * G * C ^ 3 * u <= 1).
  { eapply Rle_trans; [|exact HKu]. apply Rmult_le_compat_r; [lra|].
    replace (128 * G * C ^ 3) with (128 * (G * C ^ 3)) by ring. replace (768 * G ^ 2 * C ^ 5) with (768 * (G ^ 2 * C ^ 5)) by ring.
    assert (G * C ^ 3 <= G ^ 2 * C ^ 5) by (apply Rmult_le_compat; lra). assert (0 <= G * C ^ 3) by nra. lra. }
  set (e := 32 * u * C ^ 2 * M + 2 * tn). assert (M0 : 0 < M) by lra.
  assert (e0 : 0 <= e) by (unfold e; assert (0 <= u * C ^ 2 * M) by (apply Rmult_le_pos; [apply Rmult_le_pos; lra|lra]); lra).
  (* the disturbed recursion: g = d1 - a1 d0, bounded by (1+C) e <= 2 C e *)
  set (st := fun n => @gst _ NF s (zi0 s, zi1 s) x n). set (yy := fun n => @gout _ NF s (zi0 s, zi1 s) x n).
  assert (Cb : forall c d, Rabs c <= C -> Rabs d <= e -> Rabs (c * d) <= C * e).
  { intros c d H1 H2. rewrite Rabs_mult. apply Rmult_le_compat; try apply Rabs_pos; assumption. }
  set (sv := sos_val s) in *.
  assert (Ce : e <= C * e) by nra.
  assert (CX : forall c d, Rabs c <= C -> Rabs d <= X -> Rabs (c * d) <= C * X).
  { intros c d H1 H2. rewrite Rabs_mult. apply Rmult_le_compat; try apply Rabs_pos; assumption. }
  assert (De : 2 * C * e = 64 * G * C ^ 3 * u * (8 * C ^ 2 * Y) + 4 * C * tn) by (unfold e, M; ring).
  assert (Ge : G * (2 * C * e) <= M / 2 + 4 * G * C * tn).
  { rewrite De. replace (M / 2) with (G * (/ 2 * (8 * C ^ 2 * Y))) by (unfold M; field).
    replace (4 * G * C * tn) with (G * (4 * C * tn)) by ring. rewrite <- Rmult_plus_distr_l. apply Rmult_le_compat_l; [lra|].
    apply Rplus_le_compat_r. apply Rmult_le_compat_r; [nra|lra]. }
  assert (Inv : forall n, (n <= N)%nat -> fin (fst (st n)) /\ fin (snd (st n)) /\ Rabs (fval (fst (st n))) <= M /\ Rabs (fval (snd (st n))) <= M).
  { intros n. induction n as [n IH] using lt_wf_ind. intros Hn.
    set (E0 := fun k => fval (fst (st k))). set (E1 := fun k => fval (snd (st k))).
    assert (Step : forall k, (k < n)%nat -> let y := fval (yy k) in
      fin (fst (st (S k))) /\ fin (snd (st (S k))) /\
      Rabs (y - (b0 sv * fval (x k) + E0 k)) <= e /\
      Rabs (E0 (S k) - (b1 sv * fval (x k) - a1 sv * y + E1 k)) <= e /\
      Rabs (E1 (S k) - (b2 sv * fval (x k) - a2 sv * y)) <= e).
    { intros k Hk. destruct (IH k Hk ltac:(lia)) as (F0 & F1 & B0 & B1). destruct (Hx k ltac:(lia)) as [Fx Bx].
      destruct (step_ok s (x k) _ _ C M Cf Cc HC Fx F0 F1 ltac:(unfold Y in *; lra) B0 B1 ltac:(unfold Y in *; lra) HM20) as (S1 & S2 & S3 & S4 & S5 & S6 & S7).
      cbv zeta in S1, S2, S3, S4, S5, S6, S7. split; [exact S2|]. split; [exact S3|]. split; [exact S5|]. split; [exact S6|exact S7]. }
    destruct n as [|n'].
    - cbn. split; [exact Fz0|]. split; [exact Fz1|]. unfold Y in *. split; lra.
    - destruct (Step n' ltac:(lia)) as (Ff0 & Ff1 & _). split; [exact Ff0|]. split; [exact Ff1|].
      set (g0 := fun k => E0 (S k) - (- a1 sv * E0 k + E1 k)). set (g1 := fun k => E1 (S k) - (- a2 sv * E0 k)).
      destruct Cc as (Cb0 & Cb1 & Cb2 & Ca1 & Ca2).
      assert (Gb : forall k, (k < S n')%nat -> Rabs (g0 k) <= 2 * C ^ 2 * X + 2 * C * e /\ Rabs (g1 k) <= 2 * C ^ 2 * X + 2 * C * e).
      { intros k Hk. destruct (Step k Hk) as (_ & _ & D0 & D1 & D2). cbv zeta in D0, D1, D2. destruct (Hx k ltac:(lia)) as [_ Bx].
        set (d0 := fval (yy k) - (b0 sv * fval (x k) + E0 k)) in *. set (d1 := E0 (S k) - (b1 sv * fval (x k) - a1 sv * fval (yy k) + E1 k)) in *.
        set (d2 := E1 (S k) - (b2 sv * fval (x k) - a2 sv * fval (yy k))) in *.
        assert (CCX : forall c, Rabs c <= C -> Rabs (c * (b0 sv * fval (x k))) <= C ^ 2 * X).
        { intros c Hc. rewrite Rabs_mult. replace (C ^ 2 * X) with (C * (C * X)) by ring. apply Rmult_le_compat; try apply Rabs_pos; [exact Hc|apply CX; assumption]. }
        assert (XX : C * X <= C ^ 2 * X) by (apply Rmult_le_compat_r; [lra|nra]).
        assert (N0 : g0 k = b1 sv * fval (x k) + (- (a1 sv * (b0 sv * fval (x k))) + (- (a1 sv * d0) + d1))) by (unfold g0, d0, d1; ring).
        assert (N1 : g1 k = b2 sv * fval (x k) + (- (a2 sv * (b0 sv * fval (x k))) + (- (a2 sv * d0) + d2))) by (unfold g1, d0, d2; ring).
        pose proof (CX _ _ Cb1 Bx). pose proof (CX _ _ Cb2 Bx). pose proof (CCX _ Ca1). pose proof (CCX _ Ca2). pose proof (Cb _ _ Ca1 D0). pose proof (Cb _ _ Ca2 D0).
        split; [rewrite N0|rewrite N1]; (eapply Rle_trans; [apply Rabs_triang|]; eapply Rle_trans; [apply Rplus_le_compat_l, Rabs_triang|];
          eapply Rle_trans; [apply Rplus_le_compat_l, Rplus_le_compat_l, Rabs_triang|]; rewrite !Rabs_Ropp; lra). }
      destruct (disturbed r sv E0 E1 g0 g1 (2 * C ^ 2 * X + 2 * C * e) (2 * X) (S n') Hr Hpol) with (n := S n') as [R0 R1].
      + assert (0 <= C ^ 2 * X) by nra. assert (0 <= C * e) by lra. lra.
      + unfold E0, E1. cbn. lra.
      + exact Gb.
      + intros k Hk. unfold g0, g1. split; ring.
      + lia.
      + fold G in R0, R1.
        assert (Fin : G * (2 * C ^ 2 * X + 2 * C * e + 2 * X) <= M).
        { replace (G * (2 * C ^ 2 * X + 2 * C * e + 2 * X)) with (G * (2 * C ^ 2 * X + 2 * X) + G * (2 * C * e)) by ring.
          assert (G * (2 * C ^ 2 * X + 2 * X) + 4 * G * C * tn <= M / 2); [|lra].
          replace (M / 2) with (G * (4 * C ^ 2 * X + 4 * C ^ 2 * tn)) by (unfold M, Y; field).
          replace (G * (2 * C ^ 2 * X + 2 * X) + 4 * G * C * tn) with (G * (2 * C ^ 2 * X + 2 * X + 4 * C * tn)) by ring.
          apply Rmult_le_compat_l; [lra|]. assert (1 * X <= C ^ 2 * X) by (apply Rmult_le_compat_r; lra).
          assert (C * tn <= C ^ 2 * tn) by (apply Rmult_le_compat_r; [lra|nra]). lra. }
        unfold E0, E1 in R0, R1. split; lra. }
  intros n Hn.
  destruct (Inv n ltac:(lia)) as (F0 & F1 & B0 & B1). destruct (Hx n Hn) as [Fx Bx].
  destruct (step_ok s (x n) _ _ C M Cf Cc HC Fx F0 F1 ltac:(unfold Y in *; lra) B0 B1 ltac:(unfold Y in *; lra) HM20) as (S1 & _ & _ & S4 & S5 & _ & _).
  cbv zeta in S1, S4, S5. split; [exact S1|].
  split.
  { change (fval (@gout _ NF s (zi0 s, zi1 s) x n)) with (fval (b0 s ⊗ x n ⊕ fst (st n))).
    eapply Rle_trans; [exact S4|]. unfold M. replace (5 * C * (8 * G * C ^ 2 * Y)) with (40 * (G * C ^ 3) * Y) by ring. fold Y.
    apply Rmult_le_compat_r; [lra|]. replace (768 * G ^ 2 * C ^ 5) with (768 * (G ^ 2 * C ^ 5)) by ring.
    assert (G * C ^ 3 <= G ^ 2 * C ^ 5) by (apply Rmult_le_compat; lra). assert (0 <= G * C ^ 3) by nra. lra. }
  (* error against the exact section *)
  set (E0 := fun k => fval (fst (st k)) - fst (sst sv (fval (zi0 s), fval (zi1 s)) (fun k => fval (x k)) k)).
  set (E1 := fun k => fval (snd (st k)) - snd (sst sv (fval (zi0 s), fval (zi1 s)) (fun k => fval (x k)) k)).
  set (g0 := fun k => E0 (S k) - (- a1 sv * E0 k + E1 k)). set (g1 := fun k => E1 (S k) - (- a2 sv * E0 k)).
  assert (Gb : forall k, (k < N)%nat -> Rabs (g0 k) <= 2 * C * e /\ Rabs (g1 k) <= 2 * C * e).
  { intros k Hk. destruct (Inv k ltac:(lia)) as (F0' & F1' & B0' & B1'). destruct (Hx k Hk) as [Fx' Bx'].
    destruct (step_ok s (x k) _ _ C M Cf Cc HC Fx' F0' F1' ltac:(unfold Y in *; lra) B0' B1' ltac:(unfold Y in *; lra) HM20) as (_ & _ & _ & _ & D0 & D1 & D2).
    cbv zeta in D0, D1, D2. destruct Cc as (Cb0 & Cb1 & Cb2 & Ca1 & Ca2).
    change (fval (b0 s)) with (b0 sv) in *. change (fval (b1 s)) with (b1 sv) in *. change (fval (b2 s)) with (b2 sv) in *.
    change (fval (a1 s)) with (a1 sv) in *. change (fval (a2 s)) with (a2 sv) in *.
    set (y := fval (b0 s ⊗ x k ⊕ fst (st k))) in *.
    fold (st k) in D0, D1, D2. fold e in D0, D1, D2.
    set (d0 := y - (b0 sv * fval (x k) + fval (fst (st k)))) in *.
    change (b1 s ⊗ x k ⊖ a1 s ⊗ (b0 s ⊗ x k ⊕ fst (st k)) ⊕ snd (st k)) with (fst (st (S k))) in D1.
    change (b2 s ⊗ x k ⊖ a2 s ⊗ (b0 s ⊗ x k ⊕ fst (st k))) with (snd (st (S k))) in D2.
    set (d1 := fval (fst (st (S k))) - (b1 sv * fval (x k) - a1 sv * y + fval (snd (st k)))) in *.
    set (d2 := fval (snd (st (S k))) - (b2 sv * fval (x k) - a2 sv * y)) in *.
    assert (N0 : g0 k = - (a1 sv * d0) + d1) by (unfold g0, E0, E1, d0, d1; cbn [sst fst snd]; ring).
    assert (N1 : g1 k = - (a2 sv * d0) + d2) by (unfold g1, E0, E1, d0, d2; cbn [sst fst snd]; ring).
    pose proof (Cb _ _ Ca1 D0). pose proof (Cb _ _ Ca2 D0).
    split; [rewrite N0|rewrite N1]; (eapply Rle_trans; [apply Rabs_triang|]; rewrite Rabs_Ropp; lra). }
  destruct (disturbed r sv E0 E1 g0 g1 (2 * C * e) 0 N Hr Hpol) with (n := n) as [R0 _].
  - lra.
  - unfold E0, E1. cbn. rewrite !Rminus_diag_eq, Rabs_R0 by reflexivity. lra.
  - exact Gb.
  - intros k Hk. unfold g0, g1. split; ring.
  - lia.
  - fold G in R0. rewrite Rplus_0_r in R0.
    set (y := fval (b0 s ⊗ x n ⊕ fst (st n))) in *.
    assert (Q0 : fval (yy n) - sout sv (fval (zi0 s), fval (zi1 s)) (fun k => fval (x k)) n =
      (y - (fval (b0 s) * fval (x n) + fval (fst (st n)))) + E0 n).
    { unfold sout, E0. change (fval (b0 s)) with (b0 sv). change (fval (yy n)) with y. ring. }
    fold (yy n). rewrite Q0. eapply Rle_trans; [apply Rabs_triang|].
    apply Rle_trans with (e + G * (2 * C * e)); [apply Rplus_le_compat; [exact S5|exact R0]|].
    (* e (1 + 2GC) <= K (uX + tn) *)
    assert (K1 : e + G * (2 * C * e) <= 3 * G * C * e).
    { assert (1 * e <= (G * C) * e) by (apply Rmult_le_compat_r; [lra|nra]). lra. }
    eapply Rle_trans; [exact K1|]. unfold e, M, Y.
    replace (3 * G * C * (32 * u * C ^ 2 * (8 * G * C ^ 2 * (X + tn)) + 2 * tn)) with
      (768 * G ^ 2 * C ^ 5 * (u * X) + (768 * G ^ 2 * C ^ 5 * u + 6 * G * C) * tn) by ring.
    rewrite Rmult_plus_distr_l. apply Rplus_le_compat_l. apply Rmult_le_compat_r; [lra|].
    assert (Q1 : 6 * G * C <= 384 * G ^ 2 * C ^ 5).
    { replace (6 * G * C) with (6 * (G * C)) by ring. replace (384 * G ^ 2 * C ^ 5) with (384 * (G ^ 2 * C ^ 5)) by ring.
      assert (G * C <= G ^ 2 * C ^ 5) by (apply Rmult_le_compat; lra). assert (0 <= G * C) by nra. lra. }
    assert (Q2 : 768 * G ^ 2 * C ^ 5 * u <= 384 * G ^ 2 * C ^ 5).
    { assert (0 <= G ^ 2 * C ^ 5) by (apply Rmult_le_pos; lra). replace (768 * G ^ 2 * C ^ 5 * u) with (u * (768 * (G ^ 2 * C ^ 5))) by ring.
      apply Rle_trans with (/ 4 * (768 * (G ^ 2 * C ^ 5))); [apply Rmult_le_compat_r; lra|lra]. }
    lra.
Qed.
End Err.

(** ** The cascade *)
Lemma section_lip s : roots_within 1 s -> exists L, 0 <= L /\ forall z x x' E N, 0 <= E ->
  (forall k, (k < N)%nat -> Rabs (x k - x' k) <= E) -> forall n, (n < N)%nat -> Rabs (sout s z x n - sout s z x' n) <= L * E.
Proof.
  intros Hr. destruct (section_bound s 1 Hr ltac:(lra)) as [L [HL B]]. exists L. split; [exact HL|].
  intros z x x' E N HE Hx n Hn. set (x2 := fun k => if (k <? N)%nat then x' k else x k).
  rewrite (sout_local s z x' x2 n) by (intros k Hk; unfold x2; destruct (Nat.ltb_spec k N); [reflexivity|lia]).
  rewrite sout_sub. eapply Rle_trans; [apply (B _ _ E HE)|].
  - intros k. rewrite pow1, Rmult_1_r. unfold x2. destruct (Nat.ltb_spec k N) as [K|K]; [apply Hx; exact K|]. rewrite Rminus_diag_eq, Rabs_R0 by reflexivity. exact HE.
  - cbn [fst snd]. rewrite !Rminus_diag_eq, Rabs_R0, pow1 by reflexivity. right. ring.
Qed.
Lemma cascade_lip l : Forall (roots_within 1) l -> exists L, 0 <= L /\ forall l0 x x' E N, same_coefs l0 l -> 0 <= E ->
  (forall k, (k < N)%nat -> Rabs (x k - x' k) <= E) -> forall n, (n < N)%nat -> Rabs (cout l0 x n - cout l0 x' n) <= L * E.
Proof.
  intros HF. induction HF as [|s l Hs HF IH].
  - exists 1. split; [lra|]. intros l0 x x' E N E0 HE Hx n Hn. destruct l0; [|discriminate E0]. cbn [cout]. rewrite Rmult_1_l. apply Hx; exact Hn.
  - destruct IH as [L2 [HL2 IH]]. destruct (section_lip s Hs) as [L1 [HL1 B]]. exists (L2 * L1). split; [apply Rmult_le_pos; assumption|].
    intros l0 x x' E N E0 HE Hx n Hn. destruct l0 as [|s0 l0]; [discriminate E0|]. unfold same_coefs in E0. cbn [map] in E0. injection E0 as Q3 Q4 Q5 Q6 Q7 Q8 Q2.
    cbn [cout]. rewrite Rmult_assoc. apply (IH l0 _ _ (L1 * E) N); [exact Q2|apply Rmult_le_pos; assumption| |exact Hn].
    intros k Hk. rewrite !(sout_coefs s0 s) by (unfold coefs; congruence). apply (B _ _ _ E N); assumption.
Qed.

Lemma coef_le_ex (s : Sos R) : exists C, 1 <= C /\ coef_le C s.
Proof.
  exists (1 + Rabs (b0 s) + Rabs (b1 s) + Rabs (b2 s) + Rabs (a1 s) + Rabs (a2 s)). unfold coef_le.
  pose proof (Rabs_pos (b0 s)). pose proof (Rabs_pos (b1 s)). pose proof (Rabs_pos (b2 s)). pose proof (Rabs_pos (a1 s)). pose proof (Rabs_pos (a2 s)).
  repeat split; lra.
Qed.
Lemma Ksec_ge r C : 0 <= r < 1 -> 1 <= C -> 1 <= Ksec r C.
Proof.
  intros Hr HC. unfold Ksec. pose proof (gain_ge r Hr) as HG. assert (1 <= gain r ^ 2) by nra. assert (1 <= C ^ 5) by (apply pow_R1_Rle; exact HC).
  assert (1 <= gain r ^ 2 * C ^ 5) by (rewrite <- (Rmult_1_l 1); apply Rmult_le_compat; lra). lra.
Qed.

Definition small_states (X : R) (l : list (Sos spec_float)) : Prop := Forall (fun s => Rabs (fval (zi0 s)) <= X /\ Rabs (fval (zi1 s)) <= X) l.

Lemma cascade_err (l : list (Sos R)) (r : R) : 0 <= r < 1 -> Forall (poles_within r) l -> exists K, 1 <= K /\
  forall prec emax sz lf (x : nat -> spec_float) X N, (1 < prec < emax)%Z -> same_coefs (map sos_val lf) l -> Forall (finite_sos prec emax) lf ->
  0 <= X -> small_states X lf -> (forall k, (k < N)%nat -> finite prec emax (x k) /\ Rabs (fval (x k)) <= X) ->
  K * uround prec <= 1 -> K * (X + ftiny prec emax) <= fmax prec emax ->
  forall n, (n < N)%nat -> let y := @gcout _ (SFNum prec emax sz) lf x n in
    finite prec emax y /\ Rabs (fval y) <= K * (X + ftiny prec emax) /\
    Rabs (fval y - cout (map sos_val lf) (fun k => fval (x k)) n) <= K * (uround prec * X + ftiny prec emax).
Proof.
  intros Hr HF. induction HF as [|s l Hs HF IH].
  - exists 1. split; [lra|]. intros prec emax sz lf x X N Hpe E0 Fl HX St Hx Hu HM n Hn y. destruct lf; [|discriminate E0]. cbn [gcout map cout] in *. unfold y. 
    destruct (Hx n Hn) as [Fx Bx]. pose proof (tiny_pos prec emax) as T. pose proof (u_pos prec) as U. split; [exact Fx|]. split; [lra|].
    rewrite Rminus_diag_eq, Rabs_R0 by reflexivity. assert (0 <= uround prec * X) by nra. lra.
  - destruct IH as [K2 [HK2 IH]]. destruct (coef_le_ex s) as [C [HC Cs]]. pose proof (Ksec_ge r C Hr HC) as HK1. set (K1 := Ksec r C) in *.
    assert (R1 : Forall (roots_within 1) l).
    { clear - Hr HF. induction HF as [|s l [p [q [A1 [A2 [A3 A4]]]]] HF IH]; constructor; [exists p, q; repeat split; try assumption; lra|exact IH]. }
    destruct (cascade_lip l R1) as [L [HL Lip]].
    exists (2 * K1 * K2 + L * K1).
    assert (P12 : 1 <= K1 * K2) by nra. assert (LK : 0 <= L * K1) by nra.
    split; [lra|]. intros prec emax sz lf x X N Hpe E0 Fl HX St Hx Hu HM n Hn y.
    destruct lf as [|sf lf]; [discriminate E0|]. unfold same_coefs in E0. cbn [map] in E0. injection E0 as Qb0 Qb1 Qb2 Qa0 Qa1 Qa2 Q2.
    inversion Fl as [|? ? Fs Fl']; subst. inversion St as [|? ? [Z0 Z1] St']; subst.
    pose proof (tiny_pos prec emax) as T. pose proof (u_pos prec) as U. set (u := uround prec) in *. set (tn := ftiny prec emax) in *.
    assert (K1 * 1 <= K1 * K2) by (apply Rmult_le_compat_l; lra). assert (1 * K2 <= K1 * K2) by (apply Rmult_le_compat_r; lra).
    assert (K1K : K1 <= 2 * K1 * K2 + L * K1) by lra. assert (K2K : K2 <= 2 * K1 * K2 + L * K1) by lra.
    unfold finite_sos in Fs. inversion Fs as [|? ? F1 Fs1]; subst. inversion Fs1 as [|? ? F2 Fs2]; subst. inversion Fs2 as [|? ? F3 Fs3]; subst.
    inversion Fs3 as [|? ? F4 Fs4]; subst. inversion Fs4 as [|? ? F5 Fs5]; subst. inversion Fs5 as [|? ? F6 Fs6]; subst. inversion Fs6 as [|? ? F7 Fs7]; subst.
    assert (Pol : poles_within r (sos_val sf)) by (unfold poles_within; cbn [sos_val M_Filter.a1 M_Filter.a2]; rewrite Qa1, Qa2; exact Hs).
    assert (Cle : coef_le C (sos_val sf)).
    { unfold coef_le in *. cbn [sos_val M_Filter.b0 M_Filter.b1 M_Filter.b2 M_Filter.a1 M_Filter.a2]. rewrite Qb0, Qb1, Qb2, Qa1, Qa2. exact Cs. }
    assert (H1u : K1 * u <= 1) by (eapply Rle_trans; [apply Rmult_le_compat_r; [lra|exact K1K]|exact Hu]).
    assert (H1M : K1 * (X + tn) <= fmax prec emax) by (eapply Rle_trans; [apply Rmult_le_compat_r; [lra|exact K1K]|exact HM]).
    pose proof (section_err prec emax Hpe sz sf x r C X N Hr Pol HC (conj F1 (conj F2 (conj F3 (conj F4 F5)))) Cle F6 F7 Z0 Z1 Hx H1u H1M) as Sec.
    cbv zeta in Sec. fold K1 u tn in Sec. set (x1 := @gout _ (SFNum prec emax sz) sf (zi0 sf, zi1 sf) x) in *.
    set (X1 := K1 * (X + tn)) in *. assert (XX1 : X <= X1) by (unfold X1; nra).
    assert (Ktl : K2 * (X1 + tn) <= (2 * K1 * K2 + L * K1) * (X + tn)).
    { unfold X1. apply Rle_trans with (2 * K1 * K2 * (X + tn)); [|apply Rmult_le_compat_r; lra].
      replace (2 * K1 * K2 * (X + tn)) with (K2 * (K1 * (X + tn) + K1 * (X + tn))) by ring. apply Rmult_le_compat_l; [lra|].
      apply Rplus_le_compat_l. nra. }
    destruct (IH prec emax sz lf x1 X1 N Hpe Q2 Fl' ltac:(lra)) with (n := n) as (R3 & R4 & R5).
    + unfold small_states in *. eapply Forall_impl; [|exact St']. intros a [A1 A2]. split; lra.
    + intros k Hk. destruct (Sec k Hk) as (A1 & A2 & _). split; [exact A1|exact A2].
    + fold u. eapply Rle_trans; [apply Rmult_le_compat_r; [lra|exact K2K]|exact Hu].
    + fold tn. lra.
    + exact Hn.
    + fold u tn in R4, R5. change y with (@gcout _ (SFNum prec emax sz) lf x1 n). split; [exact R3|]. split; [lra|].
      cbn [map cout].
      change (sout (sos_val sf) (zi0 (sos_val sf), zi1 (sos_val sf)) (fun k => fval (x k))) with (sout (sos_val sf) (fval (zi0 sf), fval (zi1 sf)) (fun k => fval (x k))).
      set (ex := sout (sos_val sf) (fval (zi0 sf), fval (zi1 sf)) (fun k => fval (x k))) in *.
      assert (D : Rabs (cout (map sos_val lf) (fun k => fval (x1 k)) n - cout (map sos_val lf) ex n) <= L * (K1 * (u * X + tn))).
      { apply (Lip _ _ _ _ N); [exact Q2|apply Rmult_le_pos; [lra|]; assert (0 <= u * X) by nra; lra| |exact Hn]. intros k Hk. apply (Sec k Hk). }
      set (yf := fval (@gcout _ (SFNum prec emax sz) lf x1 n)) in *. set (c1 := cout (map sos_val lf) (fun k => fval (x1 k)) n) in *.
      replace (yf - cout (map sos_val lf) ex n) with ((yf - c1) + (c1 - cout (map sos_val lf) ex n)) by ring.
      eapply Rle_trans; [apply Rabs_triang|]. rewrite Rmult_plus_distr_r. apply Rplus_le_compat; [|eapply Rle_trans; [exact D|right; ring]].
      eapply Rle_trans; [exact R5|]. unfold X1. replace (2 * K1 * K2 * (u * X + tn)) with (K2 * (K1 * u * X + K1 * u * X + 2 * K1 * tn)) by ring.
      apply Rmult_le_compat_l; [lra|]. assert (K1 * u * tn <= 1 * tn) by (apply Rmult_le_compat_r; lra). assert (0 <= K1 * u * X) by (apply Rmult_le_pos; [nra|lra]).
      assert (1 * tn <= K1 * tn) by (apply Rmult_le_compat_r; lra). replace (u * (K1 * (X + tn))) with (K1 * u * X + K1 * u * tn) by ring. lra.
Qed.
