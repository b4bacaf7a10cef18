(** Rounding error of the running filter, relative to an envelope of the signal that may
    fade geometrically. *)
From Coq Require Import Reals ZArith SpecFloat List Lia Lra Psatz Bool.
From Flocq Require Import Core BinarySingleNaN.
From Verif Require Import Base Num M_Complex M_Linalg M_Filter S_Filter ListUtil Cx S_Design S_Stable P_Sosfilt P_Stable S_Float P_Float P_FloatStats P_FloatFilt.
Import ListNotations.
Local Open Scope R_scope.

(** An envelope: positive or zero, and falling by a factor of at most [rho] per sample. *)
Definition env (rho : R) (D : nat -> R) : Prop := forall n, 0 <= D n /\ rho * D n <= D (S n).
Lemma env_lin rho D a b : 0 <= rho <= 1 -> 0 <= a -> 0 <= b -> env rho D -> env rho (fun n => a * D n + b).
Proof.
  intros Hr Ha Hb HD n. destruct (HD n) as [D0 D1]. assert (0 <= a * D n) by (apply Rmult_le_pos; assumption). split; [lra|].
  assert (a * (rho * D n) <= a * D (S n)) by (apply Rmult_le_compat_l; assumption).
  assert (rho * b <= 1 * b) by (apply Rmult_le_compat_r; lra). replace (rho * (a * D n + b)) with (a * (rho * D n) + rho * b) by ring. lra.
Qed.

Lemma geo_env (p : C) (v e : nat -> C) r rho (D : nat -> R) N : cnorm p <= r -> r < rho <= 1 -> env rho D -> 
  cnorm (v 0%nat) <= / (rho - r) * D 0%nat ->
  (forall k, (k < N)%nat -> cnorm (e k) <= D k) -> (forall k, (k < N)%nat -> v (S k) = (p * v k + e k)%C) ->
  forall n, (n <= N)%nat -> cnorm (v n) <= / (rho - r) * D n.
Proof.
  intros Hp Hr HD H0 He Hv. pose proof (cnorm_pos p) as P0. set (h := / (rho - r)) in *.
  assert (Hh : 0 < h) by (apply Rinv_0_lt_compat; lra). assert (Eh : r * h + 1 = rho * h) by (unfold h; field; lra).
  induction n as [|n IH]; intros Hn; [exact H0|].
  rewrite Hv by lia. eapply Rle_trans; [apply cnorm_add|]. rewrite cnorm_mul. specialize (He n ltac:(lia)). specialize (IH ltac:(lia)).
  destruct (HD n) as [D0 D1]. pose proof (cnorm_pos (v n)) as V0.
  assert (A : cnorm p * cnorm (v n) <= r * (h * D n)) by (apply Rmult_le_compat; assumption).
  assert (B : h * (rho * D n) <= h * D (S n)) by (apply Rmult_le_compat_l; lra).
  replace (h * (rho * D n)) with (rho * h * D n) in B by ring. rewrite <- Eh in B. lra.
Qed.

Definition gainr (rho r : R) : R := 4 * (/ (rho - r)) ^ 2.
Lemma gainr_ge rho r : 0 <= r < rho -> rho <= 1 -> 4 <= gainr rho r.
Proof.
  intros H H1. assert (Q : 1 <= / (rho - r)) by (rewrite <- Rinv_1 at 1; apply Rinv_le_contravar; lra). unfold gainr. nra.
Qed.

Lemma disturbed_env r rho s (e0 e1 g0 g1 D : nat -> R) N : 0 <= r < rho -> rho <= 1 -> poles_within r s -> env rho D ->
  Rabs (e0 0%nat) <= D 0%nat -> Rabs (e1 0%nat) <= D 0%nat ->
  (forall k, (k < N)%nat -> Rabs (g0 k) <= D k /\ Rabs (g1 k) <= D k) ->
  (forall k, (k < N)%nat -> e0 (S k) = - a1 s * e0 k + e1 k + g0 k /\ e1 (S k) = - a2 s * e0 k + g1 k) ->
  forall n, (n <= N)%nat -> Rabs (e0 n) <= gainr rho r * D n /\ Rabs (e1 n) <= gainr rho r * D n.
Proof.
  intros Hr Hr1 [p [q [Hs [Hq [Pp Pq]]]]] HD Z0 Z1 Hg Hrec. set (h := / (rho - r)).
  assert (H1 : 1 <= h) by (unfold h; rewrite <- Rinv_1 at 1; apply Rinv_le_contravar; lra).
  pose proof (cnorm_pos p) as P0. pose proof (cnorm_pos q) as Q0.
  assert (D00 : 0 <= D 0%nat) by apply HD.
  assert (Ea1 : RtoC (a1 s) = (- (p + q))%C) by (rewrite Hs; cx).
  set (w := fun n => (p * RtoC (e0 n) + RtoC (e1 n))%C).
  assert (Ew : forall k, (k < N)%nat -> w (S k) = (p * w k + (p * RtoC (g0 k) + RtoC (g1 k)))%C).
  { intros k Hk. destruct (Hrec k Hk) as [R0 R1]. unfold w. rewrite R0, R1.
    replace (- a1 s * e0 k + e1 k + g0 k) with (e1 k + g0 k - a1 s * e0 k) by ring.
    replace (- a2 s * e0 k + g1 k) with (g1 k - a2 s * e0 k) by ring.
    rewrite !RtoC_sub, !RtoC_add, !RtoC_mul, Ea1, <- Hq. ring. }
  assert (Eu : forall k, (k < N)%nat -> RtoC (e0 (S k)) = (q * RtoC (e0 k) + (w k + RtoC (g0 k)))%C).
  { intros k Hk. destruct (Hrec k Hk) as [R0 _]. unfold w. rewrite R0.
    replace (- a1 s * e0 k + e1 k + g0 k) with (e1 k + g0 k - a1 s * e0 k) by ring.
    rewrite RtoC_sub, RtoC_add, RtoC_mul, Ea1. ring. }
  assert (hD : forall x, 0 <= x -> x <= h * x) by (intros x Hx; nra).
  assert (Bw : forall n, (n <= N)%nat -> cnorm (w n) <= h * (2 * D n + 0)).
  { apply (geo_env p w (fun k => p * RtoC (g0 k) + RtoC (g1 k))%C r rho (fun n => 2 * D n + 0) N); [exact Pp|lra|apply env_lin; [lra|lra|lra|exact HD]| | |exact Ew].
    - fold h. eapply Rle_trans; [|apply hD; lra]. unfold w. eapply Rle_trans; [apply cnorm_add|]. rewrite cnorm_mul, !cnorm_RtoC.
      pose proof (Rabs_pos (e0 0%nat)). assert (cnorm p * Rabs (e0 0%nat) <= 1 * Rabs (e0 0%nat)) by (apply Rmult_le_compat_r; lra). lra.
    - intros k Hk. destruct (Hg k Hk) as [G0 G1]. eapply Rle_trans; [apply cnorm_add|]. rewrite cnorm_mul, !cnorm_RtoC.
      pose proof (Rabs_pos (g0 k)). assert (cnorm p * Rabs (g0 k) <= 1 * Rabs (g0 k)) by (apply Rmult_le_compat_r; lra). lra. }
  assert (Be : forall n, (n <= N)%nat -> Rabs (e0 n) <= 3 * h ^ 2 * D n).
  { intros n Hn. rewrite <- cnorm_RtoC. replace (3 * h ^ 2 * D n) with (h * (3 * h * D n + 0)) by ring.
    apply (geo_env q (fun k => RtoC (e0 k)) (fun k => w k + RtoC (g0 k))%C r rho (fun n => 3 * h * D n + 0) N); [exact Pq|lra|apply env_lin; [lra|lra|lra|exact HD]| | |exact Eu|exact Hn].
    - rewrite cnorm_RtoC. fold h. assert (D 0%nat <= h * D 0%nat) by (apply hD; exact D00). eapply Rle_trans; [|apply hD; lra]. lra.
    - intros k Hk. eapply Rle_trans; [apply cnorm_add|]. rewrite cnorm_RtoC. specialize (Bw k ltac:(lia)). destruct (Hg k Hk) as [G0 _].
      destruct (HD k) as [Dk _]. pose proof (hD _ Dk). lra. }
  intros n Hn. unfold gainr. fold h.
  assert (h1 : 1 <= h ^ 2) by nra. assert (hD2 : forall x, 0 <= x -> x <= h ^ 2 * x) by (intros x Hx; nra).
  split.
  { eapply Rle_trans; [apply Be; exact Hn|]. destruct (HD n) as [Dn _]. pose proof (hD2 _ Dn). lra. }
  destruct n as [|n].
  - pose proof (hD2 _ D00). lra.
  - destruct (Hrec n ltac:(lia)) as [_ R1]. rewrite R1. eapply Rle_trans; [apply Rabs_triang|]. rewrite Rabs_mult, Rabs_Ropp.
    assert (A2 : Rabs (a2 s) <= rho).
    { rewrite <- cnorm_RtoC, <- Hq, cnorm_mul. assert (cnorm p * cnorm q <= 1 * cnorm q) by (apply Rmult_le_compat_r; lra). lra. }
    specialize (Be n ltac:(lia)). destruct (Hg n ltac:(lia)) as [_ G1]. destruct (HD n) as [Dn Dn1].
    assert (B1 : Rabs (a2 s) * Rabs (e0 n) <= rho * (3 * h ^ 2 * D n)) by (apply Rmult_le_compat; try apply Rabs_pos; assumption).
    assert (B2 : 3 * h ^ 2 * (rho * D n) <= 3 * h ^ 2 * D (S n)) by (apply Rmult_le_compat_l; [lra|exact Dn1]).
    assert (B3 : 1 <= h * rho).
    { unfold h. apply Rmult_le_reg_l with (rho - r); [lra|]. rewrite <- Rmult_assoc, Rinv_r by lra. lra. }
    assert (B4 : 1 * D n <= h * rho * D n) by (apply Rmult_le_compat_r; lra).
    assert (B5 : h * (rho * D n) <= h * D (S n)) by (apply Rmult_le_compat_l; lra).
    assert (B6 : h * D (S n) <= h ^ 2 * D (S n)) by (apply Rmult_le_compat_r; [apply HD|nra]).
    lra.
Qed.

Section Err.
Variables prec emax : Z.
Hypothesis Hpe : (1 < prec < emax)%Z.
Notation u := (uround prec).
Notation FM := (fmax prec emax).
Notation tn := (ftiny prec emax).
Notation fin := (finite prec emax).
Notation "a ⊕ b" := (SFadd prec emax a b) (at level 50, left associativity).
Notation "a ⊖ b" := (SFsub prec emax a b) (at level 50, left associativity).
Notation "a ⊗ b" := (SFmul prec emax a b) (at level 40, left associativity).

(** ** A whole section *)
Definition Kenv (rho r C : R) : R := 768 * gainr rho r ^ 2 * C ^ 5.

Lemma section_env (sz : bool) (s : Sos spec_float) (x : nat -> spec_float) rho r C (X : nat -> R) N :
  let NF := SFNum prec emax sz in
  0 <= r < rho -> rho <= 1 -> poles_within r (sos_val s) -> 1 <= C -> coef_fin prec emax s -> coef_le C (sos_val s) -> env rho X ->
  fin (zi0 s) -> fin (zi1 s) -> Rabs (fval (zi0 s)) <= X 0%nat -> Rabs (fval (zi1 s)) <= X 0%nat ->
  (forall k, (k < N)%nat -> fin (x k) /\ Rabs (fval (x k)) <= X k) ->
  Kenv rho r C * u <= 1 -> (forall k, (k < N)%nat -> Kenv rho r C * (X k + tn) <= FM) ->
  forall n, (n < N)%nat ->
    fin (@gout _ NF s (zi0 s, zi1 s) x n) /\
    Rabs (fval (@gout _ NF s (zi0 s, zi1 s) x n)) <= Kenv rho r C * (X n + tn) /\
    Rabs (fval (@gout _ NF s (zi0 s, zi1 s) x n) -
          sout (sos_val s) (fval (zi0 s), fval (zi1 s)) (fun k => fval (x k)) n) <= Kenv rho r C * (u * X n + tn).
Proof.
  intros NF Hr Hr1 Hpol HC Cf Cc HE Fz0 Fz1 Hz0 Hz1 Hx HKu HKM.
  pose proof (u_pos prec) as U. pose proof (u14 prec emax Hpe) as U4. pose proof (tiny_pos prec emax) as T.
  pose proof (gainr_ge rho r Hr Hr1) as HG. set (G := gainr rho r) in *.
  assert (X0 : forall k, 0 <= X k) by (intros k; apply HE).
  set (Y := fun k => X k + tn). assert (Y0 : forall k, 0 < Y k) by (intros k; unfold Y; specialize (X0 k); lra).
  set (M := fun k => 8 * G * C ^ 2 * Y k). unfold Kenv in *. fold G in HKu, HKM |- *.
  assert (C1 : C <= C ^ 2) by nra. assert (C2 : 1 <= C ^ 2) by nra. assert (C3 : C ^ 2 <= C ^ 3) by (cbn; nra).
  assert (C4 : C ^ 3 <= C ^ 4) by (cbn [pow] in *; nra). assert (C5 : C ^ 4 <= C ^ 5).
  { replace (C ^ 5) with (C * C ^ 4) by ring. assert (0 <= C ^ 4) by lra. nra. }
  assert (G2 : 4 * G <= G ^ 2) by nra.
  assert (GC : forall a b, 0 <= a -> a * G <= b * G ^ 2 -> True) by auto.
  assert (YM : forall k, 32 * Y k <= M k).
  { intros k. pose proof (Y0 k) as Yk. unfold M. assert (1 * Y k <= C ^ 2 * Y k) by (apply Rmult_le_compat_r; lra). assert (0 <= C ^ 2 * Y k) by nra.
    replace (8 * G * C ^ 2 * Y k) with (8 * (G * (C ^ 2 * Y k))) by ring. assert (4 * (C ^ 2 * Y k) <= G * (C ^ 2 * Y k)) by (apply Rmult_le_compat_r; lra). lra. }
  assert (GG : forall k a, (0 <= a)%R -> k <= 5 -> True) by auto. clear GG GC.
  (* 20 C^2 M <= FM *)
  assert (HM20 : forall k, (k < N)%nat -> 20 * C ^ 2 * M k <= FM).
  { intros k Hk. eapply Rle_trans; [|exact (HKM k Hk)]. unfold M. replace (20 * C ^ 2 * (8 * G * C ^ 2 * Y k)) with (160 * G * C ^ 4 * Y k) by ring.
    apply Rmult_le_compat_r; [pose proof (Y0 k); unfold Y in *; lra|]. replace (160 * G * C ^ 4) with (160 * (G * C ^ 4)) by ring.
    replace (768 * G ^ 2 * C ^ 5) with (768 * (G ^ 2 * C ^ 5)) by ring.
    assert (G * C ^ 4 <= G ^ 2 * C ^ 5) by (apply Rmult_le_compat; lra). assert (0 <= G * C ^ 4) by nra. lra. }
  (* 128 G C^3 u <= 1 *)
  assert (Hu : 128 * G * C ^ 3 * u <= 1).
  { eapply Rle_trans; [|exact HKu]. apply Rmult_le_compat_r; [lra|].
    replace (128 * G * C ^ 3) with (128 * (G * C ^ 3)) by ring. replace (768 * G ^ 2 * C ^ 5) with (768 * (G ^ 2 * C ^ 5)) by ring.
    assert (G * C ^ 3 <= G ^ 2 * C ^ 5) by (apply Rmult_le_compat; lra). assert (0 <= G * C ^ 3) by nra. lra. }
  set (e := fun k => 32 * u * C ^ 2 * M k + 2 * tn). assert (M0 : forall k, 0 < M k) by (intros k; pose proof (YM k); pose proof (Y0 k); lra).
  assert (e0 : forall k, 0 <= e k) by (intros k; unfold e; pose proof (M0 k); assert (0 <= u * C ^ 2 * M k) by (apply Rmult_le_pos; [apply Rmult_le_pos; lra|lra]); lra).
  assert (EM : forall a b, 0 <= a -> 0 <= b -> env rho (fun k => a * X k + b)) by (intros a b Ha Hb; apply env_lin; [lra|exact Ha|exact Hb|exact HE]).
  assert (u0 : 0 <= u) by lra.
  assert (uG : 0 <= u * G) by (apply Rmult_le_pos; lra). assert (uGC : 0 <= u * G * C ^ 4) by (apply Rmult_le_pos; lra).
  (* the disturbed recursion: g = d1 - a1 d0, bounded by (1+C) e <= 2 C e *)
  set (st := fun n => @gst _ NF s (zi0 s, zi1 s) x n). set (yy := fun n => @gout _ NF s (zi0 s, zi1 s) x n).
  assert (Cb : forall c d k, Rabs c <= C -> Rabs d <= e k -> Rabs (c * d) <= C * e k).
  { intros c d k H1 H2. rewrite Rabs_mult. apply Rmult_le_compat; try apply Rabs_pos; assumption. }
  set (sv := sos_val s) in *.
  assert (Ce : forall k, e k <= C * e k) by (intros k; pose proof (e0 k); nra).
  assert (CX : forall c d k, Rabs c <= C -> Rabs d <= X k -> Rabs (c * d) <= C * X k).
  { intros c d k H1 H2. rewrite Rabs_mult. apply Rmult_le_compat; try apply Rabs_pos; assumption. }
  assert (De : forall k, 2 * C * e k = 64 * G * C ^ 3 * u * (8 * C ^ 2 * Y k) + 4 * C * tn) by (intros k; unfold e, M; ring).
  assert (Ge : forall k, G * (2 * C * e k) <= M k / 2 + 4 * G * C * tn).
  { intros k. pose proof (Y0 k) as Yk. rewrite De. replace (M k / 2) with (G * (/ 2 * (8 * C ^ 2 * Y k))) by (unfold M; field).
    replace (4 * G * C * tn) with (G * (4 * C * tn)) by ring. rewrite <- Rmult_plus_distr_l. apply Rmult_le_compat_l; [lra|].
    apply Rplus_le_compat_r. apply Rmult_le_compat_r; [nra|lra]. }
  assert (Inv : forall n, (n <= N)%nat -> fin (fst (st n)) /\ fin (snd (st n)) /\ Rabs (fval (fst (st n))) <= M n /\ Rabs (fval (snd (st n))) <= M n).
  { intros n. induction n as [n IH] using lt_wf_ind. intros Hn.
    set (E0 := fun k => fval (fst (st k))). set (E1 := fun k => fval (snd (st k))).
    assert (Step : forall k, (k < n)%nat -> let y := fval (yy k) in
      fin (fst (st (S k))) /\ fin (snd (st (S k))) /\
      Rabs (y - (b0 sv * fval (x k) + E0 k)) <= e k /\
      Rabs (E0 (S k) - (b1 sv * fval (x k) - a1 sv * y + E1 k)) <= e k /\
      Rabs (E1 (S k) - (b2 sv * fval (x k) - a2 sv * y)) <= e k).
    { intros k Hk. destruct (IH k Hk ltac:(lia)) as (F0 & F1 & B0 & B1). destruct (Hx k ltac:(lia)) as [Fx Bx].
      destruct (step_ok prec emax Hpe s (x k) _ _ C (M k) Cf Cc HC Fx F0 F1 ltac:(pose proof (YM k); pose proof (X0 k); unfold Y in *; lra) B0 B1 ltac:(pose proof (YM k); pose proof (X0 k); unfold Y in *; lra) (HM20 k ltac:(lia))) as (S1 & S2 & S3 & S4 & S5 & S6 & S7).
      cbv zeta in S1, S2, S3, S4, S5, S6, S7. split; [exact S2|]. split; [exact S3|]. split; [exact S5|]. split; [exact S6|exact S7]. }
    destruct n as [|n'].
    - cbn. split; [exact Fz0|]. split; [exact Fz1|]. pose proof (YM 0%nat). pose proof (X0 0%nat). unfold Y in *. split; lra.
    - destruct (Step n' ltac:(lia)) as (Ff0 & Ff1 & _). split; [exact Ff0|]. split; [exact Ff1|].
      set (g0 := fun k => E0 (S k) - (- a1 sv * E0 k + E1 k)). set (g1 := fun k => E1 (S k) - (- a2 sv * E0 k)).
      destruct Cc as (Cb0 & Cb1 & Cb2 & Ca1 & Ca2).
      assert (Gb : forall k, (k < S n')%nat -> Rabs (g0 k) <= 2 * C ^ 2 * X k + 2 * C * e k /\ Rabs (g1 k) <= 2 * C ^ 2 * X k + 2 * C * e k).
      { intros k Hk. destruct (Step k Hk) as (_ & _ & D0 & D1 & D2). cbv zeta in D0, D1, D2. destruct (Hx k ltac:(lia)) as [_ Bx].
        set (d0 := fval (yy k) - (b0 sv * fval (x k) + E0 k)) in *. set (d1 := E0 (S k) - (b1 sv * fval (x k) - a1 sv * fval (yy k) + E1 k)) in *.
        set (d2 := E1 (S k) - (b2 sv * fval (x k) - a2 sv * fval (yy k))) in *.
        assert (CCX : forall c, Rabs c <= C -> Rabs (c * (b0 sv * fval (x k))) <= C ^ 2 * X k).
        { intros c Hc. rewrite Rabs_mult. replace (C ^ 2 * X k) with (C * (C * X k)) by ring. apply Rmult_le_compat; try apply Rabs_pos; [exact Hc|apply CX; assumption]. }
        assert (XX : C * X k <= C ^ 2 * X k) by (apply Rmult_le_compat_r; [apply X0|lra]). pose proof (Ce k) as Cek. pose proof (e0 k) as e0k.
        assert (N0 : g0 k = b1 sv * fval (x k) + (- (a1 sv * (b0 sv * fval (x k))) + (- (a1 sv * d0) + d1))) by (unfold g0, d0, d1; ring).
        assert (N1 : g1 k = b2 sv * fval (x k) + (- (a2 sv * (b0 sv * fval (x k))) + (- (a2 sv * d0) + d2))) by (unfold g1, d0, d2; ring).
        pose proof (CX _ _ k Cb1 Bx). pose proof (CX _ _ k Cb2 Bx). pose proof (CCX _ Ca1). pose proof (CCX _ Ca2). pose proof (Cb _ _ k Ca1 D0). pose proof (Cb _ _ k Ca2 D0).
        split; [rewrite N0|rewrite N1]; (eapply Rle_trans; [apply Rabs_triang|]; eapply Rle_trans; [apply Rplus_le_compat_l, Rabs_triang|];
          eapply Rle_trans; [apply Rplus_le_compat_l, Rplus_le_compat_l, Rabs_triang|]; rewrite !Rabs_Ropp; lra). }
      set (al := 2 * C ^ 2 + 512 * (u * G * C ^ 4) * C). set (be := (512 * (u * G * C ^ 4) * C + 4 * C) * tn).
      assert (Dal : forall k, 2 * C ^ 2 * X k + 2 * C * e k = al * X k + be) by (intros k; unfold al, be, e, M, Y; ring).
      assert (al0 : 0 <= al) by (unfold al; assert (0 <= u * G * C ^ 4 * C) by (apply Rmult_le_pos; lra); lra).
      assert (be0 : 0 <= be) by (unfold be; apply Rmult_le_pos; [assert (0 <= u * G * C ^ 4 * C) by (apply Rmult_le_pos; lra); lra|lra]).
      assert (Ini : X 0%nat <= al * X 0%nat + be).
      { rewrite <- Dal. pose proof (X0 0%nat). pose proof (e0 0%nat). assert (0 <= C * e 0%nat) by (apply Rmult_le_pos; lra).
        assert (1 * X 0%nat <= C ^ 2 * X 0%nat) by (apply Rmult_le_compat_r; lra). lra. }
      destruct (disturbed_env r rho sv E0 E1 g0 g1 (fun k => al * X k + be) (S n') Hr Hr1 Hpol) with (n := S n') as [R0 R1].
      + apply EM; assumption.
      + unfold E0. cbn. lra.
      + unfold E1. cbn. lra.
      + intros k Hk. rewrite <- Dal. apply Gb. exact Hk.
      + intros k Hk. unfold g0, g1. split; ring.
      + lia.
      + fold G in R0, R1. rewrite <- Dal in R0, R1. set (n1 := S n') in *. pose proof (Ge n1) as Gn. pose proof (X0 n1) as Xn.
        assert (Fin : G * (2 * C ^ 2 * X n1 + 2 * C * e n1) <= M n1).
        { replace (G * (2 * C ^ 2 * X n1 + 2 * C * e n1)) with (G * (2 * C ^ 2 * X n1) + G * (2 * C * e n1)) by ring.
          assert (G * (2 * C ^ 2 * X n1) + 4 * G * C * tn <= M n1 / 2); [|lra].
          replace (M n1 / 2) with (G * (4 * C ^ 2 * X n1 + 4 * C ^ 2 * tn)) by (unfold M, Y; field).
          replace (G * (2 * C ^ 2 * X n1) + 4 * G * C * tn) with (G * (2 * C ^ 2 * X n1 + 4 * C * tn)) by ring.
          apply Rmult_le_compat_l; [lra|]. assert (0 <= C ^ 2 * X n1) by (apply Rmult_le_pos; lra).
          assert (C * tn <= C ^ 2 * tn) by (apply Rmult_le_compat_r; [lra|nra]). lra. }
        unfold E0, E1 in R0, R1. split; lra. }
  intros n Hn.
  destruct (Inv n ltac:(lia)) as (F0 & F1 & B0 & B1). destruct (Hx n Hn) as [Fx Bx].
  destruct (step_ok prec emax Hpe s (x n) _ _ C (M n) Cf Cc HC Fx F0 F1 ltac:(pose proof (YM n); pose proof (X0 n); unfold Y in *; lra) B0 B1 ltac:(pose proof (YM n); pose proof (X0 n); unfold Y in *; lra) (HM20 n ltac:(lia))) as (S1 & _ & _ & S4 & S5 & _ & _).
  cbv zeta in S1, S4, S5. split; [exact S1|].
  split.
  { change (fval (@gout _ NF s (zi0 s, zi1 s) x n)) with (fval (b0 s ⊗ x n ⊕ fst (st n))).
    eapply Rle_trans; [exact S4|]. unfold M. replace (5 * C * (8 * G * C ^ 2 * Y n)) with (40 * (G * C ^ 3) * Y n) by ring. change (X n + tn) with (Y n).
    apply Rmult_le_compat_r; [pose proof (Y0 n); lra|]. replace (768 * G ^ 2 * C ^ 5) with (768 * (G ^ 2 * C ^ 5)) by ring.
    assert (G * C ^ 3 <= G ^ 2 * C ^ 5) by (apply Rmult_le_compat; lra). assert (0 <= G * C ^ 3) by nra. lra. }
  (* error against the exact section *)
  set (E0 := fun k => fval (fst (st k)) - fst (sst sv (fval (zi0 s), fval (zi1 s)) (fun k => fval (x k)) k)).
  set (E1 := fun k => fval (snd (st k)) - snd (sst sv (fval (zi0 s), fval (zi1 s)) (fun k => fval (x k)) k)).
  set (g0 := fun k => E0 (S k) - (- a1 sv * E0 k + E1 k)). set (g1 := fun k => E1 (S k) - (- a2 sv * E0 k)).
  assert (Gb : forall k, (k < N)%nat -> Rabs (g0 k) <= 2 * C * e k /\ Rabs (g1 k) <= 2 * C * e k).
  { intros k Hk. destruct (Inv k ltac:(lia)) as (F0' & F1' & B0' & B1'). destruct (Hx k Hk) as [Fx' Bx'].
    destruct (step_ok prec emax Hpe s (x k) _ _ C (M k) Cf Cc HC Fx' F0' F1' ltac:(pose proof (YM k); pose proof (X0 k); unfold Y in *; lra) B0' B1' ltac:(pose proof (YM k); pose proof (X0 k); unfold Y in *; lra) (HM20 k ltac:(lia))) as (_ & _ & _ & _ & D0 & D1 & D2).
    cbv zeta in D0, D1, D2. destruct Cc as (Cb0 & Cb1 & Cb2 & Ca1 & Ca2).
    change (fval (b0 s)) with (b0 sv) in *. change (fval (b1 s)) with (b1 sv) in *. change (fval (b2 s)) with (b2 sv) in *.
    change (fval (a1 s)) with (a1 sv) in *. change (fval (a2 s)) with (a2 sv) in *.
    set (y := fval (b0 s ⊗ x k ⊕ fst (st k))) in *.
    fold (st k) in D0, D1, D2. change (32 * u * C ^ 2 * M k + 2 * tn) with (e k) in D0, D1, D2. pose proof (Ce k) as Cek. pose proof (e0 k) as e0k.
    set (d0 := y - (b0 sv * fval (x k) + fval (fst (st k)))) in *.
    change (b1 s ⊗ x k ⊖ a1 s ⊗ (b0 s ⊗ x k ⊕ fst (st k)) ⊕ snd (st k)) with (fst (st (S k))) in D1.
    change (b2 s ⊗ x k ⊖ a2 s ⊗ (b0 s ⊗ x k ⊕ fst (st k))) with (snd (st (S k))) in D2.
    set (d1 := fval (fst (st (S k))) - (b1 sv * fval (x k) - a1 sv * y + fval (snd (st k)))) in *.
    set (d2 := fval (snd (st (S k))) - (b2 sv * fval (x k) - a2 sv * y)) in *.
    assert (N0 : g0 k = - (a1 sv * d0) + d1) by (unfold g0, E0, E1, d0, d1; cbn [sst fst snd]; ring).
    assert (N1 : g1 k = - (a2 sv * d0) + d2) by (unfold g1, E0, E1, d0, d2; cbn [sst fst snd]; ring).
    pose proof (Cb _ _ k Ca1 D0). pose proof (Cb _ _ k Ca2 D0).
    split; [rewrite N0|rewrite N1]; (eapply Rle_trans; [apply Rabs_triang|]; rewrite Rabs_Ropp; lra). }
  set (al := 512 * (u * G * C ^ 4) * C). set (be := (512 * (u * G * C ^ 4) * C + 4 * C) * tn).
  assert (Dal : forall k, 2 * C * e k = al * X k + be) by (intros k; unfold al, be, e, M, Y; ring).
  assert (al0 : 0 <= al) by (unfold al; assert (0 <= u * G * C ^ 4 * C) by (apply Rmult_le_pos; lra); lra).
  assert (be0 : 0 <= be) by (unfold be; apply Rmult_le_pos; [assert (0 <= u * G * C ^ 4 * C) by (apply Rmult_le_pos; lra); lra|lra]).
  assert (Ini : 0 <= al * X 0%nat + be) by (pose proof (X0 0%nat); assert (0 <= al * X 0%nat) by (apply Rmult_le_pos; assumption); lra).
  destruct (disturbed_env r rho sv E0 E1 g0 g1 (fun k => al * X k + be) N Hr Hr1 Hpol) with (n := n) as [R0 _].
  - apply EM; assumption.
  - unfold E0. cbn. rewrite Rminus_diag_eq, Rabs_R0 by reflexivity. exact Ini.
  - unfold E1. cbn. rewrite Rminus_diag_eq, Rabs_R0 by reflexivity. exact Ini.
  - intros k Hk. rewrite <- Dal. apply Gb. exact Hk.
  - intros k Hk. unfold g0, g1. split; ring.
  - lia.
  - fold G in R0. rewrite <- Dal in R0. pose proof (e0 n) as en0.
    set (y := fval (b0 s ⊗ x n ⊕ fst (st n))) in *.
    assert (Q0 : fval (yy n) - sout sv (fval (zi0 s), fval (zi1 s)) (fun k => fval (x k)) n =
      (y - (fval (b0 s) * fval (x n) + fval (fst (st n)))) + E0 n).
    { unfold sout, E0. change (fval (b0 s)) with (b0 sv). change (fval (yy n)) with y. ring. }
    fold (yy n). rewrite Q0. eapply Rle_trans; [apply Rabs_triang|].
    apply Rle_trans with (e n + G * (2 * C * e n)); [apply Rplus_le_compat; [exact S5|exact R0]|].
    (* e (1 + 2GC) <= K (uX + tn) *)
    assert (K1 : e n + G * (2 * C * e n) <= 3 * G * C * e n).
    { assert (1 * e n <= (G * C) * e n) by (apply Rmult_le_compat_r; [lra|nra]). lra. }
    eapply Rle_trans; [exact K1|]. unfold e, M, Y.
    replace (3 * G * C * (32 * u * C ^ 2 * (8 * G * C ^ 2 * (X n + tn)) + 2 * tn)) with
      (768 * G ^ 2 * C ^ 5 * (u * X n) + (768 * G ^ 2 * C ^ 5 * u + 6 * G * C) * tn) by ring.
    rewrite Rmult_plus_distr_l. apply Rplus_le_compat_l. apply Rmult_le_compat_r; [lra|].
    assert (Q1 : 6 * G * C <= 384 * G ^ 2 * C ^ 5).
    { replace (6 * G * C) with (6 * (G * C)) by ring. replace (384 * G ^ 2 * C ^ 5) with (384 * (G ^ 2 * C ^ 5)) by ring.
      assert (G * C <= G ^ 2 * C ^ 5) by (apply Rmult_le_compat; lra). assert (0 <= G * C) by nra. lra. }
    assert (Q2 : 768 * G ^ 2 * C ^ 5 * u <= 384 * G ^ 2 * C ^ 5).
    { assert (0 <= G ^ 2 * C ^ 5) by (apply Rmult_le_pos; lra). replace (768 * G ^ 2 * C ^ 5 * u) with (u * (768 * (G ^ 2 * C ^ 5))) by ring.
      apply Rle_trans with (/ 4 * (768 * (G ^ 2 * C ^ 5))); [apply Rmult_le_compat_r; lra|lra]. }
    lra.
Qed.
End Err.

(** ** The cascade *)
Definition Lenv (rho r C : R) : R := C + gainr rho r * (2 * C ^ 2).
Lemma section_lip_env s rho r C : 0 <= r < rho -> rho <= 1 -> poles_within r s -> 1 <= C -> coef_le C s ->
  forall z x x' E N, env rho E -> (forall k, (k < N)%nat -> Rabs (x k - x' k) <= E k) ->
  forall n, (n < N)%nat -> Rabs (sout s z x n - sout s z x' n) <= Lenv rho r C * E n.
Proof.
  intros Hr Hr1 Hp HC (Cb0 & Cb1 & Cb2 & Ca1 & Ca2) z x x' E N HE Hx n Hn.
  set (e0 := fun k => fst (sst s z x k) - fst (sst s z x' k)). set (e1 := fun k => snd (sst s z x k) - snd (sst s z x' k)).
  set (g0 := fun k => b1 s * (x k - x' k) - a1 s * (b0 s * (x k - x' k))).
  set (g1 := fun k => b2 s * (x k - x' k) - a2 s * (b0 s * (x k - x' k))).
  assert (E00 : forall k, 0 <= E k) by (intros k; apply HE).
  assert (CC : C <= C ^ 2) by nra.
  assert (B1 : forall c k, (k < N)%nat -> Rabs c <= C -> Rabs (c * (x k - x' k)) <= C * E k).
  { intros c k Hk Hc. rewrite Rabs_mult. apply Rmult_le_compat; try apply Rabs_pos; [exact Hc|apply Hx; exact Hk]. }
  assert (B2 : forall c k, (k < N)%nat -> Rabs c <= C -> Rabs (c * (b0 s * (x k - x' k))) <= C ^ 2 * E k).
  { intros c k Hk Hc. rewrite Rabs_mult. replace (C ^ 2 * E k) with (C * (C * E k)) by ring. apply Rmult_le_compat; try apply Rabs_pos; [exact Hc|apply B1; assumption]. }
  assert (B3 : forall c d k, (k < N)%nat -> Rabs c <= C -> Rabs d <= C -> Rabs (c * (x k - x' k) - d * (b0 s * (x k - x' k))) <= 2 * C ^ 2 * E k + 0).
  { intros c d k Hk Hc Hd. unfold Rminus at 1. eapply Rle_trans; [apply Rabs_triang|]. rewrite Rabs_Ropp.
    pose proof (B1 c k Hk Hc). pose proof (B2 d k Hk Hd). assert (C * E k <= C ^ 2 * E k) by (apply Rmult_le_compat_r; [apply E00|exact CC]). lra. }
  assert (I0 : 0 <= 2 * C ^ 2 * E 0%nat + 0) by (pose proof (E00 0%nat); assert (0 <= C ^ 2 * E 0%nat) by (apply Rmult_le_pos; lra); lra).
  destruct (disturbed_env r rho s e0 e1 g0 g1 (fun k => 2 * C ^ 2 * E k + 0) N Hr Hr1 Hp) with (n := n) as [R0 _].
  - apply env_lin; [lra|lra|lra|exact HE].
  - unfold e0. cbn [sst]. rewrite Rminus_diag_eq, Rabs_R0 by reflexivity. exact I0.
  - unfold e1. cbn [sst]. rewrite Rminus_diag_eq, Rabs_R0 by reflexivity. exact I0.
  - intros k Hk. split; apply B3; assumption.
  - intros k Hk. unfold e0, e1, g0, g1. cbn [sst fst snd]. split; ring.
  - lia.
  - unfold sout. replace (b0 s * x n + fst (sst s z x n) - (b0 s * x' n + fst (sst s z x' n))) with (b0 s * (x n - x' n) + e0 n) by (unfold e0; ring).
    eapply Rle_trans; [apply Rabs_triang|]. unfold Lenv. pose proof (B1 _ n Hn Cb0). lra.
Qed.
Lemma Lenv_pos rho r C : 1 <= C -> 0 <= Lenv rho r C.
Proof. intros HC. unfold Lenv, gainr. assert (0 <= (/ (rho - r)) ^ 2) by (apply pow2_ge_0). assert (0 <= C ^ 2) by nra. assert (0 <= 4 * (/ (rho - r)) ^ 2 * (2 * C ^ 2)) by (apply Rmult_le_pos; lra). lra. Qed.
Lemma env_scale rho E L : 0 <= L -> env rho E -> env rho (fun n => L * E n).
Proof. intros HL HE n. destruct (HE n) as [A B]. split; [apply Rmult_le_pos; assumption|]. replace (rho * (L * E n)) with (L * (rho * E n)) by ring. apply Rmult_le_compat_l; assumption. Qed.
Lemma cascade_lip_env l rho r : 0 <= r < rho -> rho <= 1 -> Forall (poles_within r) l -> exists L, 0 <= L /\ forall l0 x x' E N, same_coefs l0 l -> env rho E ->
  (forall k, (k < N)%nat -> Rabs (x k - x' k) <= E k) -> forall n, (n < N)%nat -> Rabs (cout l0 x n - cout l0 x' n) <= L * E n.
Proof.
  intros Hr Hr1 HF. induction HF as [|s l Hs HF IH].
  - exists 1. split; [lra|]. intros l0 x x' E N E0 HE Hx n Hn. destruct l0; [|discriminate E0]. cbn [cout]. rewrite Rmult_1_l. apply Hx; exact Hn.
  - destruct IH as [L2 [HL2 IH]]. destruct (coef_le_ex s) as [C [HC Cs]]. pose proof (section_lip_env s rho r C Hr Hr1 Hs HC Cs) as B.
    pose proof (Lenv_pos rho r C HC) as HL1. set (L1 := Lenv rho r C) in *. exists (L2 * L1). split; [apply Rmult_le_pos; assumption|].
    intros l0 x x' E N E0 HE Hx n Hn. destruct l0 as [|s0 l0]; [discriminate E0|]. unfold same_coefs in E0. cbn [map] in E0. injection E0 as Q3 Q4 Q5 Q6 Q7 Q8 Q2.
    cbn [cout]. rewrite Rmult_assoc. apply (IH l0 _ _ (fun n => L1 * E n) N); [exact Q2|apply env_scale; assumption| |exact Hn].
    intros k Hk. rewrite !(sout_coefs s0 s) by (unfold coefs; congruence). apply (B _ _ _ E N); assumption.
Qed.
Lemma Kenv_ge rho r C : 0 <= r < rho -> rho <= 1 -> 1 <= C -> 1 <= Kenv rho r C.
Proof.
  intros Hr Hr1 HC. unfold Kenv. pose proof (gainr_ge rho r Hr Hr1) as HG. assert (1 <= gainr rho r ^ 2) by nra. assert (1 <= C ^ 5) by (apply pow_R1_Rle; exact HC).
  assert (1 <= gainr rho r ^ 2 * C ^ 5) by (rewrite <- (Rmult_1_l 1); apply Rmult_le_compat; lra). lra.
Qed.
Lemma cascade_env (l : list (Sos R)) (rho r : R) : 0 <= r < rho -> rho <= 1 -> Forall (poles_within r) l -> exists K, 1 <= K /\
  forall prec emax sz lf (x : nat -> spec_float) (X : nat -> R) N, (1 < prec < emax)%Z -> same_coefs (map sos_val lf) l -> Forall (finite_sos prec emax) lf ->
  env rho X -> small_states (X 0%nat) lf -> (forall k, (k < N)%nat -> finite prec emax (x k) /\ Rabs (fval (x k)) <= X k) ->
  K * uround prec <= 1 -> (forall k, (k < N)%nat -> K * (X k + ftiny prec emax) <= fmax prec emax) ->
  forall n, (n < N)%nat -> let y := @gcout _ (SFNum prec emax sz) lf x n in
    finite prec emax y /\ Rabs (fval y) <= K * (X n + ftiny prec emax) /\
    Rabs (fval y - cout (map sos_val lf) (fun k => fval (x k)) n) <= K * (uround prec * X n + ftiny prec emax).
Proof.
  intros Hr Hr1 HF. induction HF as [|s l Hs HF IH].
  - exists 1. split; [lra|]. intros prec emax sz lf x X N Hpe E0 Fl HX St Hx Hu HM n Hn y. destruct lf; [|discriminate E0]. cbn [gcout map cout] in *. unfold y.
    destruct (Hx n Hn) as [Fx Bx]. pose proof (tiny_pos prec emax) as T. pose proof (u_pos prec) as U. destruct (HX n) as [X0 _]. split; [exact Fx|]. split; [lra|].
    rewrite Rminus_diag_eq, Rabs_R0 by reflexivity. assert (0 <= uround prec * X n) by nra. lra.
  - destruct IH as [K2 [HK2 IH]]. destruct (coef_le_ex s) as [C [HC Cs]]. pose proof (Kenv_ge rho r C Hr Hr1 HC) as HK1. set (K1 := Kenv rho r C) in *.
    destruct (cascade_lip_env l rho r Hr Hr1 HF) as [L [HL Lip]].
    exists (2 * K1 * K2 + L * K1).
    assert (P12 : 1 <= K1 * K2) by nra. assert (LK : 0 <= L * K1) by nra.
    split; [lra|]. intros prec emax sz lf x X N Hpe E0 Fl HX St Hx Hu HM n Hn y.
    destruct lf as [|sf lf]; [discriminate E0|]. unfold same_coefs in E0. cbn [map] in E0. injection E0 as Qb0 Qb1 Qb2 Qa0 Qa1 Qa2 Q2.
    inversion Fl as [|? ? Fs Fl']; subst. inversion St as [|? ? [Z0 Z1] St']; subst.
    pose proof (tiny_pos prec emax) as T. pose proof (u_pos prec) as U. set (u := uround prec) in *. set (tn := ftiny prec emax) in *.
    assert (X0 : forall k, 0 <= X k) by (intros k; apply HX).
    assert (K1 * 1 <= K1 * K2) by (apply Rmult_le_compat_l; lra). assert (1 * K2 <= K1 * K2) by (apply Rmult_le_compat_r; lra).
    assert (K1K : K1 <= 2 * K1 * K2 + L * K1) by lra. assert (K2K : K2 <= 2 * K1 * K2 + L * K1) by lra.
    unfold finite_sos in Fs. inversion Fs as [|? ? F1 Fs1]; subst. inversion Fs1 as [|? ? F2 Fs2]; subst. inversion Fs2 as [|? ? F3 Fs3]; subst.
    inversion Fs3 as [|? ? F4 Fs4]; subst. inversion Fs4 as [|? ? F5 Fs5]; subst. inversion Fs5 as [|? ? F6 Fs6]; subst. inversion Fs6 as [|? ? F7 Fs7]; subst.
    assert (Pol : poles_within r (sos_val sf)) by (unfold poles_within; cbn [sos_val M_Filter.a1 M_Filter.a2]; rewrite Qa1, Qa2; exact Hs).
    assert (Cle : coef_le C (sos_val sf)).
    { unfold coef_le in *. cbn [sos_val M_Filter.b0 M_Filter.b1 M_Filter.b2 M_Filter.a1 M_Filter.a2]. rewrite Qb0, Qb1, Qb2, Qa1, Qa2. exact Cs. }
    assert (H1u : K1 * u <= 1) by (eapply Rle_trans; [apply Rmult_le_compat_r; [lra|exact K1K]|exact Hu]).
    assert (H1M : forall k, (k < N)%nat -> K1 * (X k + tn) <= fmax prec emax).
    { intros k Hk. specialize (X0 k). eapply Rle_trans; [apply Rmult_le_compat_r; [lra|exact K1K]|exact (HM k Hk)]. }
    pose proof (section_env prec emax Hpe sz sf x rho r C X N Hr Hr1 Pol HC (conj F1 (conj F2 (conj F3 (conj F4 F5)))) Cle HX F6 F7 Z0 Z1 Hx H1u H1M) as Sec.
    cbv zeta in Sec. fold K1 u tn in Sec. set (x1 := @gout _ (SFNum prec emax sz) sf (zi0 sf, zi1 sf) x) in *.
    set (X1 := fun k => K1 * (X k + tn)) in *.
    assert (XX1 : forall k, X k <= X1 k) by (intros k; specialize (X0 k); unfold X1; nra).
    assert (EX1 : env rho X1).
    { pose proof (env_lin rho X K1 (K1 * tn) ltac:(lra) ltac:(lra) ltac:(nra) HX) as Q. intros k. specialize (Q k). cbv beta in Q.
      unfold X1. rewrite !Rmult_plus_distr_l in *. lra. }
    assert (Ktl : forall k, K2 * (X1 k + tn) <= (2 * K1 * K2 + L * K1) * (X k + tn)).
    { intros k. specialize (X0 k). unfold X1. apply Rle_trans with (2 * K1 * K2 * (X k + tn)); [|apply Rmult_le_compat_r; lra].
      replace (2 * K1 * K2 * (X k + tn)) with (K2 * (K1 * (X k + tn) + K1 * (X k + tn))) by ring. apply Rmult_le_compat_l; [lra|].
      apply Rplus_le_compat_l. nra. }
    destruct (IH prec emax sz lf x1 X1 N Hpe Q2 Fl' EX1) with (n := n) as (R3 & R4 & R5).
    + unfold small_states in *. eapply Forall_impl; [|exact St']. intros a [A1 A2]. specialize (XX1 0%nat). split; lra.
    + intros k Hk. destruct (Sec k Hk) as (A1 & A2 & _). split; [exact A1|exact A2].
    + fold u. eapply Rle_trans; [apply Rmult_le_compat_r; [lra|exact K2K]|exact Hu].
    + fold tn. intros k Hk. specialize (Ktl k). specialize (HM k Hk). lra.
    + exact Hn.
    + fold u tn in R4, R5. change y with (@gcout _ (SFNum prec emax sz) lf x1 n). specialize (Ktl n). pose proof (X0 n) as Xn. split; [exact R3|]. split; [lra|].
      cbn [map cout].
      change (sout (sos_val sf) (zi0 (sos_val sf), zi1 (sos_val sf)) (fun k => fval (x k))) with (sout (sos_val sf) (fval (zi0 sf), fval (zi1 sf)) (fun k => fval (x k))).
      set (ex := sout (sos_val sf) (fval (zi0 sf), fval (zi1 sf)) (fun k => fval (x k))) in *.
      assert (D : Rabs (cout (map sos_val lf) (fun k => fval (x1 k)) n - cout (map sos_val lf) ex n) <= L * (K1 * u * X n + K1 * tn)).
      { assert (K1u : 0 <= K1 * u) by nra. apply (Lip _ _ _ (fun n => K1 * u * X n + K1 * tn) N); [exact Q2|apply env_lin; [lra|exact K1u|nra|exact HX]| |exact Hn].
        intros k Hk. eapply Rle_trans; [apply (Sec k Hk)|right; ring]. }
      set (yf := fval (@gcout _ (SFNum prec emax sz) lf x1 n)) in *. set (c1 := cout (map sos_val lf) (fun k => fval (x1 k)) n) in *.
      replace (yf - cout (map sos_val lf) ex n) with ((yf - c1) + (c1 - cout (map sos_val lf) ex n)) by ring.
      eapply Rle_trans; [apply Rabs_triang|]. rewrite Rmult_plus_distr_r. apply Rplus_le_compat; [|eapply Rle_trans; [exact D|right; ring]].
      eapply Rle_trans; [exact R5|]. unfold X1. replace (2 * K1 * K2 * (u * X n + tn)) with (K2 * (K1 * u * X n + K1 * u * X n + 2 * K1 * tn)) by ring.
      apply Rmult_le_compat_l; [lra|]. assert (K1 * u * tn <= 1 * tn) by (apply Rmult_le_compat_r; lra). assert (0 <= K1 * u * X n) by (apply Rmult_le_pos; [nra|lra]).
      assert (1 * tn <= K1 * tn) by (apply Rmult_le_compat_r; lra). replace (u * (K1 * (X n + tn))) with (K1 * u * X n + K1 * u * tn) by ring. lra.
Qed.
