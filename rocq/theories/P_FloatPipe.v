(** Filtering with sections whose coefficients are themselves rounded: a stable section
    stays stable under small changes of its coefficients, and its output moves by a
    multiple of the change. *)
From Coq Require Import Reals ZArith SpecFloat List Lia Lra Psatz.
From Verif Require Import Base Num M_Complex M_Filter Cx S_Design S_Filter S_Stable S_Float S_FloatFft S_FloatSos P_Float P_FloatStats P_Sosfilt P_Sos P_Stable P_FloatFilt.
Import ListNotations.
Local Open Scope R_scope.

Definition near_coefs (e : R) (s t : Sos R) : Prop :=
  Rabs (b0 s - b0 t) <= e /\ Rabs (b1 s - b1 t) <= e /\ Rabs (b2 s - b2 t) <= e /\ Rabs (a1 s - a1 t) <= e /\ Rabs (a2 s - a2 t) <= e.

Lemma cnorm_sub_ge (a b : C) : cnorm a - cnorm b <= cnorm (a + b)%C.
Proof.
  assert (Q : cnorm a <= cnorm (a + b)%C + cnorm b); [|lra]. replace a with ((a + b) + (- b))%C at 1 by ring. eapply Rle_trans; [apply cnorm_add|].
  assert (E : cnorm (- b)%C = cnorm b); [|lra]. replace (- b)%C with (RtoC (-1) * b)%C by (apply C_ext; cbn; ring). rewrite cnorm_mul, cnorm_RtoC, Rabs_left by lra. ring.
Qed.
Lemma pert_poles r e s t : 0 <= r < 1 -> poles_within r t -> near_coefs e s t -> 12 * e < (1 - r) ^ 2 -> poles_within ((1 + r) / 2) s.
Proof.
  intros Hr [p [q [E1 [E2 [Np Nq]]]]] (_ & _ & _ & D1 & D2) He.
  assert (K : forall z, (z * z + RtoC (a1 s) * z + RtoC (a2 s) = C0)%C -> cnorm z <= (1 + r) / 2).
  { intros z Hz. destruct (Rle_dec (cnorm z) ((1 + r) / 2)) as [L|L]; [exact L|]. exfalso. apply Rnot_le_lt in L.
    set (m := cnorm z) in *. assert (F : ((z - p) * (z - q) + (RtoC (a1 s - a1 t)%R * z + RtoC (a2 s - a2 t)%R) = C0)%C).
    { rewrite <- Hz. replace ((z - p) * (z - q))%C with (z * z - (p + q) * z + p * q)%C by ring. rewrite E1, E2. apply C_ext; cbn; ring. }
    assert (G : cnorm ((z - p) * (z - q))%C <= e * m + e).
    { pose proof (cnorm_sub_ge ((z - p) * (z - q))%C (RtoC (a1 s - a1 t)%R * z + RtoC (a2 s - a2 t)%R)%C) as Q. rewrite F in Q.
      assert (Z0 : cnorm C0 = 0) by (change C0 with (RtoC 0); rewrite cnorm_RtoC; apply Rabs_R0). rewrite Z0 in Q.
      pose proof (cnorm_add (RtoC (a1 s - a1 t)%R * z)%C (RtoC (a2 s - a2 t)%R)) as Q2. rewrite cnorm_mul, !cnorm_RtoC in Q2. fold m in Q2. pose proof (cnorm_pos z) as M0. fold m in M0. 
      assert (Rabs (a1 s - a1 t) * m <= e * m) by (apply Rmult_le_compat_r; lra). lra. }
    assert (Gp : m - r <= cnorm (z - p)%C).
    { pose proof (cnorm_sub_ge z (- p)%C) as Q. replace (z + - p)%C with (z - p)%C in Q by ring. assert (cnorm (- p)%C = cnorm p); [|fold m in Q; lra].
      replace (- p)%C with (RtoC (-1) * p)%C by (apply C_ext; cbn; ring). rewrite cnorm_mul, cnorm_RtoC, Rabs_left by lra. ring. }
    assert (Gq : m - r <= cnorm (z - q)%C).
    { pose proof (cnorm_sub_ge z (- q)%C) as Q. replace (z + - q)%C with (z - q)%C in Q by ring. assert (cnorm (- q)%C = cnorm q); [|fold m in Q; lra].
      replace (- q)%C with (RtoC (-1) * q)%C by (apply C_ext; cbn; ring). rewrite cnorm_mul, cnorm_RtoC, Rabs_left by lra. ring. }
    rewrite cnorm_mul in G. set (A := cnorm (z - p)%C) in *. set (B := cnorm (z - q)%C) in *. clearbody m A B. clear - Hr He L G Gp Gq D1.
    pose proof (Rabs_pos (a1 s - a1 t)) as e0. assert (0 <= e) by lra. clear e0 D1.
    assert (P : (m - r) * (m - r) <= A * B) by (apply Rmult_le_compat; lra).
    assert (Q : (m - r) * (m - r) <= e * m + e) by lra. clear G Gp Gq P.
    destruct (Rle_dec m 2) as [M2|M2].
    - assert ((1 - r) / 2 * ((1 - r) / 2) <= (m - r) * (m - r)) by (apply Rmult_le_compat; lra). nra.
    - apply Rnot_le_lt in M2. assert ((m - 1) * (m - 1) <= (m - r) * (m - r)) by (apply Rmult_le_compat; lra). assert (12 * e < 1) by nra. nra. }
  destruct (quadratic_roots (a1 s) (a2 s)) as [p' [q' [Q1 [Q2 [Q3 Q4]]]]]. exists p', q'. split; [exact Q1|]. split; [exact Q2|]. split; apply K; assumption.
Qed.

Lemma sst_S s z x k : sst s z x (S k) = (b1 s * x k - a1 s * (b0 s * x k + fst (sst s z x k)) + snd (sst s z x k), b2 s * x k - a2 s * (b0 s * x k + fst (sst s z x k))).
Proof. reflexivity. Qed.

(** From rest, the output is at most [out_gain] times the input. *)
Definition out_gain (r C : R) : R := C + gain r * (2 * C ^ 2).
Lemma out_gain_ge r C : 0 <= r < 1 -> 1 <= C -> 1 <= out_gain r C.
Proof. intros Hr HC. pose proof (gain_ge r Hr). unfold out_gain. nra. Qed.
Lemma rest_bound r C s (x : nat -> R) X N : 0 <= r < 1 -> 1 <= C -> poles_within r s -> coef_le C s -> 0 <= X -> (forall k, (k < N)%nat -> Rabs (x k) <= X) ->
  forall n, (n < N)%nat -> Rabs (sout s (0, 0) x n) <= out_gain r C * X.
Proof.
  intros Hr HC Hp (C0 & C1 & C2 & C3 & C4) HX Hx n Hn.
  assert (PR : forall a b c, Rabs a <= C -> Rabs b <= C -> Rabs c <= X -> Rabs (a * b * c) <= C ^ 2 * X).
  { intros a b c A B D. rewrite !Rabs_mult. replace (C ^ 2 * X) with (C * C * X) by ring. pose proof (Rabs_pos a). pose proof (Rabs_pos b). pose proof (Rabs_pos c).
    apply Rmult_le_compat; [apply Rmult_le_pos; assumption|assumption|apply Rmult_le_compat; assumption|assumption]. }
  assert (PL : forall a c, Rabs a <= C -> Rabs c <= X -> Rabs (a * c) <= C * X).
  { intros a c A D. rewrite Rabs_mult. apply Rmult_le_compat; try apply Rabs_pos; assumption. }
  assert (CC : C * X <= C ^ 2 * X) by (apply Rmult_le_compat_r; [exact HX|nra]).
  destruct (disturbed r s (fun k => fst (sst s (0, 0) x k)) (fun k => snd (sst s (0, 0) x k)) (fun k => b1 s * x k - a1 s * b0 s * x k) (fun k => b2 s * x k - a2 s * b0 s * x k)
             (2 * C ^ 2 * X) 0 N Hr Hp) with (n := n) as [B _].
  - apply Rmult_le_pos; [nra|exact HX].
  - cbn [sst fst snd]. rewrite Rabs_R0. lra.
  - intros k Hk. specialize (Hx k Hk). split; (eapply Rle_trans; [apply Rabs_triang|]; rewrite Rabs_Ropp).
    + pose proof (PL _ _ C1 Hx). pose proof (PR _ _ _ C3 C0 Hx). lra.
    + pose proof (PL _ _ C2 Hx). pose proof (PR _ _ _ C4 C0 Hx). lra.
  - intros k Hk. rewrite sst_S. cbn [fst snd]. split; ring.
  - lia.
  - unfold sout. eapply Rle_trans; [apply Rabs_triang|]. cbn beta in B. pose proof (PL _ _ C0 (Hx n Hn)). unfold out_gain. lra.
Qed.

(** Coefficients moved by at most [e]: the output moves by at most [pert_gain] * e. *)
Definition pert_gain (r r' C : R) : R := 1 + gain r * (2 * C + out_gain r' (C + 1)).
Lemma pert_out r r' C e s t (x : nat -> R) X N : 0 <= r < 1 -> 0 <= r' < 1 -> 1 <= C -> 0 <= e <= 1 -> poles_within r t -> poles_within r' s -> coef_le C t -> near_coefs e s t ->
  0 <= X -> (forall k, (k < N)%nat -> Rabs (x k) <= X) ->
  forall n, (n < N)%nat -> Rabs (sout s (0, 0) x n - sout t (0, 0) x n) <= pert_gain r r' C * (e * X).
Proof.
  intros Hr Hr' HC He Hp Hp' Ct NC HX Hx n Hn.
  assert (Cs : coef_le (C + 1) s).
  { destruct Ct as (C0 & C1 & C2 & C3 & C4). destruct NC as (D0 & D1 & D2 & D3 & D4).
    assert (T : forall a b, Rabs b <= C -> Rabs (a - b) <= e -> Rabs a <= C + 1) by (intros a b A B; replace a with (b + (a - b)) by ring; eapply Rle_trans; [apply Rabs_triang|]; lra).
    exact (conj (T _ _ C0 D0) (conj (T _ _ C1 D1) (conj (T _ _ C2 D2) (conj (T _ _ C3 D3) (T _ _ C4 D4))))). }
  pose proof (rest_bound r' (C + 1) s x X N Hr' ltac:(lra) Hp' Cs HX Hx) as By. set (Y := out_gain r' (C + 1)) in *.
  destruct Ct as (C0 & C1 & C2 & C3 & C4). destruct NC as (D0 & D1 & D2 & D3 & D4).
  assert (EX : 0 <= e * X) by (apply Rmult_le_pos; lra).
  assert (P1 : forall d v B, Rabs d <= e -> Rabs v <= B * X -> Rabs (d * v) <= B * (e * X)).
  { intros d v B A Bv. rewrite Rabs_mult. replace (B * (e * X)) with (e * (B * X)) by ring. apply Rmult_le_compat; try apply Rabs_pos; assumption. }
  assert (P2 : forall a d v, Rabs a <= C -> Rabs d <= e -> Rabs v <= X -> Rabs (a * (d * v)) <= C * (e * X)).
  { intros a d v A B D. rewrite Rabs_mult. apply Rmult_le_compat; try apply Rabs_pos; [exact A|]. pose proof (P1 d v 1 B ltac:(lra)). lra. }
  set (ys := sout s (0, 0) x) in *. set (yt := sout t (0, 0) x).
  assert (C1' : e * X <= C * (e * X)) by (rewrite <- (Rmult_1_l (e * X)) at 1; apply Rmult_le_compat_r; lra).
  assert (EY : forall k, ys k - yt k = (b0 s - b0 t) * x k + (fst (sst s (0, 0) x k) - fst (sst t (0, 0) x k))) by (intros k; unfold ys, yt, sout; ring).
  destruct (disturbed r t (fun k => fst (sst s (0, 0) x k) - fst (sst t (0, 0) x k)) (fun k => snd (sst s (0, 0) x k) - snd (sst t (0, 0) x k))
     (fun k => (b1 s - b1 t) * x k - (a1 s - a1 t) * ys k - a1 t * ((b0 s - b0 t) * x k)) (fun k => (b2 s - b2 t) * x k - (a2 s - a2 t) * ys k - a2 t * ((b0 s - b0 t) * x k))
     ((2 * C + Y) * (e * X)) 0 N Hr Hp) with (n := n) as [B _].
  - apply Rmult_le_pos; [|exact EX]. pose proof (out_gain_ge r' (C + 1) Hr' ltac:(lra)). fold Y in H. lra.
  - cbn [sst fst snd]. rewrite !Rminus_0_r, Rabs_R0. lra.
  - intros k Hk. specialize (Hx k Hk). specialize (By k Hk). assert (X1 : Rabs (x k) <= 1 * X) by lra.
    split; (eapply Rle_trans; [apply Rabs_triang|]; rewrite Rabs_Ropp; eapply Rle_trans; [apply Rplus_le_compat_r, Rabs_triang|]; rewrite Rabs_Ropp).
    + pose proof (P1 _ _ _ D1 X1). pose proof (P1 _ _ _ D3 By). pose proof (P2 _ _ _ C3 D0 Hx). lra.
    + pose proof (P1 _ _ _ D2 X1). pose proof (P1 _ _ _ D4 By). pose proof (P2 _ _ _ C4 D0 Hx). lra.
  - intros k Hk. rewrite !sst_S. cbn [fst snd]. unfold ys, sout. split; ring.
  - lia.
  - rewrite EY. eapply Rle_trans; [apply Rabs_triang|]. cbn beta in B. pose proof (P1 _ _ 1 D0 ltac:(rewrite Rmult_1_l; exact (Hx n Hn))). unfold pert_gain. fold Y. lra.
Qed.

(** Inputs at most [E] apart, from rest. *)
Lemma input_lip r C s (x x' : nat -> R) E N : 0 <= r < 1 -> 1 <= C -> poles_within r s -> coef_le C s -> 0 <= E -> (forall k, (k < N)%nat -> Rabs (x k - x' k) <= E) ->
  forall n, (n < N)%nat -> Rabs (sout s (0, 0) x n - sout s (0, 0) x' n) <= out_gain r C * E.
Proof.
  intros Hr HC Hp Hc HE Hx n Hn.
  assert (L : forall k, fst (sst s (0, 0) x k) - fst (sst s (0, 0) x' k) = fst (sst s (0, 0) (fun j => x j - x' j) k) /\ snd (sst s (0, 0) x k) - snd (sst s (0, 0) x' k) = snd (sst s (0, 0) (fun j => x j - x' j) k)).
  { induction k as [|k [I1 I2]]; [cbn; split; ring|]. rewrite !sst_S. cbn [fst snd]. rewrite <- I1, <- I2. split; ring. }
  replace (sout s (0, 0) x n - sout s (0, 0) x' n) with (sout s (0, 0) (fun j => x j - x' j) n) by (unfold sout; rewrite <- (proj1 (L n)); ring).
  exact (rest_bound r C s _ E N Hr HC Hp Hc HE Hx n Hn).
Qed.
Definition at_rest (s : Sos R) : Prop := zi0 s = 0 /\ zi1 s = 0.
Lemma cascade_input_lip r C l : 0 <= r < 1 -> 1 <= C -> Forall (poles_within r) l -> Forall (coef_le C) l -> Forall at_rest l -> forall (x x' : nat -> R) E N, 0 <= E -> (forall k, (k < N)%nat -> Rabs (x k - x' k) <= E) ->
  forall n, (n < N)%nat -> Rabs (cout l x n - cout l x' n) <= out_gain r C ^ length l * E.
Proof.
  intros Hr HC. induction l as [|s l IH]; intros Hp Hc Ha x x' E N HE Hx n Hn; cbn [cout length pow].
  - rewrite Rmult_1_l. apply Hx. exact Hn.
  - destruct (Forall_inv Ha) as [-> ->]. pose proof (out_gain_ge r C Hr HC).
    replace (out_gain r C * out_gain r C ^ length l * E) with (out_gain r C ^ length l * (out_gain r C * E)) by ring.
    apply (IH (Forall_inv_tail Hp) (Forall_inv_tail Hc) (Forall_inv_tail Ha) _ _ (out_gain r C * E) N); [apply Rmult_le_pos; lra| |exact Hn].
    intros k Hk. exact (input_lip r C s x x' E N Hr HC (Forall_inv Hp) (Forall_inv Hc) HE Hx k Hk).
Qed.

(** ** The whole cascade of rounded sections, in floats, against the exact cascade *)
Lemma within_near prec emax e s t : sos_within prec emax e s t -> near_coefs e (sos_val s) t.
Proof.
  intros (_ & W & _). unfold coefs in W. inversion W as [|? ? ? ? W0 V0]; subst. inversion V0 as [|? ? ? ? W1 V1]; subst. inversion V1 as [|? ? ? ? W2 V2]; subst.
  inversion V2 as [|? ? ? ? W3 V3]; subst. inversion V3 as [|? ? ? ? W4 V4]; subst. inversion V4 as [|? ? ? ? W5 V5]; subst. unfold near_coefs. cbn [sos_val M_Filter.b0 M_Filter.b1 M_Filter.b2 M_Filter.a1 M_Filter.a2].
  exact (conj W0 (conj W1 (conj W2 (conj W4 W5)))).
Qed.
Lemma within_fin prec emax e s t : sos_within prec emax e s t -> coef_fin prec emax s.
Proof.
  intros (F & _). unfold coefs in F. inversion F as [|? ? F0 G0]; subst. inversion G0 as [|? ? F1 G1]; subst. inversion G1 as [|? ? F2 G2]; subst.
  inversion G2 as [|? ? F3 G3]; subst. inversion G3 as [|? ? F4 G4]; subst. inversion G4 as [|? ? F5 G5]; subst. exact (conj F0 (conj F1 (conj F2 (conj F4 F5)))).
Qed.
Lemma coef_le_near C e s t : 0 <= e <= 1 -> coef_le C t -> near_coefs e s t -> coef_le (C + 1) s.
Proof.
  intros He (C0 & C1 & C2 & C3 & C4) (D0 & D1 & D2 & D3 & D4).
  assert (T : forall a b, Rabs b <= C -> Rabs (a - b) <= e -> Rabs a <= C + 1) by (intros a b A B; replace a with (b + (a - b)) by ring; eapply Rle_trans; [apply Rabs_triang|]; lra).
  exact (conj (T _ _ C0 D0) (conj (T _ _ C1 D1) (conj (T _ _ C2 D2) (conj (T _ _ C3 D3) (T _ _ C4 D4))))).
Qed.

Theorem cascade_near r C n0 : 0 <= r < 1 -> 1 <= C -> exists K, 1 <= K /\
  forall prec emax sz e lf l (x : nat -> spec_float) X N, (1 < prec < emax)%Z -> length l = n0 -> Forall (poles_within r) l -> Forall (coef_le C) l -> Forall at_rest l ->
  Forall2 (sos_within prec emax e) lf l -> 0 <= e -> K * e <= 1 ->
  0 <= X -> (forall k, (k < N)%nat -> finite prec emax (x k) /\ Rabs (fval (x k)) <= X) ->
  K * uround prec <= 1 -> K * (X + ftiny prec emax) <= fmax prec emax ->
  forall n, (n < N)%nat -> let y := @gcout _ (SFNum prec emax sz) lf x n in
    finite prec emax y /\ Rabs (fval y) <= K * (X + ftiny prec emax) /\
    Rabs (fval y - cout l (fun k => fval (x k)) n) <= K * ((uround prec + e) * X + ftiny prec emax).
Proof.
  intros Hr HC. set (r' := (1 + r) / 2). assert (Hr' : 0 <= r' < 1) by (unfold r'; lra). induction n0 as [|n0 IH].
  - exists 1. split; [lra|]. intros prec emax sz e lf l x X N Hpe Hl _ _ _ HW He _ HX Hx _ _ n Hn y. destruct l; [|discriminate Hl]. inversion HW; subst. cbn [gcout cout] in *. unfold y.
    destruct (Hx n Hn) as [Fx Bx]. pose proof (tiny_pos prec emax) as T. pose proof (u_pos prec) as U. split; [exact Fx|]. split; [lra|].
    rewrite Rminus_diag_eq, Rabs_R0 by reflexivity. assert (0 <= (uround prec + e) * X) by (apply Rmult_le_pos; lra). lra.
  - destruct IH as [K2 [HK2 IH]]. set (K1 := Ksec r' (C + 1)). assert (HK1 : 1 <= K1) by (apply Ksec_ge; [exact Hr'|lra]).
    set (M := pert_gain r r' C). assert (HM : 1 <= M). { unfold M, pert_gain. pose proof (gain_ge r Hr). pose proof (out_gain_ge r' (C + 1) Hr' ltac:(lra)). nra. }
    set (G := out_gain r C). pose proof (out_gain_ge r C Hr HC) as HG. fold G in HG. assert (HGn : 1 <= G ^ n0) by (apply pow_R1_Rle; exact HG).
    set (d := 13 / (1 - r) ^ 2). assert (D0 : 0 < (1 - r) ^ 2) by (apply pow_lt; lra). assert (Hd : 1 <= d). { unfold d. apply (Rmult_le_reg_r ((1 - r) ^ 2)); [exact D0|]. unfold Rdiv. rewrite Rmult_assoc, Rinv_l by lra. nra. }
    set (K := 3 * K1 * K2 + G ^ n0 * (K1 + M) + d).
    assert (P1 : 1 <= K1 * K2) by nra. assert (P2 : 1 <= G ^ n0 * (K1 + M)) by nra. assert (P3 : K1 <= K1 * K2) by nra. assert (P4 : K2 <= K1 * K2) by nra.
    exists K. split; [unfold K; lra|]. intros prec emax sz e lf l x X N Hpe Hl Hp Hc Ha HW He HKe HX Hx Hu HF n Hn y.
    destruct l as [|t l]; [discriminate Hl|]. injection Hl as Hl. inversion HW as [|s ? lf' ? Ws HW']; subst lf. subst.
    pose proof (Forall_inv Hp) as Pt. pose proof (Forall_inv Hc) as Ct. destruct (Forall_inv Ha) as [Z0 Z1].
    pose proof (within_near _ _ _ _ _ Ws) as Nt. pose proof (within_fin _ _ _ _ _ Ws) as Ft. destruct Ws as (_ & _ & _ & S0 & S1).
    pose proof (tiny_pos prec emax) as T. pose proof (u_pos prec) as U. assert (FZ : finite prec emax (S754_zero false)) by (split; [reflexivity|exact Logic.I]). set (u := uround prec) in *. set (tn := ftiny prec emax) in *.
    assert (E1 : e <= 1). { apply Rle_trans with (K * e); [|exact HKe]. rewrite <- (Rmult_1_l e) at 1. apply Rmult_le_compat_r; [exact He|unfold K; lra]. }
    assert (E12 : 12 * e < (1 - r) ^ 2).
    { assert (Q : d * e <= 1) by (eapply Rle_trans; [|exact HKe]; apply Rmult_le_compat_r; [exact He|unfold K; lra]). 
      assert (Q2 : 13 * e <= (1 - r) ^ 2). { replace (13 * e) with (d * e * (1 - r) ^ 2) by (unfold d; field; lra). rewrite <- (Rmult_1_l ((1 - r) ^ 2)) at 2. apply Rmult_le_compat_r; lra. }
      destruct (Req_dec e 0) as [->|Ne]; [lra|]. lra. }
    pose proof (pert_poles r e _ _ Hr Pt Nt E12) as Ps. fold r' in Ps. pose proof (coef_le_near C e _ _ (conj He E1) Ct Nt) as Cs.
    assert (U1 : K1 * u <= 1) by (eapply Rle_trans; [|exact Hu]; apply Rmult_le_compat_r; [lra|unfold K; lra]).
    assert (X1 : K1 * (X + tn) <= fmax prec emax) by (eapply Rle_trans; [|exact HF]; apply Rmult_le_compat_r; [lra|unfold K; lra]).
    assert (SEC : forall k, (k < N)%nat -> finite prec emax (@gout _ (SFNum prec emax sz) s (zi0 s, zi1 s) x k) /\ Rabs (fval (@gout _ (SFNum prec emax sz) s (zi0 s, zi1 s) x k)) <= K1 * (X + tn) /\
       Rabs (fval (@gout _ (SFNum prec emax sz) s (zi0 s, zi1 s) x k) - sout (sos_val s) (0, 0) (fun k => fval (x k)) k) <= K1 * (u * X + tn)).
    { intros k Hk. pose proof (section_err prec emax Hpe sz s x r' (C + 1) X N) as Q. cbv zeta in Q. rewrite S0, S1 in Q |- *. cbn [fval] in Q. rewrite Rabs_R0 in Q. apply Q; try assumption. lra. }
    set (w := @gout _ (SFNum prec emax sz) s (zi0 s, zi1 s) x) in *.
    assert (DIF : forall k, (k < N)%nat -> Rabs (fval (w k) - sout t (0, 0) (fun k => fval (x k)) k) <= (K1 + M) * ((u + e) * X + tn)).
    { intros k Hk. destruct (SEC k Hk) as (_ & _ & A).
      pose proof (pert_out r r' C e (sos_val s) t (fun k => fval (x k)) X N Hr Hr' HC (conj He E1) Pt Ps Ct Nt HX (fun k Hk => proj2 (Hx k Hk)) k Hk) as B. fold M in B.
      replace (fval (w k) - _) with ((fval (w k) - sout (sos_val s) (0, 0) (fun k => fval (x k)) k) + (sout (sos_val s) (0, 0) (fun k => fval (x k)) k - sout t (0, 0) (fun k => fval (x k)) k)) by ring.
      eapply Rle_trans; [apply Rabs_triang|]. assert (0 <= u * X) by nra. assert (0 <= e * X) by nra.
      assert (K1 * (u * X + tn) <= K1 * ((u + e) * X + tn)) by (apply Rmult_le_compat_l; lra). assert (M * (e * X) <= M * ((u + e) * X + tn)) by (apply Rmult_le_compat_l; lra). lra. }
    set (X' := K1 * (X + tn)) in *. assert (HX' : 0 <= X') by (unfold X'; apply Rmult_le_pos; lra).
    assert (XT : K2 * (X' + tn) <= 3 * (K1 * K2) * (X + tn)).
    { unfold X'. replace (K2 * (K1 * (X + tn) + tn)) with (K1 * K2 * (X + tn) + K2 * tn) by ring. assert (K2 * tn <= K1 * K2 * tn) by (apply Rmult_le_compat_r; lra). assert (0 <= K1 * K2 * X) by (apply Rmult_le_pos; lra). nra. }
    destruct (IH prec emax sz e lf' l w X' N Hpe eq_refl (Forall_inv_tail Hp) (Forall_inv_tail Hc) (Forall_inv_tail Ha) HW' He) with (n := n) as (F1 & F2 & F3).
    + eapply Rle_trans; [|exact HKe]. apply Rmult_le_compat_r; [exact He|unfold K; lra].
    + exact HX'.
    + intros k Hk. destruct (SEC k Hk) as (A & B & _). split; assumption.
    + eapply Rle_trans; [|exact Hu]. apply Rmult_le_compat_r; [lra|unfold K; lra].
    + eapply Rle_trans; [exact XT|]. eapply Rle_trans; [|exact HF]. apply Rmult_le_compat_r; [lra|unfold K; lra].
    + exact Hn.
    + cbn [gcout cout] in y |- *. unfold y. fold w. split; [exact F1|]. split.
      * eapply Rle_trans; [exact F2|]. eapply Rle_trans; [exact XT|]. apply Rmult_le_compat_r; [lra|unfold K; lra].
      * rewrite Z0, Z1. set (V := (u + e) * X + tn). assert (V0 : 0 < V) by (unfold V; assert (0 <= (u + e) * X) by (apply Rmult_le_pos; lra); lra).
        pose proof (cascade_input_lip r C l Hr HC (Forall_inv_tail Hp) (Forall_inv_tail Hc) (Forall_inv_tail Ha) (fun k => fval (w k)) (sout t (0, 0) (fun k => fval (x k))) ((K1 + M) * V) N ltac:(apply Rmult_le_pos; lra) DIF n Hn) as B.
        fold G in B. fold u tn in F3.
        replace (fval (@gcout _ (SFNum prec emax sz) lf' w n) - cout l (sout t (0, 0) (fun k => fval (x k))) n) with
          ((fval (@gcout _ (SFNum prec emax sz) lf' w n) - cout l (fun k => fval (w k)) n) + (cout l (fun k => fval (w k)) n - cout l (sout t (0, 0) (fun k => fval (x k))) n)) by ring.
        eapply Rle_trans; [apply Rabs_triang|].
        assert (A : K2 * ((u + e) * X' + tn) <= 3 * (K1 * K2) * V).
        { unfold X', V. assert (UE : (u + e) * tn <= 2 * tn). { apply Rmult_le_compat_r; [lra|]. assert (K1 * u <= 1) by exact U1. assert (u <= 1) by nra. lra. }
          assert (W0 : 0 <= (u + e) * X) by (apply Rmult_le_pos; lra).
          replace (K2 * ((u + e) * (K1 * (X + tn)) + tn)) with (K1 * K2 * ((u + e) * X) + K1 * K2 * ((u + e) * tn) + K2 * tn) by ring.
          assert (K1 * K2 * ((u + e) * tn) <= K1 * K2 * (2 * tn)) by (apply Rmult_le_compat_l; lra). assert (K2 * tn <= K1 * K2 * tn) by (apply Rmult_le_compat_r; lra).
          assert (0 <= K1 * K2 * ((u + e) * X)) by (apply Rmult_le_pos; lra). lra. }
        unfold K. replace ((3 * K1 * K2 + G ^ length l * (K1 + M) + d) * V) with (3 * (K1 * K2) * V + G ^ length l * ((K1 + M) * V) + d * V) by ring.
        assert (0 <= d * V) by (apply Rmult_le_pos; lra). lra.
Qed.
