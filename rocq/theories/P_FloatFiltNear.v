(** Filtering with rounded sections that start from rounded states. *)
From Coq Require Import Reals ZArith SpecFloat List Lia Lra Psatz.
From Verif Require Import Base Num M_Complex M_Filter Cx S_Design S_Filter S_Stable S_Float S_FloatFft S_FloatSos P_Float P_FloatStats P_Sosfilt P_Sos P_Stable P_FloatFilt P_FloatPipe.
Import ListNotations.
Local Open Scope R_scope.

(** ** One section *)
Lemma state_lip r s z z' (x : nat -> R) D n : 0 <= r < 1 -> poles_within r s -> Rabs (fst z - fst z') <= D -> Rabs (snd z - snd z') <= D ->
  Rabs (sout s z x n - sout s z' x n) <= 2 * gain r * D.
Proof.
  intros Hr Hp H0 H1. assert (D0 : 0 <= D) by (eapply Rle_trans; [apply Rabs_pos|exact H0]). rewrite sout_sub. set (d := (fst z - fst z', snd z - snd z')).
  assert (Z : forall k : nat, x k - x k = 0) by (intros; ring).
  destruct (disturbed r s (fun k => fst (sst s d (fun k => x k - x k) k)) (fun k => snd (sst s d (fun k => x k - x k) k)) (fun _ => 0) (fun _ => 0) 0 (2 * D) n Hr Hp) with (n := n) as [B _].
  - lra.
  - cbn [sst]. unfold d. cbn [fst snd]. lra.
  - intros k _. rewrite Rabs_R0. lra.
  - intros k _. rewrite sst_S, Z. cbn [fst snd]. split; ring.
  - lia.
  - unfold sout. cbn beta in B. rewrite Z, Rmult_0_r, Rplus_0_l. lra.
Qed.
Lemma rest_split s z (x : nat -> R) n : sout s z x n = sout s (0, 0) x n + (sout s z x n - sout s (0, 0) x n).
Proof. ring. Qed.
Definition st_gain (r C : R) : R := out_gain r C + 2 * gain r.
Lemma st_gain_ge r C : 0 <= r < 1 -> 1 <= C -> 1 <= st_gain r C.
Proof. intros Hr HC. pose proof (gain_ge r Hr). pose proof (out_gain_ge r C Hr HC). unfold st_gain. lra. Qed.
Lemma st_bound r C s z (x : nat -> R) X N : 0 <= r < 1 -> 1 <= C -> poles_within r s -> coef_le C s -> Rabs (fst z) <= X -> Rabs (snd z) <= X -> (forall k, (k < N)%nat -> Rabs (x k) <= X) ->
  forall n, (n < N)%nat -> Rabs (sout s z x n) <= st_gain r C * X.
Proof.
  intros Hr HC Hp Cs Z0 Z1 Hx n Hn. assert (X0 : 0 <= X) by (eapply Rle_trans; [apply Rabs_pos|exact Z0]). rewrite rest_split.
  eapply Rle_trans; [apply Rabs_triang|]. pose proof (rest_bound r C s x X N Hr HC Hp Cs X0 Hx n Hn).
  pose proof (state_lip r s z (0, 0) x X n Hr Hp) as Q. cbn [fst snd] in Q. rewrite !Rminus_0_r in Q. specialize (Q Z0 Z1). unfold st_gain. lra.
Qed.
Lemma input_lip_st r C s z (x x' : nat -> R) E N : 0 <= r < 1 -> 1 <= C -> poles_within r s -> coef_le C s -> 0 <= E -> (forall k, (k < N)%nat -> Rabs (x k - x' k) <= E) ->
  forall n, (n < N)%nat -> Rabs (sout s z x n - sout s z x' n) <= out_gain r C * E.
Proof.
  intros Hr HC Hp Hc HE Hx n Hn. rewrite sout_sub, !Rminus_diag_eq by reflexivity. exact (rest_bound r C s _ E N Hr HC Hp Hc HE Hx n Hn).
Qed.
Definition pert_gain_st (r r' C : R) : R := 1 + gain r * (2 * C + st_gain r' (C + 1)).
Lemma pert_out_st r r' C e s t z (x : nat -> R) X N : 0 <= r < 1 -> 0 <= r' < 1 -> 1 <= C -> 0 <= e <= 1 -> poles_within r t -> poles_within r' s -> coef_le C t -> near_coefs e s t ->
  Rabs (fst z) <= X -> Rabs (snd z) <= X -> (forall k, (k < N)%nat -> Rabs (x k) <= X) ->
  forall n, (n < N)%nat -> Rabs (sout s z x n - sout t z x n) <= pert_gain_st r r' C * (e * X).
Proof.
  intros Hr Hr' HC He Hp Hp' Ct NC Z0 Z1 Hx n Hn. assert (HX : 0 <= X) by (eapply Rle_trans; [apply Rabs_pos|exact Z0]).
  pose proof (coef_le_near C e s t He Ct NC) as Cs.
  pose proof (st_bound r' (C + 1) s z x X N Hr' ltac:(lra) Hp' Cs Z0 Z1 Hx) as By. set (Y := st_gain r' (C + 1)) in *.
  destruct Ct as (C0 & C1 & C2 & C3 & C4). destruct NC as (D0 & D1 & D2 & D3 & D4).
  assert (EX : 0 <= e * X) by (apply Rmult_le_pos; lra).
  assert (P1 : forall d v B, Rabs d <= e -> Rabs v <= B * X -> Rabs (d * v) <= B * (e * X)).
  { intros d v B A Bv. rewrite Rabs_mult. replace (B * (e * X)) with (e * (B * X)) by ring. apply Rmult_le_compat; try apply Rabs_pos; assumption. }
  assert (P2 : forall a d v, Rabs a <= C -> Rabs d <= e -> Rabs v <= X -> Rabs (a * (d * v)) <= C * (e * X)).
  { intros a d v A B D. rewrite Rabs_mult. apply Rmult_le_compat; try apply Rabs_pos; [exact A|]. pose proof (P1 d v 1 B ltac:(lra)). lra. }
  set (ys := sout s z x) in *. set (yt := sout t z x).
  assert (C1' : e * X <= C * (e * X)) by (rewrite <- (Rmult_1_l (e * X)) at 1; apply Rmult_le_compat_r; lra).
  assert (EY : forall k, ys k - yt k = (b0 s - b0 t) * x k + (fst (sst s z x k) - fst (sst t z x k))) by (intros k; unfold ys, yt, sout; ring).
  destruct (disturbed r t (fun k => fst (sst s z x k) - fst (sst t z x k)) (fun k => snd (sst s z x k) - snd (sst t z x k))
     (fun k => (b1 s - b1 t) * x k - (a1 s - a1 t) * ys k - a1 t * ((b0 s - b0 t) * x k)) (fun k => (b2 s - b2 t) * x k - (a2 s - a2 t) * ys k - a2 t * ((b0 s - b0 t) * x k))
     ((2 * C + Y) * (e * X)) 0 N Hr Hp) with (n := n) as [B _].
  - apply Rmult_le_pos; [|exact EX]. pose proof (st_gain_ge r' (C + 1) Hr' ltac:(lra)). fold Y in H. lra.
  - cbn [sst]. rewrite !Rminus_diag_eq, Rabs_R0 by reflexivity. lra.
  - intros k Hk. specialize (Hx k Hk). specialize (By k Hk). assert (X1 : Rabs (x k) <= 1 * X) by lra.
    split; (eapply Rle_trans; [apply Rabs_triang|]; rewrite Rabs_Ropp; eapply Rle_trans; [apply Rplus_le_compat_r, Rabs_triang|]; rewrite Rabs_Ropp).
    + pose proof (P1 _ _ _ D1 X1). pose proof (P1 _ _ _ D3 By). pose proof (P2 _ _ _ C3 D0 Hx). lra.
    + pose proof (P1 _ _ _ D2 X1). pose proof (P1 _ _ _ D4 By). pose proof (P2 _ _ _ C4 D0 Hx). lra.
  - intros k Hk. rewrite !sst_S. cbn [fst snd]. unfold ys, sout. split; ring.
  - lia.
  - rewrite EY. eapply Rle_trans; [apply Rabs_triang|]. cbn beta in B. pose proof (P1 _ _ 1 D0 ltac:(rewrite Rmult_1_l; exact (Hx n Hn))). unfold pert_gain_st. fold Y. lra.
Qed.

(** ** The cascade *)
Lemma cascade_input_lip_st r C l : 0 <= r < 1 -> 1 <= C -> Forall (poles_within r) l -> Forall (coef_le C) l -> forall (x x' : nat -> R) E N, 0 <= E -> (forall k, (k < N)%nat -> Rabs (x k - x' k) <= E) ->
  forall n, (n < N)%nat -> Rabs (cout l x n - cout l x' n) <= out_gain r C ^ length l * E.
Proof.
  intros Hr HC. induction l as [|s l IH]; intros Hp Hc x x' E N HE Hx n Hn; cbn [cout length pow].
  - rewrite Rmult_1_l. apply Hx. exact Hn.
  - pose proof (out_gain_ge r C Hr HC).
    replace (out_gain r C * out_gain r C ^ length l * E) with (out_gain r C ^ length l * (out_gain r C * E)) by ring.
    apply (IH (Forall_inv_tail Hp) (Forall_inv_tail Hc) _ _ (out_gain r C * E) N); [apply Rmult_le_pos; lra| |exact Hn].
    intros k Hk. exact (input_lip_st r C s _ x x' E N Hr HC (Forall_inv Hp) (Forall_inv Hc) HE Hx k Hk).
Qed.
Lemma cascade_bound_st r C l : 0 <= r < 1 -> 1 <= C -> Forall (poles_within r) l -> Forall (coef_le C) l -> forall (x : nat -> R) X N, 0 <= X -> Forall (fun s => Rabs (zi0 s) <= X /\ Rabs (zi1 s) <= X) l -> (forall k, (k < N)%nat -> Rabs (x k) <= X) ->
  forall n, (n < N)%nat -> Rabs (cout l x n) <= st_gain r C ^ length l * X.
Proof.
  intros Hr HC. pose proof (st_gain_ge r C Hr HC) as G1. induction l as [|s l IH]; intros Hp Hc x X N HX Hz Hx n Hn; cbn [cout length pow].
  - rewrite Rmult_1_l. apply Hx. exact Hn.
  - destruct (Forall_inv Hz) as [Z0 Z1].
    replace (st_gain r C * st_gain r C ^ length l * X) with (st_gain r C ^ length l * (st_gain r C * X)) by ring.
    apply (IH (Forall_inv_tail Hp) (Forall_inv_tail Hc) _ (st_gain r C * X) N); [apply Rmult_le_pos; lra| | |exact Hn].
    + eapply Forall_impl; [|exact (Forall_inv_tail Hz)]. cbn beta. intros a [A0 A1]. split; nra.
    + intros k Hk. exact (st_bound r C s (zi0 s, zi1 s) x X N Hr HC (Forall_inv Hp) (Forall_inv Hc) Z0 Z1 Hx k Hk).
Qed.

(** A float section near a real one: coefficients within [e], delays within [D]. *)
Definition sec_near (prec emax : Z) (e D : R) (s : Sos spec_float) (t : Sos R) : Prop :=
  coef_fin prec emax s /\ near_coefs e (sos_val s) t /\ finite prec emax (zi0 s) /\ finite prec emax (zi1 s) /\ Rabs (fval (zi0 s) - zi0 t) <= D /\ Rabs (fval (zi1 s) - zi1 t) <= D.

Theorem cascade_near_st r C n0 : 0 <= r < 1 -> 1 <= C -> exists K, 1 <= K /\
  forall prec emax sz e D lf l (x : nat -> spec_float) X N, (1 < prec < emax)%Z -> length l = n0 -> Forall (poles_within r) l -> Forall (coef_le C) l ->
  Forall2 (sec_near prec emax e D) lf l -> 0 <= e -> 0 <= D -> K * e <= 1 ->
  0 <= X -> Forall (fun s => Rabs (fval (zi0 s)) <= X /\ Rabs (fval (zi1 s)) <= X) lf -> (forall k, (k < N)%nat -> finite prec emax (x k) /\ Rabs (fval (x k)) <= X) ->
  K * uround prec <= 1 -> K * (X + ftiny prec emax) <= fmax prec emax ->
  forall n, (n < N)%nat -> let y := @gcout _ (SFNum prec emax sz) lf x n in
    finite prec emax y /\ Rabs (fval y) <= K * (X + ftiny prec emax) /\
    Rabs (fval y - cout l (fun k => fval (x k)) n) <= K * ((uround prec + e) * X + ftiny prec emax + D).
Proof.
  intros Hr HC. set (r' := (1 + r) / 2). assert (Hr' : 0 <= r' < 1) by (unfold r'; lra). induction n0 as [|n0 IH].
  - exists 1. split; [lra|]. intros prec emax sz e D lf l x X N Hpe Hl _ _ HW He HD _ HX _ Hx _ _ n Hn y. destruct l; [|discriminate Hl]. inversion HW; subst. cbn [gcout cout] in *. unfold y.
    destruct (Hx n Hn) as [Fx Bx]. pose proof (tiny_pos prec emax) as T. pose proof (u_pos prec) as U. split; [exact Fx|]. split; [lra|].
    rewrite Rminus_diag_eq, Rabs_R0 by reflexivity. assert (0 <= (uround prec + e) * X) by (apply Rmult_le_pos; lra). lra.
  - destruct IH as [K2 [HK2 IH]]. set (K1 := Ksec r' (C + 1)). assert (HK1 : 1 <= K1) by (apply Ksec_ge; [exact Hr'|lra]).
    pose proof (gain_ge r Hr) as HGr.
    set (M := pert_gain_st r r' C + 2 * gain r). assert (HM : 1 <= M). { unfold M, pert_gain_st. pose proof (st_gain_ge r' (C + 1) Hr' ltac:(lra)). nra. }
    set (G := out_gain r C). pose proof (out_gain_ge r C Hr HC) as HG. fold G in HG. assert (HGn : 1 <= G ^ n0) by (apply pow_R1_Rle; exact HG).
    set (d := 13 / (1 - r) ^ 2). assert (D0 : 0 < (1 - r) ^ 2) by (apply pow_lt; lra). assert (Hd : 1 <= d). { unfold d. apply (Rmult_le_reg_r ((1 - r) ^ 2)); [exact D0|]. unfold Rdiv. rewrite Rmult_assoc, Rinv_l by lra. nra. }
    set (K := 3 * K1 * K2 + G ^ n0 * (K1 + M) + d).
    assert (P1 : 1 <= K1 * K2) by nra. assert (P2 : 1 <= G ^ n0 * (K1 + M)) by nra. assert (P3 : K1 <= K1 * K2) by nra. assert (P4 : K2 <= K1 * K2) by nra.
    exists K. split; [unfold K; lra|]. intros prec emax sz e D lf l x X N Hpe Hl Hp Hc HW He HD HKe HX Hz Hx Hu HF n Hn y.
    destruct l as [|t l]; [discriminate Hl|]. injection Hl as Hl. inversion HW as [|s ? lf' ? Ws HW']; subst lf. subst.
    pose proof (Forall_inv Hp) as Pt. pose proof (Forall_inv Hc) as Ct. destruct (Forall_inv Hz) as [Z0 Z1].
    destruct Ws as (Ft & Nt & F0 & F1 & S0 & S1).
    pose proof (tiny_pos prec emax) as T. pose proof (u_pos prec) as U. set (u := uround prec) in *. set (tn := ftiny prec emax) in *.
    assert (E1 : e <= 1). { apply Rle_trans with (K * e); [|exact HKe]. rewrite <- (Rmult_1_l e) at 1. apply Rmult_le_compat_r; [exact He|unfold K; lra]. }
    assert (E12 : 12 * e < (1 - r) ^ 2).
    { assert (Q : d * e <= 1) by (eapply Rle_trans; [|exact HKe]; apply Rmult_le_compat_r; [exact He|unfold K; lra]). 
      assert (Q2 : 13 * e <= (1 - r) ^ 2). { replace (13 * e) with (d * e * (1 - r) ^ 2) by (unfold d; field; lra). rewrite <- (Rmult_1_l ((1 - r) ^ 2)) at 2. apply Rmult_le_compat_r; lra. }
      destruct (Req_dec e 0) as [->|Ne]; [lra|]. lra. }
    pose proof (pert_poles r e _ _ Hr Pt Nt E12) as Ps. fold r' in Ps. pose proof (coef_le_near C e _ _ (conj He E1) Ct Nt) as Cs.
    assert (U1 : K1 * u <= 1) by (eapply Rle_trans; [|exact Hu]; apply Rmult_le_compat_r; [lra|unfold K; lra]).
    assert (X1 : K1 * (X + tn) <= fmax prec emax) by (eapply Rle_trans; [|exact HF]; apply Rmult_le_compat_r; [lra|unfold K; lra]).
    set (zf := (fval (zi0 s), fval (zi1 s))).
    assert (SEC : forall k, (k < N)%nat -> finite prec emax (@gout _ (SFNum prec emax sz) s (zi0 s, zi1 s) x k) /\ Rabs (fval (@gout _ (SFNum prec emax sz) s (zi0 s, zi1 s) x k)) <= K1 * (X + tn) /\
       Rabs (fval (@gout _ (SFNum prec emax sz) s (zi0 s, zi1 s) x k) - sout (sos_val s) zf (fun k => fval (x k)) k) <= K1 * (u * X + tn)).
    { intros k Hk. pose proof (section_err prec emax Hpe sz s x r' (C + 1) X N) as Q. cbv zeta in Q. apply Q; try assumption. lra. }
    set (w := @gout _ (SFNum prec emax sz) s (zi0 s, zi1 s) x) in *.
    set (W := (u + e) * X + tn + D). assert (V0 : 0 < W) by (unfold W; assert (0 <= (u + e) * X) by (apply Rmult_le_pos; lra); lra).
    assert (DIF : forall k, (k < N)%nat -> Rabs (fval (w k) - sout t (zi0 t, zi1 t) (fun k => fval (x k)) k) <= (K1 + M) * W).
    { intros k Hk. destruct (SEC k Hk) as (_ & _ & A).
      pose proof (pert_out_st r r' C e (sos_val s) t zf (fun k => fval (x k)) X N Hr Hr' HC (conj He E1) Pt Ps Ct Nt Z0 Z1 (fun k Hk => proj2 (Hx k Hk)) k Hk) as B.
      pose proof (state_lip r t zf (zi0 t, zi1 t) (fun k => fval (x k)) D k Hr Pt S0 S1) as L.
      set (y1 := sout (sos_val s) zf _ k) in *. set (y2 := sout t zf _ k) in *. set (y3 := sout t (zi0 t, zi1 t) _ k) in *.
      replace (fval (w k) - y3) with ((fval (w k) - y1) + ((y1 - y2) + (y2 - y3))) by ring.
      eapply Rle_trans; [apply Rabs_triang|]. eapply Rle_trans; [apply Rplus_le_compat_l, Rabs_triang|].
      assert (0 <= u * X) by nra. assert (0 <= e * X) by nra. unfold M.
      assert (K1 * (u * X + tn) <= K1 * W) by (apply Rmult_le_compat_l; unfold W; lra).
      assert (0 <= pert_gain_st r r' C). { unfold pert_gain_st. pose proof (st_gain_ge r' (C + 1) Hr' ltac:(lra)). nra. }
      assert (pert_gain_st r r' C * (e * X) <= pert_gain_st r r' C * W) by (apply Rmult_le_compat_l; [assumption|unfold W; lra]).
      assert (2 * gain r * D <= 2 * gain r * W) by (apply Rmult_le_compat_l; [lra|unfold W; lra]). lra. }
    set (X' := K1 * (X + tn)) in *. assert (HX' : 0 <= X') by (unfold X'; apply Rmult_le_pos; lra). assert (XX : X <= X') by (unfold X'; nra).
    assert (XT : K2 * (X' + tn) <= 3 * (K1 * K2) * (X + tn)).
    { unfold X'. replace (K2 * (K1 * (X + tn) + tn)) with (K1 * K2 * (X + tn) + K2 * tn) by ring. assert (K2 * tn <= K1 * K2 * tn) by (apply Rmult_le_compat_r; lra). assert (0 <= K1 * K2 * X) by (apply Rmult_le_pos; lra). nra. }
    destruct (IH prec emax sz e D lf' l w X' N Hpe eq_refl (Forall_inv_tail Hp) (Forall_inv_tail Hc) HW' He HD) with (n := n) as (G1 & G2 & G3).
    + eapply Rle_trans; [|exact HKe]. apply Rmult_le_compat_r; [exact He|unfold K; lra].
    + exact HX'.
    + eapply Forall_impl; [|exact (Forall_inv_tail Hz)]. cbn beta. intros a [A0 A1]. split; lra.
    + intros k Hk. destruct (SEC k Hk) as (A & B & _). split; assumption.
    + eapply Rle_trans; [|exact Hu]. apply Rmult_le_compat_r; [lra|unfold K; lra].
    + eapply Rle_trans; [exact XT|]. eapply Rle_trans; [|exact HF]. apply Rmult_le_compat_r; [lra|unfold K; lra].
    + exact Hn.
    + cbn [gcout cout] in y |- *. unfold y. fold w. split; [exact G1|]. split.
      * eapply Rle_trans; [exact G2|]. eapply Rle_trans; [exact XT|]. apply Rmult_le_compat_r; [lra|unfold K; lra].
      * pose proof (cascade_input_lip_st r C l Hr HC (Forall_inv_tail Hp) (Forall_inv_tail Hc) (fun k => fval (w k)) (sout t (zi0 t, zi1 t) (fun k => fval (x k))) ((K1 + M) * W) N ltac:(apply Rmult_le_pos; lra) DIF n Hn) as B.
        fold G in B. fold u tn in G3.
        set (c1 := cout l (fun k => fval (w k)) n) in *. set (c2 := cout l (sout t (zi0 t, zi1 t) (fun k => fval (x k))) n) in *. set (yf := fval (@gcout _ (SFNum prec emax sz) lf' w n)) in *.
        replace (yf - c2) with ((yf - c1) + (c1 - c2)) by ring. eapply Rle_trans; [apply Rabs_triang|].
        assert (A : K2 * ((u + e) * X' + tn + D) <= 3 * (K1 * K2) * W).
        { unfold X', W. assert (UE : (u + e) * tn <= 2 * tn). { apply Rmult_le_compat_r; [lra|]. assert (u <= 1) by nra. lra. }
          assert (W0 : 0 <= (u + e) * X) by (apply Rmult_le_pos; lra).
          replace (K2 * ((u + e) * (K1 * (X + tn)) + tn + D)) with (K1 * K2 * ((u + e) * X) + K1 * K2 * ((u + e) * tn) + K2 * tn + K2 * D) by ring.
          assert (K1 * K2 * ((u + e) * tn) <= K1 * K2 * (2 * tn)) by (apply Rmult_le_compat_l; lra). assert (K2 * tn <= K1 * K2 * tn) by (apply Rmult_le_compat_r; lra).
          assert (K2 * D <= K1 * K2 * D) by (apply Rmult_le_compat_r; lra). assert (0 <= K1 * K2 * D) by (apply Rmult_le_pos; lra).
          assert (0 <= K1 * K2 * ((u + e) * X)) by (apply Rmult_le_pos; lra). lra. }
        unfold K. fold W. replace ((3 * K1 * K2 + G ^ length l * (K1 + M) + d) * W) with (3 * (K1 * K2) * W + G ^ length l * ((K1 + M) * W) + d * W) by ring.
        assert (0 <= d * W) by (apply Rmult_le_pos; lra). lra.
Qed.
