(** Rounding in band-pass and band-stop transforms: the poles computed are those of real
    arithmetic, in an order that depends on the rounding. *)
From Coq Require Import Reals Ratan ZArith SpecFloat List Lia Lra Bool Permutation.
From Flocq Require Import Core BinarySingleNaN.
From Verif Require Import Base Num Trans M_Complex M_Filter M_Design Cx S_Design S_Filter S_Float S_FloatFft S_FloatZpk S_FloatTrans
  P_Float P_FloatStats P_Sqrt P_Poly P_Lp P_Proto P_Stable P_Zi P_FloatI0 P_FloatZi P_FloatPoly T_FloatPoly P_FloatDesign P_FloatResponse P_FloatSqrt.
Import ListNotations.
Local Open Scope R_scope.

Lemma part_le_norm (z : C) : Rabs (cre z) <= cnorm z /\ Rabs (cim z) <= cnorm z.
Proof.
  destruct z as [a b]. rewrite ?cnorm_def; unfold cnorm_sqr. cbn [cre cim fst snd nsqrt nadd nmul RNum].
  split; rewrite <- sqrt_Rsqr_abs; apply sqrt_le_1_alt; unfold Rsqr; nra.
Qed.
Lemma norm_within e (x y : C) : cnorm (x - y)%C <= e -> cwithin e x y.
Proof. intros H. destruct (part_le_norm (x - y)%C) as [A B]. split; eapply Rle_trans; [exact A|exact H|exact B|exact H]. Qed.

(** ** A root with its sign *)
Section Signed.
Variable I : Type.
Variables pr em : I -> Z.
Variable sz : I -> bool.
Variable E : R.
Hypothesis HE : 0 <= E.
Variable T : I -> Trans spec_float.
Notation NF i := (SFNum (pr i) (em i) (sz i)).

Definition nearer (x y : C) : bool := Rleb (cnorm (x - y)%C) (cnorm (x + y)%C).
Definition signed (b : bool) (s : C) : C := if b then s else cneg s.
Lemma root_side (w0 s0 c : C) e : (s0 * s0 = c)%C -> s0 <> C0 -> cnorm (w0 * w0 - c)%C <= e -> cwithin (e / cnorm s0) w0 (signed (nearer w0 s0) s0).
Proof.
  intros S N B. assert (P : 0 < cnorm s0).
  { pose proof (cnorm_pos s0). destruct (Req_dec (cnorm s0) 0) as [Z|Z]; [|lra]. exfalso. apply (cnorm_sqr_neq0 s0 N). rewrite <- cnorm_sq, Z. ring. }
  assert (F : (w0 * w0 - c = (w0 - s0) * (w0 + s0))%C) by (rewrite <- S; ring). rewrite F, cnorm_mul in B.
  assert (TW : 2 * cnorm s0 <= cnorm (w0 - s0)%C + cnorm (w0 + s0)%C).
  { replace (2 * cnorm s0) with (cnorm (RtoC 2 * s0)%C) by (rewrite cnorm_mul, cnorm_RtoC, Rabs_right by lra; reflexivity).
    replace (RtoC 2 * s0)%C with ((w0 + s0) - (w0 - s0))%C by (apply C_ext; cbn; ring). eapply Rle_trans; [apply (cnorm_tri _ C0)|].
    replace (w0 + s0 - C0)%C with (w0 + s0)%C by ring. replace (C0 - (w0 - s0))%C with (RtoC (-1) * (w0 - s0))%C by (apply C_ext; cbn; ring). rewrite cnorm_mul, cnorm_RtoC.
    replace (Rabs (-1)) with 1 by (rewrite Rabs_left; lra). lra. }
  pose proof (cnorm_pos (w0 - s0)%C) as P1. pose proof (cnorm_pos (w0 + s0)%C) as P2. apply norm_within.
  apply (Rmult_le_reg_r (cnorm s0)); [exact P|]. replace (e / cnorm s0 * cnorm s0) with e by (field; lra).
  unfold nearer, Rleb. destruct (Rle_dec _ _) as [L|L]; cbn [signed].
  - nra.
  - replace (w0 - cneg s0)%C with (w0 + s0)%C by (apply C_ext; cbn; ring). nra.
Qed.
Lemma csqrt_signed (V : I -> Prop) (c : C) (zf : I -> cplx spec_float) : (forall i, V i -> (1 < pr i < em i)%Z -> accurate_trans (pr i) (em i) E (T i)) ->
  c <> C0 -> cnapp I pr em V c zf ->
  evk pr em V (fun K i => cfinite (pr i) (em i) (@csqrt _ (NF i) (T i) (zf i)) /\
    cwithin (K * uround (pr i)) (cval (@csqrt _ (NF i) (T i) (zf i))) (signed (nearer (cval (@csqrt _ (NF i) (T i) (zf i))) (csqrt c)) (csqrt c))).
Proof.
  intros HT Nc Cc. destruct (csqrt_root I pr em sz E HE T V HT c zf Nc Cc) as [K [HK H]]. destruct Cc as [[K1 [HK1 H1]] [K2 [HK2 H2]]].
  set (s0 := csqrt c). assert (S : (s0 * s0 = c)%C) by apply csqrt_sq. assert (N : s0 <> C0) by (intros Z; apply Nc; rewrite <- S, Z; ring).
  assert (P : 0 < cnorm s0).
  { pose proof (cnorm_pos s0). destruct (Req_dec (cnorm s0) 0) as [Z|Z]; [|lra]. exfalso. apply (cnorm_sqr_neq0 s0 N). rewrite <- cnorm_sq, Z. ring. }
  pose proof (cnorm_pos c) as C0'. set (B := cnorm c + 4). set (L := 2 * K * (2 * B + 2) + 2 * (K1 + K2)). assert (L0 : 0 <= L) by (unfold L, B; nra).
  assert (D0 : 0 <= L / cnorm s0) by (apply Rmult_le_pos; [exact L0|left; apply Rinv_0_lt_compat; exact P]).
  exists (K + K1 + K2 + L / cnorm s0). split; [lra|]. intros i Hi. destruct (H i (fmt_mono I pr em V _ K i Hi ltac:(lra))) as [F [s [Es W]]]. split; [exact F|].
  destruct (fmt_mono I pr em V _ K i Hi ltac:(lra)) as (_ & Hpe & HU). destruct (u_half (pr i) ltac:(lia)) as [U0 _].
  destruct (fmt_mono I pr em V _ (K1 + K2) i Hi ltac:(lra)) as (_ & _ & HU2).
  destruct (H1 i (fmt_mono I pr em V _ K1 i Hi ltac:(lra))) as [_ E1]. destruct (H2 i (fmt_mono I pr em V _ K2 i Hi ltac:(lra))) as [_ E2].
  set (u := uround (pr i)) in *. set (v := cval (@csqrt _ (NF i) (T i) (zf i))) in *.
  assert (X1 : cnorm (v - s)%C <= 2 * (K * u)) by (apply cwithin_norm; exact W).
  assert (X2 : cnorm (cval (zf i) - c)%C <= (K1 + K2) * u).
  { eapply Rle_trans; [apply cnorm_le_parts|]. change (Rabs (fval (fst (zf i)) - fst c) + Rabs (fval (snd (zf i)) - snd c) <= (K1 + K2) * u). lra. }
  assert (X3 : cnorm s <= B).
  { assert (cnorm s * cnorm s <= cnorm c + 1).
    { rewrite <- cnorm_mul, Es. pose proof (cnorm_le_diff (cval (zf i)) c). lra. }
    pose proof (cnorm_pos s). unfold B. nra. }
  assert (X4 : cnorm (v * v - c)%C <= L * u).
  { replace (v * v - c)%C with ((v - s) * (v + s) + (cval (zf i) - c))%C by (rewrite <- Es; ring). eapply Rle_trans; [apply cnorm_add|]. rewrite cnorm_mul.
    assert (X5 : cnorm (v + s)%C <= 2 * B + 2).
    { replace (v + s)%C with ((v - s) + (s + s))%C by ring. eapply Rle_trans; [apply cnorm_add|]. pose proof (cnorm_add s s). lra. }
    pose proof (cnorm_pos (v - s)%C). pose proof (cnorm_pos (v + s)%C).
    assert (cnorm (v - s)%C * cnorm (v + s)%C <= 2 * (K * u) * (2 * B + 2)) by (apply Rmult_le_compat; assumption). assert (0 <= (K1 + K2) * u) by nra. unfold L. lra. }
  destruct (root_side v s0 c _ S N X4) as [R1 R2].
  assert (LE : L * u / cnorm s0 <= (K + K1 + K2 + L / cnorm s0) * u).
  { replace (L * u / cnorm s0) with (L / cnorm s0 * u) by (field; lra). apply Rmult_le_compat_r; lra. }
  split; eapply Rle_trans; [exact R1|exact LE|exact R2|exact LE].
Qed.

(** ** Lists of roots *)
Section Lists.
Variable V : I -> Prop.
Hypothesis HT : forall i, V i -> (1 < pr i < em i)%Z -> accurate_trans (pr i) (em i) E (T i).
Variables (l : list C) (lf : I -> list (cplx spec_float)) (q : C -> C) (qf : I -> cplx spec_float -> cplx spec_float).
Hypothesis Nl : lnapp I pr em V sz l lf.
Hypothesis Nq : forall k, (k < length l)%nat -> cnapp I pr em V (q (nth k l C0)) (fun i => qf i (nth k (lf i) (@czero _ (NF i)))).
Hypothesis Hq : forall z, In z l -> q z <> C0.
Let rt (i : I) (z : cplx spec_float) : cplx spec_float := @csqrt _ (NF i) (T i) (qf i z).
Let s0 (k : nat) : C := csqrt (q (nth k l C0)).
Definition pattern (i : I) : list bool := map (fun k => nearer (cval (rt i (nth k (lf i) (@czero _ (NF i))))) (s0 k)) (seq 0 (length l)).
Lemma pattern_length i : length (pattern i) = length l.
Proof. unfold pattern. rewrite map_length, seq_length. reflexivity. Qed.
Lemma pattern_nth i k : (k < length l)%nat -> nth k (pattern i) true = nearer (cval (rt i (nth k (lf i) (@czero _ (NF i))))) (s0 k).
Proof. intros Hk. unfold pattern. rewrite P_Savgol.nth_map_seq' by exact Hk. reflexivity. Qed.

Section Pattern.
Variable sg : list bool.
Let W (i : I) : Prop := V i /\ pattern i = sg.
Definition signed_root (k : nat) : C := signed (nth k sg true) (s0 k).
Lemma root_of k : (k < length l)%nat -> cnapp I pr em W (signed_root k) (fun i => rt i (nth k (lf i) (@czero _ (NF i)))).
Proof.
  intros Hk. destruct (csqrt_signed V (q (nth k l C0)) (fun i => qf i (nth k (lf i) (@czero _ (NF i)))) HT (Hq _ (nth_In _ _ Hk)) (Nq k Hk)) as [K [HK H]].
  split; exists K; (split; [exact HK|]); intros i ([Vi Wi] & Hpe & HU);
    destruct (H i (conj Vi (conj Hpe HU))) as [[F1 F2] [E1 E2]]; fold (rt i (nth k (lf i) (@czero _ (NF i)))) in F1, F2, E1, E2;
    fold (s0 k) in E1, E2; rewrite <- (pattern_nth i k Hk), Wi in E1, E2; fold (signed_root k) in E1, E2.
  - split; [exact F1|exact E1].
  - split; [exact F2|exact E2].
Qed.
Definition plus_list : list C := map (fun k => cadd (nth k l C0) (signed_root k)) (seq 0 (length l)).
Definition minus_list : list C := map (fun k => csub (nth k l C0) (signed_root k)) (seq 0 (length l)).
Lemma Wl k : (k < length l)%nat -> cnapp I pr em W (nth k l C0) (fun i => nth k (lf i) (@czero _ (NF i))).
Proof. intros Hk. destruct Nl as [_ N]. destruct (N k Hk) as [A B]. split; (eapply napp_shrink; [|eassumption]); intros i [Vi _]; exact Vi. Qed.
Lemma lnapp_plus : lnapp I pr em W sz plus_list (fun i => map (fun z => @cadd _ (NF i) z (rt i z)) (lf i)).
Proof.
  destruct Nl as [L _]. split; [intros i [Vi _]; unfold plus_list; rewrite !map_length, seq_length; apply L; exact Vi|]. intros k Hk. unfold plus_list in *. rewrite map_length, seq_length in Hk.
  rewrite P_Savgol.nth_map_seq' by exact Hk. cbn [Nat.add]. eapply cnapp_ext; [reflexivity| |apply cnapp_add; [apply Wl; exact Hk|apply root_of; exact Hk]].
  cbn beta. intros i [Vi _] _. rewrite (nth_indep (map _ _) (@czero _ (NF i)) ((fun z => @cadd _ (NF i) z (rt i z)) (@czero _ (NF i)))) by (rewrite map_length, L by exact Vi; exact Hk).
  rewrite (map_nth (fun z => @cadd _ (NF i) z (rt i z))). reflexivity.
Qed.
Lemma lnapp_minus : lnapp I pr em W sz minus_list (fun i => map (fun z => @csub _ (NF i) z (rt i z)) (lf i)).
Proof.
  destruct Nl as [L _]. split; [intros i [Vi _]; unfold minus_list; rewrite !map_length, seq_length; apply L; exact Vi|]. intros k Hk. unfold minus_list in *. rewrite map_length, seq_length in Hk.
  rewrite P_Savgol.nth_map_seq' by exact Hk. cbn [Nat.add]. eapply cnapp_ext; [reflexivity| |apply cnapp_sub; [apply Wl; exact Hk|apply root_of; exact Hk]].
  cbn beta. intros i [Vi _] _. rewrite (nth_indep (map _ _) (@czero _ (NF i)) ((fun z => @csub _ (NF i) z (rt i z)) (@czero _ (NF i)))) by (rewrite map_length, L by exact Vi; exact Hk).
  rewrite (map_nth (fun z => @csub _ (NF i) z (rt i z))). reflexivity.
Qed.
Lemma map_by_nth {A} (f : C -> A) (m : list C) : map f m = map (fun k => f (nth k m C0)) (seq 0 (length m)).
Proof.
  induction m as [|a m IH]; [reflexivity|]. cbn [map length seq nth]. f_equal. rewrite <- seq_shift, map_map. exact IH.
Qed.
Lemma signed_perm : Permutation (plus_list ++ minus_list) (map (fun z => cadd z (csqrt (q z))) l ++ map (fun z => csub z (csqrt (q z))) l).
Proof.
  unfold plus_list, minus_list. rewrite (map_by_nth (fun z => cadd z (csqrt (q z)))), (map_by_nth (fun z => csub z (csqrt (q z)))). rewrite !pairs_perm.
  generalize (seq 0 (length l)). intros m. induction m as [|k m IH]; [apply Permutation_refl|]. cbn [flat_map]. apply Permutation_app; [|exact IH].
  unfold signed_root, signed. fold (s0 k). destruct (nth k sg true); [apply Permutation_refl|].
  replace (cadd (nth k l C0) (cneg (s0 k))) with (csub (nth k l C0) (s0 k)) by (apply C_ext; cbn; ring).
  replace (csub (nth k l C0) (cneg (s0 k))) with (cadd (nth k l C0) (s0 k)) by (apply C_ext; cbn; ring). apply perm_swap.
Qed.
End Pattern.
End Lists.

(** Finitely many patterns. *)
Lemma evk_weaken (V V' : I -> Prop) P : (forall i, V' i -> V i) -> evk pr em V P -> evk pr em V' P.
Proof. intros S [K [HK H]]. exists K. split; [exact HK|]. intros i (A & B). apply H. split; [apply S; exact A|exact B]. Qed.
Lemma evk_patterns (P : R -> I -> Prop) : kmono pr P -> forall n V (pat : I -> list bool), (forall i, length (pat i) = n) ->
  (forall sg, evk pr em (fun i => V i /\ pat i = sg) P) -> evk pr em V P.
Proof.
  intros M n. induction n as [|n IH]; intros V pat L H.
  - apply (evk_weaken (fun i => V i /\ pat i = [])); [|apply H]. intros i Vi. split; [exact Vi|]. specialize (L i). destruct (pat i); [reflexivity|discriminate L].
  - apply (evk_split pr em V (fun i => hd true (pat i)) P M).
    + apply (IH _ (fun i => tl (pat i))); [intros i; specialize (L i); destruct (pat i); cbn in *; lia|]. intros sg.
      apply (evk_weaken (fun i => V i /\ pat i = true :: sg)); [|apply H]. intros i [[Vi H1] H2]. split; [exact Vi|]. specialize (L i). destruct (pat i); [discriminate L|]. cbn in *. congruence.
    + apply (IH _ (fun i => tl (pat i))); [intros i; specialize (L i); destruct (pat i); cbn in *; lia|]. intros sg.
      apply (evk_weaken (fun i => V i /\ pat i = false :: sg)); [|apply H]. intros i [[Vi H1] H2]. split; [exact Vi|]. specialize (L i). destruct (pat i); [discriminate L|]. cbn in *. congruence.
Qed.
End Signed.
