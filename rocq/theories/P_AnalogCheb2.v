(** Filters with an odd number of poles and no real zero under minimal pairing, and the zeros and
    poles of analog Chebyshev II designs. *)
From Coq Require Import List Arith ZArith Reals Permutation Sorted Lra Lia Bool.
From Verif Require Import Base Num Trans M_Complex M_Fourier M_Filter M_Design Cx S_Bessel S_Design S_AnalogSos P_Bessel P_Zi P_Savgol P_Poly P_Lp P_CPoly P_Proto P_Cheb P_Iir P_Iir2 P_Cheb2 P_Sos P_Sos2 P_Stable P_Margin P_AnalogSos T_Margin2.
Import ListNotations.
Local Open Scope R_scope.

Section One.
Variable sort : forall A : Type, (A -> A -> bool) -> list A -> list A.
Hypothesis Hsort : is_sort sort.

(** Without a real zero a step uses up two poles or panics. *)
Lemma step_no_real_zero analog p z sos p2 z2 sos2 : Forall (fun r => isr r = false) z ->
  pair_step sort Minimal analog (p, z, sos) = Ok (p2, z2, sos2) ->
  Forall (fun r => isr r = false) z2 /\ length (full p) = (2 + length (full p2))%nat.
Proof.
  intros HF. rewrite Forall_forall in HF.
  assert (NR : ~ exists r, In r z /\ sel WReal r = true).
  { intros [r [Hr Q]]. cbn [sel] in Q. rewrite (HF r Hr) in Q. discriminate Q. }
  assert (Sub : forall a z', Permutation z (a :: z') -> isr a = false /\ Forall (fun r => isr r = false) z').
  { intros a z' HP. split; [apply HF; eapply Permutation_in; [apply Permutation_sym, HP|left; reflexivity]|].
    apply Forall_forall. intros r Hr. apply HF. eapply Permutation_in; [apply Permutation_sym, HP|right; exact Hr]. }
  destruct p as [|q0 q]; [discriminate|]. set (p := q0 :: q) in *. assert (Hpn : p <> []) by discriminate. clearbody p.
  destruct (pick_worst analog p Hpn) as [i1 [p1 [p' [E1 [E2 HP]]]]]. unfold pair_step. rewrite E1. cbn [bind]. rewrite E2. cbn [bind].
  change (is_zero (cim p1)) with (isr p1).
  pose proof (Permutation_length (full_perm _ _ HP)) as LP. rewrite full_cons, app_length in LP.
  destruct (isr p1 && (count_real p' =? 0)%nat) eqn:Esp1.
  { cbn [is_minimal]. rewrite (nearest_none z p1 WReal NR). discriminate. }
  destruct ((length p' + 1 =? length z)%nat && negb (isr p1) && (count_real p' =? 1)%nat && (count_real z =? 1)%nat) eqn:Esp2.
  { apply andb_true_iff in Esp2. destruct Esp2 as [Esp2 _]. apply andb_true_iff in Esp2. destruct Esp2 as [Esp2 _]. apply andb_true_iff in Esp2. destruct Esp2 as [_ Er]. apply negb_true_iff in Er.
    rewrite Er in LP. cbn [length] in LP.
    destruct (sel_dec WComplex z) as [Ex|Ex]; [|rewrite (nearest_none z p1 WComplex Ex); discriminate].
    destruct (pick_nearest z p1 WComplex Ex) as [j1 [z1 [z' [G1 [G2 [HZ Ez]]]]]]. rewrite G1. cbn [bind]. rewrite G2. cbn [bind].
    destruct (single_zpksos_dyn sort [z1; cconj z1] [p1; cconj p1] none) as [s| | |]; cbn [bind]; try discriminate.
    intros Q. injection Q as <- <- <-. split; [apply (Sub _ _ HZ)|lia]. }
  assert (P2 : exists q2 p'', (if isr p1 then
        let! i := idx_worst analog (map snd (filter (fun ip => is_zero (cim (snd ip))) (enumerate p'))) in
        let! ip := index (filter (fun ip => is_zero (cim (snd ip))) (enumerate p')) i in remove_at p' (fst ip)
      else Ok (cconj p1, p')) = Ok (q2, p'') /\ length (full p) = (2 + length (full p''))%nat).
  { destruct (isr p1) eqn:Er.
    - cbn [andb] in Esp1. apply Nat.eqb_neq in Esp1.
      destruct (pick_worst_real analog p' Esp1) as [i [ip [q2 [p'' [F1 [F2 [F3 [HP' Er']]]]]]]]. exists q2, p''. rewrite F1. cbn [bind]. rewrite F2. cbn [bind].
      split; [exact F3|]. pose proof (Permutation_length (full_perm _ _ HP')) as LP'. rewrite full_cons, Er', app_length in LP'. cbn [length] in *. lia.
    - exists (cconj p1), p'. split; [reflexivity|]. cbn [length] in LP. lia. }
  destruct P2 as [q2 [p'' [EP2 PP2]]]. cbv zeta. rewrite EP2. cbn [bind].
  destruct (Nat.eqb_spec (length z) 0) as [Ez|Ez]; cbn [negb].
  { destruct (single_zpksos_dyn sort [] [p1; q2] none) as [s| | |]; cbn [bind]; try discriminate.
    intros Q. injection Q as <- <- <-. split; [apply Forall_forall; exact HF|exact PP2]. }
  destruct (pick_nearest z p1 WAny) as [j1 [z1 [z' [G1 [G2 [HZ _]]]]]].
  { destruct z as [|r z0]; [contradiction Ez; reflexivity|]. exists r. split; reflexivity || (left; reflexivity). }
  rewrite G1. cbn [bind]. rewrite G2. cbn [bind]. change (is_zero (cim z1)) with (isr z1). destruct (Sub _ _ HZ) as [I1 F1]. rewrite I1. cbn [negb].
  destruct (single_zpksos_dyn sort [z1; cconj z1] [p1; q2] none) as [s| | |]; cbn [bind]; try discriminate.
  intros Q. injection Q as <- <- <-. split; [exact F1|exact PP2].
Qed.
Lemma loop_no_real_zero analog : forall (idx : list nat) p z sos p' z' sos', Forall (fun r => isr r = false) z -> Nat.Odd (length (full p)) ->
  rfold (fun st (_ : nat) => pair_step sort Minimal analog st) idx (p, z, sos) = Ok (p', z', sos') -> p' <> [].
Proof.
  induction idx as [|i idx IH]; intros p z sos p' z' sos' HF HO E; cbn [rfold] in E.
  - injection E as <- <- <-. intros ->. destruct HO as [j Q]. cbn in Q. lia.
  - destruct (pair_step sort Minimal analog (p, z, sos)) as [[[p2 z2] sos2]| | |] eqn:Es; cbn [bind] in E; try discriminate.
    destruct (step_no_real_zero _ _ _ _ _ _ _ HF Es) as [HF2 L]. apply (IH p2 z2 sos2 p' z' sos' HF2); [|exact E].
    destruct HO as [j Q]. exists (j - 1)%nat. lia.
Qed.
End One.

Theorem zpk2sos_no_real_zero epsilon sort order f pairing analog : 0 <= epsilon -> is_sort sort -> minimal_pairing pairing analog ->
  real_filter f -> separated epsilon (zk_z f) -> separated epsilon (zk_p f) -> Nat.Odd (length (zk_p f)) ->
  Forall (fun r => cim r <> 0) (zk_z f) ->
  zpk2sos_dyn epsilon sort order f pairing analog = Panic.
Proof.
  intros He Hsort Hm Hr Hsz Hsp HO Hnr. assert (Hp : (0 < length (zk_p f))%nat) by (destruct HO as [j Q]; lia).
  destruct (zpk2sos_minimal_any epsilon He sort Hsort order f pairing analog Hm Hr Hsz Hsp Hp) as [E|[sos [E [_ [_ [Hpr _]]]]]]; [exact E|exfalso].
  rewrite (zpk2sos_minimal_body epsilon sort order f pairing analog Hm) in E by (assumption || lia).
  destruct f as [z p k]. destruct Hr as [Hcz Hcp]. cbn [zk_z zk_p zk_k] in *. unfold body in E.
  destruct (cplxreal_ok epsilon He sort Hsort z Hcz Hsz) as [zc [zr [E' [Fc [Fr HP]]]]].
  destruct (cplxreal_full epsilon He sort Hsort p Hcp Hsp) as [pc [pr [Epc [PP _]]]]. rewrite E', Epc in E. cbn [bind] in E.
  assert (Hz : Forall (fun r => isr r = false) (zc ++ zr)).
  { apply Forall_app. split.
    - eapply Forall_impl; [|exact Fc]. intros r Q. destruct (isr r) eqn:I; [|reflexivity]. apply isr_true in I. cbn beta in Q. lra.
    - apply Forall_forall. intros r Hr. exfalso. rewrite Forall_forall in Fr, Hnr. apply (Hnr r); [|apply (Fr r Hr)].
      eapply Permutation_in; [apply Permutation_sym, HP|]. apply in_or_app. right. apply in_or_app. right. exact Hr. }
  destruct (rfold _ _ _) as [[[p' z'] ss]| | |] eqn:Ef in E; cbn [bind] in E; try discriminate.
  apply (loop_no_real_zero sort) in Ef; [|exact Hz|rewrite <- (Permutation_length PP); exact HO].
  destruct (Nat.eqb_spec (length p') (length z')) as [Q1|Q1]; cbn [rassert bind] in E; [|discriminate].
  destruct (Nat.eqb_spec (length p') 0) as [Q2|Q2]; cbn [rassert bind] in E; [|discriminate].
  apply Ef. apply length_zero_iff_nil. exact Q2.
Qed.
