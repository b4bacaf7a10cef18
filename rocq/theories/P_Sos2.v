(** [zpk2sos_dyn]: what any successful run returns, and odd filters whose zeros are real. *)
From Coq Require Import List Arith ZArith Reals Permutation Sorted Lra Lia Bool.
From Verif Require Import Base Num Trans M_Complex M_Fourier M_Filter M_Design Cx S_Design P_Bessel P_Zi P_Poly P_Lp P_Proto P_Iir P_Sos.
Import ListNotations.
Local Open Scope R_scope.

Section One.
Variable sort : forall A : Type, (A -> A -> bool) -> list A -> list A.
Hypothesis Hsort : is_sort sort.

Lemma nearest_none (l : list C) to w : ~ (exists r, In r l /\ sel w r = true) -> nearest_real_complex_idx_dyn l to w = Panic.
Proof.
  intros Hn. unfold nearest_real_complex_idx_dyn. set (keep := match w with WReal => _ | WComplex => _ | WAny => _ end).
  assert (Ek : forall ia, In ia keep -> In ia (enumerate l) /\ sel w (snd ia) = true).
  { intros ia. unfold keep. destruct w; cbn [sel]; [apply filter_In|apply filter_In|]. tauto. }
  destruct keep as [|[i a] k]; [reflexivity|]. exfalso. apply Hn. destruct (Ek (i, a) (or_introl eq_refl)) as [Hi Hs]. exists a.
  split; [|exact Hs]. apply enumerate_in in Hi. apply nth_error_In in Hi. exact Hi.
Qed.
Lemma sel_dec w (l : list C) : {exists r, In r l /\ sel w r = true} + {~ exists r, In r l /\ sel w r = true}.
Proof.
  destruct (existsb (sel w) l) eqn:E; [left|right].
  - apply existsb_exists. exact E.
  - intros Q. apply existsb_exists in Q. congruence.
Qed.
Lemma section_czero s p1 z1 : section_of s [p1; czero] [z1; czero] -> section_of s [p1] [z1].
Proof.
  intros [S1 [S2 [S3 Sx]]]. split; [exact S1|]. split; [exact S2|]. split; [exact S3|]. intros x. destruct (Sx x) as [-> ->].
  cbn [length Nat.sub cpow root_product fold_right]. change (@czero R RNum) with C0. split; ring.
Qed.

Lemma step_any pairing analog p z sos :
  pair_step sort pairing analog (p, z, sos) = Panic \/
  exists pp p' zz z' s, pair_step sort pairing analog (p, z, sos) = Ok (p', z', sos ++ [s]) /\
    Permutation (full p) (pp ++ full p') /\ (1 <= length pp <= 2)%nat /\
    Permutation (full z) (zz ++ full z') /\ (length zz <= 2)%nat /\ section_of s pp zz.
Proof.
  destruct (list_eq_dec (fun a b : C => ltac:(destruct (Req_EM_T (fst a) (fst b)), (Req_EM_T (snd a) (snd b)); [left; apply C_ext; assumption|right; congruence..])) p []) as [->|Hpn];
    [left; reflexivity|].
  destruct (pick_worst analog p Hpn) as [i1 [p1 [p' [E1 [E2 HP]]]]]. unfold pair_step. rewrite E1. cbn [bind]. rewrite E2. cbn [bind].
  change (is_zero (cim p1)) with (isr p1).
  assert (FP : forall b, isr p1 = b -> Permutation (full p) ((if b then [p1] else [p1; cconj p1]) ++ full p')).
  { intros b Er. eapply Permutation_trans; [apply full_perm, HP|]. rewrite full_cons, Er. apply Permutation_refl. }
  destruct (isr p1 && (count_real p' =? 0)%nat) eqn:Esp1.
  { apply andb_true_iff in Esp1. destruct Esp1 as [Er _].
    assert (I0 : isr (@czero R RNum) = true) by (apply isr_true; reflexivity).
    destruct (is_minimal pairing).
    - destruct (sel_dec WReal z) as [Ex|Ex]; [|left; rewrite (nearest_none z p1 WReal Ex); reflexivity]. right.
      destruct (pick_nearest z p1 WReal Ex) as [j1 [z1 [z' [G1 [G2 [HZ Ez]]]]]]. cbn [sel] in Ez. rewrite G1. cbn [bind]. rewrite G2. cbn [bind].
      destruct (single_ok sort Hsort [z1; czero] [p1; czero]) as [s [Es Hs]]; try (cbn; lia); [apply conj_closed_reals; repeat constructor; assumption|apply conj_closed_reals; repeat constructor; assumption|].
      rewrite Es. cbn [bind]. exists [p1], p', [z1], z', s. split; [reflexivity|]. split; [apply (FP true Er)|]. split; [cbn; lia|].
      split; [eapply Permutation_trans; [apply full_perm, HZ|rewrite full_cons, Ez; apply Permutation_refl]|]. split; [cbn; lia|]. apply section_czero, Hs.
    - destruct (Nat.eqb_spec (length z) 0) as [Q|Q]; cbn [negb].
      + right. destruct z; [|discriminate]. destruct (single_ok sort Hsort [] [p1]) as [s [Es Hs]]; try (cbn; lia); [apply Permutation_refl|apply conj_closed_reals; repeat constructor; assumption|].
        rewrite Es. cbn [bind]. exists [p1], p', [], [], s. split; [reflexivity|]. split; [apply (FP true Er)|]. split; [cbn; lia|]. split; [apply Permutation_refl|]. split; [cbn; lia|exact Hs].
      + destruct (sel_dec WReal z) as [Ex|Ex]; [|left; rewrite (nearest_none z p1 WReal Ex); reflexivity]. right.
        destruct (pick_nearest z p1 WReal Ex) as [j1 [z1 [z' [G1 [G2 [HZ Ez]]]]]]. cbn [sel] in Ez. rewrite G1. cbn [bind]. rewrite G2. cbn [bind].
        destruct (single_ok sort Hsort [z1] [p1]) as [s [Es Hs]]; try (cbn; lia); [apply conj_closed_reals; repeat constructor; assumption|apply conj_closed_reals; repeat constructor; assumption|].
        rewrite Es. cbn [bind]. exists [p1], p', [z1], z', s. split; [reflexivity|]. split; [apply (FP true Er)|]. split; [cbn; lia|].
        split; [eapply Permutation_trans; [apply full_perm, HZ|rewrite full_cons, Ez; apply Permutation_refl]|]. split; [cbn; lia|exact Hs]. }
  destruct ((length p' + 1 =? length z)%nat && negb (isr p1) && (count_real p' =? 1)%nat && (count_real z =? 1)%nat) eqn:Esp2.
  { apply andb_true_iff in Esp2. destruct Esp2 as [Esp2 _]. apply andb_true_iff in Esp2. destruct Esp2 as [Esp2 _]. apply andb_true_iff in Esp2. destruct Esp2 as [_ Er]. apply negb_true_iff in Er.
    destruct (sel_dec WComplex z) as [Ex|Ex]; [|left; rewrite (nearest_none z p1 WComplex Ex); reflexivity]. right.
    destruct (pick_nearest z p1 WComplex Ex) as [j1 [z1 [z' [G1 [G2 [HZ Ez]]]]]]. cbn [sel] in Ez. apply negb_true_iff in Ez. rewrite G1. cbn [bind]. rewrite G2. cbn [bind].
    destruct (single_ok sort Hsort [z1; cconj z1] [p1; cconj p1]) as [s [Es Hs]]; try (cbn; lia); [apply conj_closed_pair|apply conj_closed_pair|].
    rewrite Es. cbn [bind]. exists [p1; cconj p1], p', [z1; cconj z1], z', s. split; [reflexivity|]. split; [apply (FP false Er)|]. split; [cbn; lia|].
    split; [eapply Permutation_trans; [apply full_perm, HZ|rewrite full_cons, Ez; apply Permutation_refl]|]. split; [cbn; lia|exact Hs]. }
  assert (P2 : exists p2 p'', (if isr p1 then
        let! i := idx_worst analog (map snd (filter (fun ip => is_zero (cim (snd ip))) (enumerate p'))) in
        let! ip := index (filter (fun ip => is_zero (cim (snd ip))) (enumerate p')) i in remove_at p' (fst ip)
      else Ok (cconj p1, p')) = Ok (p2, p'') /\ Permutation (full p) ([p1; p2] ++ full p'') /\ conj_closed [p1; p2]).
  { destruct (isr p1) eqn:Er.
    - cbn [andb] in Esp1. apply Nat.eqb_neq in Esp1.
      destruct (pick_worst_real analog p' Esp1) as [i [ip [p2 [p'' [F1 [F2 [F3 [HP' Er']]]]]]]]. exists p2, p''. rewrite F1. cbn [bind]. rewrite F2. cbn [bind].
      split; [exact F3|]. split.
      + eapply Permutation_trans; [apply full_perm; eapply Permutation_trans; [exact HP|apply perm_skip, HP']|]. rewrite !full_cons, Er, Er'. apply Permutation_refl.
      + apply conj_closed_reals. repeat constructor; assumption.
    - exists (cconj p1), p'. split; [reflexivity|]. split; [exact (FP false eq_refl)|apply conj_closed_pair]. }
  destruct P2 as [p2 [p'' [EP2 [PP2 CC2]]]]. cbv zeta. rewrite EP2. cbn [bind].
  assert (Out : forall zz z', conj_closed zz -> (length zz <= 2)%nat -> Permutation (full z) (zz ++ full z') ->
    exists pp p'0 zz0 z'0 s, (let! s := single_zpksos_dyn sort zz [p1; p2] none in Ok (p'', z', sos ++ [s])) = Ok (p'0, z'0, sos ++ [s]) /\
      Permutation (full p) (pp ++ full p'0) /\ (1 <= length pp <= 2)%nat /\ Permutation (full z) (zz0 ++ full z'0) /\ (length zz0 <= 2)%nat /\ section_of s pp zz0).
  { intros zz z' Hcz Lz HPz. destruct (single_ok sort Hsort zz [p1; p2]) as [s [Es Hs]]; [exact Hcz|exact CC2|lia|cbn; lia|].
    rewrite Es. cbn [bind]. exists [p1; p2], p'', zz, z', s. split; [reflexivity|]. split; [exact PP2|]. split; [cbn; lia|]. split; [exact HPz|]. split; [exact Lz|exact Hs]. }
  destruct (Nat.eqb_spec (length z) 0) as [Ez|Ez]; cbn [negb].
  { right. destruct z; [|discriminate]. apply (Out [] []); [apply Permutation_refl|cbn; lia|apply Permutation_refl]. }
  destruct (pick_nearest z p1 WAny) as [j1 [z1 [z' [G1 [G2 [HZ _]]]]]].
  { destruct z as [|r z0]; [contradiction Ez; reflexivity|]. exists r. split; reflexivity || (left; reflexivity). }
  rewrite G1. cbn [bind]. rewrite G2. cbn [bind]. change (is_zero (cim z1)) with (isr z1).
  destruct (isr z1) eqn:Ez1; cbn [negb].
  - destruct (Nat.eqb_spec (length z') 0) as [Q|Q]; cbn [negb].
    + right. destruct z'; [|discriminate]. apply (Out [z1] []); [apply conj_closed_reals; repeat constructor; assumption|cbn; lia|].
      eapply Permutation_trans; [apply full_perm, HZ|]. rewrite full_cons, Ez1. apply Permutation_refl.
    + destruct (sel_dec WReal z') as [Ex|Ex]; [|left; rewrite (nearest_none z' p1 WReal Ex); reflexivity]. right.
      destruct (pick_nearest z' p1 WReal Ex) as [j2 [z2 [z'' [K1 [K2 [HZ' Ez2]]]]]]. cbn [sel] in Ez2.
      rewrite K1. cbn [bind]. rewrite K2. cbn [bind]. change (is_zero (cim z2)) with (isr z2). rewrite Ez2. cbn [rassert bind].
      apply (Out [z1; z2] z''); [apply conj_closed_reals; repeat constructor; assumption|cbn; lia|].
      eapply Permutation_trans; [apply full_perm; eapply Permutation_trans; [exact HZ|apply perm_skip, HZ']|]. rewrite !full_cons, Ez1, Ez2. apply Permutation_refl.
  - right. apply (Out [z1; cconj z1] z'); [apply conj_closed_pair|cbn; lia|].
    eapply Permutation_trans; [apply full_perm, HZ|]. rewrite full_cons, Ez1. apply Permutation_refl.
Qed.

Lemma loop_any pairing analog : forall (idx : list nat) p z sos,
  rfold (fun st (_ : nat) => pair_step sort pairing analog st) idx (p, z, sos) = Panic \/
  exists p' z' ss, rfold (fun st (_ : nat) => pair_step sort pairing analog st) idx (p, z, sos) = Ok (p', z', sos ++ ss) /\
    length ss = length idx /\ Forall fresh ss /\
    (p' = [] -> z' = [] -> (length (full p) <= 2 * length ss)%nat /\ (length (full z) <= 2 * length ss)%nat /\
      forall x, sos_num ss x = (root_product (full z) x * cpow x (2 * length ss - length (full z)))%C /\
                sos_den ss x = (root_product (full p) x * cpow x (2 * length ss - length (full p)))%C).
Proof.
  induction idx as [|i idx IH]; intros p z sos; cbn [rfold].
  - right. exists p, z, []. rewrite app_nil_r. split; [reflexivity|]. split; [reflexivity|]. split; [constructor|]. intros -> ->. cbn. split; [lia|]. split; [lia|]. intros x. split; cx.
  - destruct (step_any pairing analog p z sos) as [E|[pp [p1 [zz [z1 [s [E [PP [Lp [PZ [Lz Hs]]]]]]]]]]]; rewrite E; cbn [bind]; [left; reflexivity|].
    destruct (IH p1 z1 (sos ++ [s])) as [E2|[p' [z' [ss [E2 [Ls [Fs Hx]]]]]]]; [left; exact E2|]. right.
    exists p', z', (s :: ss). rewrite E2, <- app_assoc. split; [reflexivity|]. split; [cbn; lia|].
    destruct Hs as [S1 [S2 [S3 Sx]]]. split; [constructor; [split; [exact S1|split; assumption]|exact Fs]|].
    intros N1 N2. destruct (Hx N1 N2) as (B1 & B2 & Hv).
    pose proof (Permutation_length PP) as LP. pose proof (Permutation_length PZ) as LZ. rewrite app_length in LP, LZ. cbn [length].
    split; [lia|]. split; [lia|]. intros x. rewrite sos_num_cons, sos_den_cons. destruct (Sx x) as [-> ->]. destruct (Hv x) as [-> ->].
    rewrite (rp_perm _ _ x PP), (rp_perm _ _ x PZ), !rp_app, LP, LZ.
    replace (2 * S (length ss) - (length pp + length (full p1)))%nat with ((2 - length pp) + (2 * length ss - length (full p1)))%nat by lia.
    replace (2 * S (length ss) - (length zz + length (full z1)))%nat with ((2 - length zz) + (2 * length ss - length (full z1)))%nat by lia.
    rewrite !cpow_add. split; ring.
Qed.

(** All zeros real, as many as poles: the loop does not panic. *)
Lemma all_real_full z : Forall (fun r => isr r = true) z -> full z = z /\ count_real z = length z.
Proof.
  intros HF. split.
  - apply full_real. eapply Forall_impl; [|exact HF]. intros r Hr. apply isr_true. exact Hr.
  - induction HF as [|r z Hr HF IH]; [reflexivity|]. rewrite count_real_cons, Hr, IH. reflexivity.
Qed.
Lemma step_real_zeros analog p z sos n : length (full p) = (2 * n + 1)%nat -> length z = (2 * n + 1)%nat ->
  Forall (fun r => isr r = true) z ->
  exists p' z' s, pair_step sort Minimal analog (p, z, sos) = Ok (p', z', sos ++ [s]) /\ Forall (fun r => isr r = true) z' /\
    length (full p') = length z' /\ ((length z' = 2 * n)%nat \/ (n <> 0%nat /\ length z' = 2 * (n - 1) + 1)%nat).
Proof.
  intros Hp Hz HF. destruct (all_real_full z HF) as [_ Cz].
  destruct (full_count' p) as [cp [Ecp Lcp]].
  assert (Hpn : p <> []) by (intros ->; cbn in Hp; lia).
  destruct (pick_worst analog p Hpn) as [i1 [p1 [p' [E1 [E2 HP]]]]]. unfold pair_step. rewrite E1. cbn [bind]. rewrite E2. cbn [bind].
  pose proof (count_real_perm _ _ HP) as Cp. rewrite count_real_cons in Cp.
  pose proof (Permutation_length (full_perm _ _ HP)) as LP. rewrite full_cons, app_length in LP.
  change (is_zero (cim p1)) with (isr p1).
  assert (I0 : isr (@czero R RNum) = true) by (apply isr_true; reflexivity).
  assert (Sub : forall a l l', Permutation l (a :: l') -> Forall (fun r => isr r = true) l -> Forall (fun r : C => isr r = true) l').
  { intros a l l' Hpm Hf. assert (Q : Forall (fun r => isr r = true) (a :: l')) by (eapply Permutation_Forall; eassumption). inversion Q; assumption. }
  assert (Ex : forall l : list C, l <> [] -> Forall (fun r => isr r = true) l -> forall w, w <> WComplex -> exists r, In r l /\ sel w r = true).
  { intros l Hn Hf w Hw. destruct l as [|r l]; [contradiction|]. exists r. split; [left; reflexivity|]. inversion Hf; subst. destruct w; [assumption|contradiction|reflexivity]. }
  destruct (isr p1 && (count_real p' =? 0)%nat) eqn:Esp1.
  { apply andb_true_iff in Esp1. destruct Esp1 as [Er _]. rewrite Er in *. cbn [length is_minimal] in *.
    destruct (pick_nearest z p1 WReal) as [j1 [z1 [z' [G1 [G2 [HZ Ez]]]]]]; [apply Ex; [intros ->; cbn in Hz; lia|exact HF|discriminate]|]. cbn [sel] in Ez.
    rewrite G1. cbn [bind]. rewrite G2. cbn [bind].
    destruct (single_ok sort Hsort [z1; czero] [p1; czero]) as [s [Es Hs]]; try (cbn; lia); [apply conj_closed_reals; repeat constructor; assumption|apply conj_closed_reals; repeat constructor; assumption|].
    rewrite Es. cbn [bind]. exists p', z', s. split; [reflexivity|]. pose proof (Permutation_length HZ) as LZ. cbn [length] in LZ.
    split; [apply (Sub _ _ _ HZ HF)|]. split; [lia|left; lia]. }
  replace ((length p' + 1 =? length z)%nat && negb (isr p1) && (count_real p' =? 1)%nat && (count_real z =? 1)%nat) with false.
  2:{ symmetry. destruct (isr p1) eqn:Er; [cbn [negb]; rewrite andb_false_r; reflexivity|]. cbn [length] in LP.
      replace (count_real z =? 1)%nat with false by (symmetry; apply Nat.eqb_neq; lia). apply andb_false_r. }
  assert (P2 : exists p2 p'', (if isr p1 then
        let! i := idx_worst analog (map snd (filter (fun ip => is_zero (cim (snd ip))) (enumerate p'))) in
        let! ip := index (filter (fun ip => is_zero (cim (snd ip))) (enumerate p')) i in remove_at p' (fst ip)
      else Ok (cconj p1, p')) = Ok (p2, p'') /\ length (full p) = (2 + length (full p''))%nat /\ conj_closed [p1; p2]).
  { destruct (isr p1) eqn:Er.
    - cbn [andb] in Esp1. apply Nat.eqb_neq in Esp1.
      destruct (pick_worst_real analog p' Esp1) as [i [ip [p2 [p'' [F1 [F2 [F3 [HP' Er']]]]]]]]. exists p2, p''. rewrite F1. cbn [bind]. rewrite F2. cbn [bind].
      split; [exact F3|]. split.
      + pose proof (Permutation_length (full_perm _ _ HP')) as LP'. rewrite full_cons, app_length, Er' in LP'. cbn [length] in *. lia.
      + apply conj_closed_reals. repeat constructor; assumption.
    - exists (cconj p1), p'. split; [reflexivity|]. split; [exact LP|apply conj_closed_pair]. }
  destruct P2 as [p2 [p'' [EP2 [PP2 CC2]]]]. cbv zeta. rewrite EP2. cbn [bind].
  destruct (Nat.eqb_spec (length z) 0) as [Q|_]; [lia|]. cbn [negb].
  destruct (pick_nearest z p1 WAny) as [j1 [z1 [z' [G1 [G2 [HZ _]]]]]]; [apply Ex; [intros ->; cbn in Hz; lia|exact HF|discriminate]|].
  rewrite G1. cbn [bind]. rewrite G2. cbn [bind]. change (is_zero (cim z1)) with (isr z1).
  assert (Ez1 : isr z1 = true) by (rewrite Forall_forall in HF; apply HF; eapply Permutation_in; [apply Permutation_sym, HZ|left; reflexivity]).
  rewrite Ez1. cbn [negb]. pose proof (Permutation_length HZ) as LZ. cbn [length] in LZ. pose proof (Sub _ _ _ HZ HF) as HF'.
  destruct (Nat.eqb_spec (length z') 0) as [Q|Q]; [lia|]. cbn [negb].
  destruct (pick_nearest z' p1 WReal) as [j2 [z2 [z'' [K1 [K2 [HZ' Ez2]]]]]]; [apply Ex; [intros ->; cbn in Q; lia|exact HF'|discriminate]|]. cbn [sel] in Ez2.
  rewrite K1. cbn [bind]. rewrite K2. cbn [bind]. change (is_zero (cim z2)) with (isr z2). rewrite Ez2. cbn [rassert bind].
  destruct (single_ok sort Hsort [z1; z2] [p1; p2]) as [s [Es Hs]]; try (cbn; lia); [apply conj_closed_reals; repeat constructor; assumption|exact CC2|].
  rewrite Es. cbn [bind]. exists p'', z'', s. split; [reflexivity|]. pose proof (Permutation_length HZ') as LZ'. cbn [length] in LZ'.
  split; [apply (Sub _ _ _ HZ' HF')|]. split; [lia|right; lia].
Qed.
Lemma loop_real_zeros analog n : forall p z sos (idx : list nat), length (full p) = (2 * n + 1)%nat -> length z = (2 * n + 1)%nat ->
  Forall (fun r => isr r = true) z -> length idx = S n ->
  exists ss, rfold (fun st (_ : nat) => pair_step sort Minimal analog st) idx (p, z, sos) = Ok ([], [], sos ++ ss).
Proof.
  induction n as [n IH] using lt_wf_ind. intros p z sos idx Hp Hz HF Hi.
  destruct idx as [|i0 idx]; [discriminate|]. injection Hi as Hi. cbn [rfold].
  destruct (step_real_zeros analog p z sos n Hp Hz HF) as [p' [z' [s [E [HF' [L [C|[N C]]]]]]]]; rewrite E; cbn [bind].
  - destruct (all_real_full z' HF') as [Q _].
    destruct (loop_even sort Hsort Minimal analog n n p' z' (sos ++ [s]) idx) as [ss [E2 _]]; try lia; [rewrite Q; exact C|].
    exists (s :: ss). rewrite E2, <- app_assoc. reflexivity.
  - destruct (IH (n - 1)%nat ltac:(lia) p' z' (sos ++ [s]) idx) as [ss E2]; try lia; [exact HF'|].
    exists (s :: ss). rewrite E2, <- app_assoc. reflexivity.
Qed.
End One.

Section Whole.
Variable epsilon : R.
Hypothesis He : 0 <= epsilon.
Variable sort : forall A : Type, (A -> A -> bool) -> list A -> list A.
Hypothesis Hsort : is_sort sort.

Lemma body_any n pairing analog z p k : real_filter (mkZpk z p k) -> separated epsilon z -> separated epsilon p ->
  body epsilon sort n pairing analog z p k = Panic \/
  exists sos, body epsilon sort n pairing analog z p k = Ok sos /\ length sos = n /\ Forall fresh sos /\
    (length p <= 2 * n)%nat /\ (length z <= 2 * n)%nat /\
    forall x, sos_num sos x = (RtoC k * root_product z x * cpow x (2 * n - length z))%C /\
              sos_den sos x = (root_product p x * cpow x (2 * n - length p))%C.
Proof.
  intros [Hcz Hcp] Hsz Hsp. cbn [zk_z zk_p] in *. unfold body.
  destruct (cplxreal_full epsilon He sort Hsort z Hcz Hsz) as [zc [zr [-> [PZ _]]]].
  destruct (cplxreal_full epsilon He sort Hsort p Hcp Hsp) as [pc [pr [-> [PP _]]]]. cbn [bind].
  destruct (loop_any sort Hsort pairing analog (seq 0 n) (pc ++ pr) (zc ++ zr) []) as [E|[p' [z' [ss [E [Ls [Fs Hx]]]]]]]; rewrite E; cbn [bind]; [left; reflexivity|].
  rewrite seq_length in Ls. cbn [app]. destruct (Nat.eqb_spec (length p') (length z')) as [Q1|Q1]; cbn [rassert bind]; [|left; reflexivity].
  destruct (Nat.eqb_spec (length p') 0) as [Q2|Q2]; cbn [rassert bind]; [|left; reflexivity].
  destruct ss as [|s0 ss0] eqn:Ess; [left; reflexivity|]. rewrite <- Ess in *. right.
  destruct (gain_first ss k) as [s [r [-> [Fg [Lg Hg]]]]]; [rewrite Ess; discriminate|exact Fs|].
  destruct (Hx ltac:(apply length_zero_iff_nil; lia) ltac:(apply length_zero_iff_nil; lia)) as (B1 & B2 & Hv). rewrite <- (Permutation_length PP), <- (Permutation_length PZ), Ls in *.
  eexists. split; [reflexivity|]. split; [lia|]. split; [exact Fg|]. split; [exact B1|]. split; [exact B2|]. intros x. destruct (Hg x) as [-> ->]. destruct (Hv x) as [-> ->].
  rewrite <- (rp_perm _ _ x PZ), <- (rp_perm _ _ x PP). split; [ring|reflexivity].
Qed.
Theorem zpk2sos_minimal_any order f pairing analog : minimal_pairing pairing analog ->
  real_filter f -> separated epsilon (zk_z f) -> separated epsilon (zk_p f) -> (0 < length (zk_p f))%nat ->
  let n := ((length (zk_p f) + 1) / 2)%nat in
  zpk2sos_dyn epsilon sort order f pairing analog = Panic \/
  exists sos, zpk2sos_dyn epsilon sort order f pairing analog = Ok sos /\ length sos = n /\ Forall fresh sos /\ proper f /\
    forall x, sos_num sos x = (RtoC (zk_k f) * root_product (zk_z f) x * cpow x (2 * n - length (zk_z f)))%C /\
              sos_den sos x = (root_product (zk_p f) x * cpow x (2 * n - length (zk_p f)))%C.
Proof.
  intros Hm Hr Hsz Hsp Hp n.
  destruct (le_lt_dec (length (zk_z f)) (length (zk_p f))) as [Hpr|Hpr].
  - rewrite (zpk2sos_minimal_body epsilon sort order f pairing analog Hm) by (unfold proper; lia). fold n.
    destruct f as [z p k]. cbn [zk_z zk_p zk_k] in *.
    destruct (body_any n Minimal (unwrap_or analog false) z p k Hr Hsz Hsp) as [E|[sos [E [Ls [Fs [B1 [B2 Hx]]]]]]]; [left; exact E|right].
    exists sos. split; [exact E|]. split; [exact Ls|]. split; [exact Fs|]. split; [exact Hpr|exact Hx].
  - left. assert (Ep : unwrap_or pairing (if unwrap_or analog false then Minimal else Nearest) = Minimal) by (destruct Hm as [->|[-> ->]]; reflexivity).
    rewrite zpk2sos_body; [|right; lia|rewrite Ep; apply andb_false_r]. rewrite Ep. unfold pad_zp. cbn [is_minimal negb].
    destruct (Nat.ltb_spec (length (zk_p f)) (length (zk_z f))); [reflexivity|lia].
Qed.
Theorem zpk2sos_minimal_real_zeros order f pairing analog n : minimal_pairing pairing analog ->
  real_filter f -> separated epsilon (zk_z f) -> separated epsilon (zk_p f) ->
  length (zk_p f) = (2 * n + 1)%nat -> length (zk_z f) = (2 * n + 1)%nat ->
  Forall (fun r => cim r = 0) (zk_z f) ->
  exists sos, zpk2sos_dyn epsilon sort order f pairing analog = Ok sos /\ length sos = S n /\ Forall fresh sos /\
    forall x, sos_num sos x = (RtoC (zk_k f) * root_product (zk_z f) x * x)%C /\
              sos_den sos x = (root_product (zk_p f) x * x)%C.
Proof.
  intros Hm Hr Hsz Hsp Lp Lz Hre.
  assert (En : ((length (zk_p f) + 1) / 2 = S n)%nat) by (rewrite Lp; replace (2 * n + 1 + 1)%nat with (S n * 2)%nat by lia; apply Nat.div_mul; lia).
  destruct (zpk2sos_minimal_any order f pairing analog Hm Hr Hsz Hsp ltac:(lia)) as [E|[sos [E [Ls [Fs [_ Hx]]]]]].
  - exfalso. rewrite (zpk2sos_minimal_body epsilon sort order f pairing analog Hm) in E by (unfold proper; lia).
    rewrite En in E. destruct f as [z p k]. destruct Hr as [Hcz Hcp]. cbn [zk_z zk_p zk_k] in *. unfold body in E.
    destruct (cplxreal_ok epsilon He sort Hsort z Hcz Hsz) as [zc [zr [E' [Fc [Fr HP]]]]].
    destruct (cplxreal_full epsilon He sort Hsort p Hcp Hsp) as [pc [pr [Epc [PP _]]]]. rewrite E', Epc in E. cbn [bind] in E.
    assert (zc = []) as ->.
    { destruct zc as [|r zc]; [reflexivity|]. exfalso. inversion Fc; subst. rewrite Forall_forall in Hre. assert (cim r = 0); [|lra].
      apply Hre. eapply Permutation_in; [apply Permutation_sym, HP|]. left. reflexivity. }
    cbn [app map] in *.
    destruct (loop_real_zeros sort Hsort (unwrap_or analog false) n (pc ++ pr) zr [] (seq 0 (S n))) as [ss Ess].
    + rewrite <- (Permutation_length PP). exact Lp.
    + rewrite <- (Permutation_length HP). exact Lz.
    + eapply Forall_impl; [|exact Fr]. intros r Q. apply isr_true. exact Q.
    + apply seq_length.
    + destruct (loop_any sort Hsort Minimal (unwrap_or analog false) (seq 0 (S n)) (pc ++ pr) zr []) as [Q|[p1 [z1 [ss1 [Q [Ls _]]]]]]; rewrite Ess in Q; [discriminate|].
      injection Q as _ _ Q. rewrite Ess in E. cbn [bind length Nat.eqb rassert app] in E. rewrite seq_length in Ls.
      destruct (rev ss) eqn:Er; [|discriminate E]. apply (f_equal (@length _)) in Er. rewrite rev_length, Q, Ls in Er. discriminate Er.
  - exists sos. rewrite Ls, En in *. split; [exact E|]. split; [reflexivity|]. split; [exact Fs|]. intros x. destruct (Hx x) as [-> ->]. rewrite Lp, Lz.
    replace (2 * S n - (2 * n + 1))%nat with 1%nat by lia. cbn [cpow]. split; ring.
Qed.
End Whole.
