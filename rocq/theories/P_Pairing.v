(** The order in which zpk2sos_dyn pairs poles and zeros. *)
From Coq Require Import List Arith ZArith Reals Permutation Lra Lia Bool.
From Verif Require Import Base Num Trans M_Complex M_Fourier M_Filter M_Design Cx S_Design S_Pairing P_Bessel P_Zi P_Poly P_Lp P_Sort P_Proto P_Iir P_Iir2 P_Sos.
Import ListNotations.
Local Open Scope R_scope.

Section Boundary.
Variable analog : bool.
(** ** Selections are minimal *)
Lemma min_by_from_le (l : list (nat * R)) : forall b y, In y (b :: l) -> snd (min_by_from b l) <= snd y.
Proof.
  induction l as [|x l IH]; intros b y Hy; cbn [min_by_from].
  - destruct Hy as [->|[]]. lra.
  - change (nltb (snd x) (snd b)) with (Rltb (snd x) (snd b)). unfold Rltb. destruct (Rlt_dec (snd x) (snd b)) as [L|L].
    + destruct Hy as [->|Hy]; [|apply IH, Hy]. apply Rle_trans with (snd x); [apply IH; left; reflexivity|lra].
    + destruct Hy as [->|[->|Hy]]; [apply IH; left; reflexivity| |apply IH; right; exact Hy].
      apply Rle_trans with (snd b); [apply IH; left; reflexivity|lra].
Qed.
Lemma min_by_idx_min (l : list (nat * R)) : l <> [] -> exists i k, min_by_idx l = Ok i /\ In (i, k) l /\ forall y, In y l -> k <= snd y.
Proof.
  destruct l as [|x l]; [intros Hn; contradiction|]. intros _. cbn [min_by_idx].
  exists (fst (min_by_from x l)), (snd (min_by_from x l)). split; [reflexivity|]. split; [rewrite <- surjective_pairing; apply min_by_from_in|].
  apply min_by_from_le.
Qed.
Lemma idx_worst_min (p : list C) : p <> [] -> exists i a, idx_worst analog p = Ok i /\ nth_error p i = Some a /\ forall r, In r p -> badness analog a <= badness analog r.
Proof.
  intros Hn. unfold idx_worst. match goal with |- context [min_by_idx ?l] => destruct (min_by_idx_min l) as [i [k [E' [Hin Hk]]]] end.
  { destruct p; [contradiction|]. discriminate. }
  apply in_map_iff in Hin. destruct Hin as [[j a] [Ej Hin]]. pose proof (f_equal snd Ej) as Ek. apply (f_equal fst) in Ej. cbn [fst snd] in Ej, Ek. subst j.
  exists i, a. split; [exact E'|]. split; [apply enumerate_in; exact Hin|]. intros r Hr. destruct (enumerate_mem p r Hr) as [j Hj].
  destruct analog; unfold badness, circle_dist.
  - change (Rabs (cre a)) with (nabs (cre a)). rewrite Ek.
    change (Rabs (cre r)) with (snd (fst (j, r), nabs (cre (snd (j, r))))). apply Hk. apply (in_map (fun ip : nat * C => (fst ip, nabs (cre (snd ip)))) _ (j, r)). exact Hj.
  - change (Rabs (1 - cnorm a)) with (nabs (none - cnorm a)%num). rewrite Ek.
    change (Rabs (1 - cnorm r)) with (snd (fst (j, r), nabs (none - cnorm (snd (j, r)))%num)). apply Hk. apply (in_map (fun ip : nat * C => (fst ip, nabs (none - cnorm (snd ip))%num)) _ (j, r)). exact Hj.
Qed.
Lemma nearest_min (l : list C) to w : (exists r, In r l /\ sel w r = true) ->
  exists i a, nearest_real_complex_idx_dyn l to w = Ok i /\ nth_error l i = Some a /\ sel w a = true /\
    forall r, In r l -> sel w r = true -> dist a to <= dist r to.
Proof.
  intros [r [Hr Hs]]. unfold nearest_real_complex_idx_dyn. set (keep := match w with WReal => _ | WComplex => _ | WAny => _ end).
  assert (Ek : forall ia, In ia keep <-> In ia (enumerate l) /\ sel w (snd ia) = true).
  { intros ia. unfold keep. destruct w; cbn [sel]; [apply filter_In|apply filter_In|]. tauto. }
  match goal with |- context [min_by_idx ?l] => destruct (min_by_idx_min l) as [i [k [E' [Hin Hk]]]] end.
  { destruct (enumerate_mem l r Hr) as [i Hi]. assert (Hk : In (i, r) keep) by (apply Ek; split; assumption).
    destruct keep; [contradiction|discriminate]. }
  apply in_map_iff in Hin. destruct Hin as [[j a] [Ej Hin]]. pose proof (f_equal snd Ej) as Ed. apply (f_equal fst) in Ej. cbn [fst snd] in Ej, Ed. subst j.
  apply Ek in Hin. destruct Hin as [Hin Hsa]. exists i, a. split; [exact E'|]. split; [apply enumerate_in, Hin|]. split; [exact Hsa|].
  intros q Hq Hsq. destruct (enumerate_mem l q Hq) as [j Hj]. unfold dist. change (cnorm (a - to)%C) with (cnorm (csub a to)). rewrite Ed.
  change (cnorm (q - to)%C) with (snd (fst (j, q), cnorm (csub (snd (j, q)) to))). apply Hk. apply (in_map (fun ai : nat * C => (fst ai, cnorm (csub (snd ai) to))) _ (j, q)). apply Ek. split; assumption.
Qed.
Lemma take_worst (p : list C) : p <> [] ->
  exists i a p', idx_worst analog p = Ok i /\ remove_at p i = Ok (a, p') /\ Permutation p (a :: p') /\ forall r, In r p -> badness analog a <= badness analog r.
Proof.
  intros Hn. destruct (idx_worst_min p Hn) as [i [a [E' [Hi Hm]]]]. destruct (remove_at_ok p i a Hi) as [p' [Er HP]].
  exists i, a, p'. auto.
Qed.
Lemma take_nearest (l : list C) to w : (exists r, In r l /\ sel w r = true) ->
  exists i a l', nearest_real_complex_idx_dyn l to w = Ok i /\ remove_at l i = Ok (a, l') /\ Permutation l (a :: l') /\ sel w a = true /\
    forall r, In r l -> sel w r = true -> dist a to <= dist r to.
Proof.
  intros Hex. destruct (nearest_min l to w Hex) as [i [a [E' [Hi [Hs Hm]]]]]. destruct (remove_at_ok l i a Hi) as [l' [Er HP]].
  exists i, a, l'. auto.
Qed.
Lemma take_worst_real (p : list C) : count_real p <> 0%nat ->
  let preal := filter (fun ip => is_zero (cim (snd ip))) (enumerate p) in
  exists i ip a p', idx_worst analog (map snd preal) = Ok i /\ index preal i = Ok ip /\ remove_at p (fst ip) = Ok (a, p') /\
    Permutation p (a :: p') /\ isr a = true /\ forall r, In r p -> isr r = true -> badness analog a <= badness analog r.
Proof.
  intros Hc preal. destruct (count_real_pos p Hc) as [r [Hr Er]]. destruct (enumerate_mem p r Hr) as [j Hj].
  assert (Hin : In (j, r) preal) by (apply filter_In; split; [exact Hj|exact Er]).
  destruct (idx_worst_min (map snd preal)) as [i [a [E' [Hi Hm]]]].
  { destruct preal; [contradiction|discriminate]. }
  rewrite nth_error_map in Hi. destruct (nth_error preal i) as [[j' a']|] eqn:En; [|discriminate]. cbn in Hi. injection Hi as ->.
  assert (Hin' := nth_error_In _ _ En). apply filter_In in Hin'. destruct Hin' as [Hin' Ha]. apply enumerate_in in Hin'.
  destruct (remove_at_ok p j' a Hin') as [p' [Erm HP]].
  exists i, (j', a), a, p'. split; [exact E'|]. split; [unfold index; rewrite En; reflexivity|]. split; [exact Erm|]. split; [exact HP|]. split; [exact Ha|].
  intros q Hq Eq. apply Hm. destruct (enumerate_mem p q Hq) as [k Hk]. apply in_map_iff. exists (k, q). split; [reflexivity|]. apply filter_In. split; assumption.
Qed.

(** ** Conjugates *)
Lemma cnorm_conj (r : C) : cnorm (cconj r) = cnorm r.
Proof. rewrite ?cnorm_def; unfold cnorm_sqr. f_equal. cbn. ring. Qed.
Lemma circle_conj r : badness analog (cconj r) = badness analog r.
Proof. unfold badness, circle_dist. rewrite cnorm_conj. reflexivity. Qed.
Lemma dist_conj r q : 0 <= cim r -> 0 <= cim q -> dist r q <= dist (cconj r) q.
Proof.
  intros Hr Hq. unfold dist; rewrite ?cnorm_def. apply sqrt_le_1_alt. unfold cnorm_sqr. destruct r as [a b], q as [c d]. cbn in *. nra.
Qed.
Lemma full_in r l : In r (full l) -> In r l \/ (In (cconj r) l /\ cim r <> 0).
Proof.
  unfold full. intros Hr. apply in_flat_map in Hr. destruct Hr as [q [Hq Hr]]. destruct (isr q) eqn:Eq.
  - destruct Hr as [<-|[]]. left. exact Hq.
  - destruct Hr as [<-|[<-|[]]]; [left; exact Hq|right]. rewrite cconj_conj. split; [exact Hq|]. apply isr_false in Eq. cbn. change (snd q) with (cim q). lra.
Qed.
Definition upper (l : list C) : Prop := Forall (fun r => 0 <= cim r) l.
Lemma upper_perm l m : Permutation l m -> upper l -> upper m.
Proof. intros HP. apply Permutation_Forall, HP. Qed.
Lemma full_circle a l : (forall r, In r l -> badness analog a <= badness analog r) -> forall r, In r (full l) -> badness analog a <= badness analog r.
Proof. intros Hm r Hr. destruct (full_in r l Hr) as [H|[H _]]; [apply Hm, H|]. rewrite <- (circle_conj r). apply Hm, H. Qed.
Lemma full_real_in r l : In r (full l) -> cim r = 0 -> In r l.
Proof. intros Hr E. destruct (full_in r l Hr) as [H|[_ H]]; [exact H|contradiction]. Qed.
Lemma full_dist a q l : upper l -> 0 <= cim q -> (forall r, In r l -> dist a q <= dist r q) -> forall r, In r (full l) -> dist a q <= dist r q.
Proof.
  intros Hu Hq Hm r Hr. destruct (full_in r l Hr) as [H|[H _]]; [apply Hm, H|]. eapply Rle_trans; [apply Hm, H|].
  unfold upper in Hu. rewrite Forall_forall in Hu. specialize (Hu _ H). rewrite <- (cconj_conj r) at 2. apply dist_conj; assumption.
Qed.

Section Loop.
Variable pairing : ZpkPairing.
Variable epsilon : R.
Hypothesis He : 0 <= epsilon.
Variable sort : forall A : Type, (A -> A -> bool) -> list A -> list A.
Hypothesis Hsort : is_sort sort.

Definition section_ok (g : roots4) : Prop :=
  real_pair (pole1 g) (pole2 g) /\ real_pair (zero1 g) (zero2 g) /\
  badness analog (pole1 g) <= badness analog (pole2 g) /\ dist (zero1 g) (pole1 g) <= dist (zero2 g) (pole1 g).
Lemma section_roots s p1 p2 z1 z2 : section_of s [p1; p2] [z1; z2] -> has_roots 1 s (mkRoots p1 p2 z1 z2).
Proof.
  intros [A0 [Z0 [Z1 Hx]]]. split; [exact A0|]. split; [exact Z0|]. split; [exact Z1|]. intros x. destruct (Hx x) as [-> ->]. cbn [length Nat.sub cpow root_product fold_right zero1 zero2 pole1 pole2].
  change (RtoC 1) with C1. split; ring.
Qed.

Lemma step_nearest p z sos n : upper p -> upper z -> length (full p) = (2 * S n)%nat -> length (full z) = (2 * S n)%nat ->
  exists g p' z' s, pair_step sort pairing analog (p, z, sos) = Ok (p', z', sos ++ [s]) /\ upper p' /\ upper z' /\
    Permutation (full p) (poles_of g ++ full p') /\ Permutation (full z) (zeros_of g ++ full z') /\ has_roots 1 s g /\
    section_ok g /\ chosen_from analog g (full p') (full z').
Proof.
  intros Up Uz Hp Hz. destruct (full_count p) as [cp Ecp]. destruct (full_count z) as [cz Ecz].
  assert (Hpn : p <> []) by (intros ->; discriminate Hp). assert (Hzn : z <> []) by (intros ->; discriminate Hz).
  destruct (take_worst p Hpn) as [i1 [p1 [p' [E1 [E2 [HP Min1]]]]]]. unfold pair_step. rewrite E1. cbn [bind]. rewrite E2. cbn [bind].
  pose proof (count_real_perm _ _ HP) as Cp. rewrite count_real_cons in Cp.
  assert (Up1 := upper_perm _ _ HP Up). inversion Up1 as [|? ? Hp1 Up']. subst.
  change (is_zero (cim p1)) with (isr p1).
  assert (Min1f : forall r, In r (full p) -> badness analog p1 <= badness analog r) by (apply full_circle, Min1).
  assert (P2 : exists p2 p'', (if isr p1 then
        let! i := idx_worst analog (map snd (filter (fun ip => is_zero (cim (snd ip))) (enumerate p'))) in
        let! ip := index (filter (fun ip => is_zero (cim (snd ip))) (enumerate p')) i in remove_at p' (fst ip)
      else Ok (cconj p1, p')) = Ok (p2, p'') /\ Permutation (full p) ([p1; p2] ++ full p'') /\ conj_closed [p1; p2] /\ upper p'' /\ real_pair p1 p2 /\
      (forall r, In r (full p'') -> cim p1 = 0 -> cim r = 0 -> badness analog p2 <= badness analog r)).
  { destruct (isr p1) eqn:Er.
    - assert (Hc : count_real p' <> 0%nat) by (cbn in Cp; lia).
      destruct (take_worst_real p' Hc) as [i [ip [p2 [p'' [F1 [F2 [F3 [HP' [Er' Min2]]]]]]]]]. exists p2, p''. rewrite F1. cbn [bind]. rewrite F2. cbn [bind].
      assert (Up2 := upper_perm _ _ HP' Up'). inversion Up2. subst.
      split; [exact F3|]. split; [|split; [|split; [assumption|split]]].
      + eapply Permutation_trans; [apply full_perm; eapply Permutation_trans; [exact HP|apply perm_skip, HP']|]. rewrite !full_cons, Er, Er'. apply Permutation_refl.
      + apply conj_closed_reals. repeat constructor; assumption.
      + left. split; apply isr_true; assumption.
      + intros r Hr _ Cr. apply Min2; [|apply isr_true, Cr]. apply Permutation_in with (1 := Permutation_sym HP'). right. apply full_real_in; assumption.
    - exists (cconj p1), p'. split; [reflexivity|]. split; [|split; [apply conj_closed_pair|split; [exact Up'|split]]].
      + eapply Permutation_trans; [apply full_perm, HP|]. rewrite full_cons, Er. apply Permutation_refl.
      + right. split; [apply isr_false, Er|reflexivity].
      + intros r _ Q. apply isr_false in Er. contradiction. }
  destruct P2 as [p2 [p'' [EP2 [PP2 [CC2 [Up'' [RP2 Min2]]]]]]].
  replace (isr p1 && (count_real p' =? 0)%nat) with false.
  2:{ symmetry. apply andb_false_iff. destruct (isr p1); [right|left; reflexivity]. apply Nat.eqb_neq. cbn in Cp. lia. }
  replace ((length p' + 1 =? length z)%nat && negb (isr p1) && (count_real p' =? 1)%nat && (count_real z =? 1)%nat) with false.
  2:{ symmetry. destruct (isr p1); [rewrite andb_false_r; reflexivity|]. cbn in Cp.
      replace (count_real p' =? 1)%nat with false by (symmetry; apply Nat.eqb_neq; lia). rewrite !andb_false_r. reflexivity. }
  cbv zeta. rewrite EP2. cbn [bind].
  destruct (Nat.eqb_spec (length z) 0) as [Ez|Ez]; cbn [negb]; [destruct z; [contradiction|discriminate]|].
  destruct (take_nearest z p1 WAny) as [j1 [z1 [z' [G1 [G2 [HZ [_ Mz1]]]]]]].
  { destruct z as [|r z0]; [contradiction Ez; reflexivity|]. exists r. split; reflexivity || (left; reflexivity). }
  assert (Uz1 := upper_perm _ _ HZ Uz). inversion Uz1 as [|? ? Hz1 Uz']. subst.
  assert (Mz1f : forall r, In r (full z) -> dist z1 p1 <= dist r p1).
  { apply full_dist; [exact Uz|exact Hp1|]. intros r Hr. apply Mz1; [exact Hr|reflexivity]. }
  rewrite G1. cbn [bind]. rewrite G2. cbn [bind]. change (is_zero (cim z1)) with (isr z1).
  pose proof (count_real_perm _ _ HZ) as Cz. rewrite count_real_cons in Cz.
  assert (Mp12 : badness analog p1 <= badness analog p2) by (apply Min1f, (Permutation_in _ (Permutation_sym PP2)); right; left; reflexivity).
  assert (Mp : forall r, In r (full p'') -> badness analog p1 <= badness analog r).
  { intros r Hr. apply Min1f, (Permutation_in _ (Permutation_sym PP2)), in_or_app. right. exact Hr. }
  destruct (isr z1) eqn:Ez1; cbn [negb].
  - assert (Hc : count_real z' <> 0%nat) by lia. destruct (Nat.eqb_spec (length z') 0) as [Q|Q]; cbn [negb].
    { destruct z'; [|discriminate]. exact (False_ind _ (Hc eq_refl)). }
    destruct (take_nearest z' p1 WReal (count_real_pos z' Hc)) as [j2 [z2 [z'' [K1 [K2 [HZ' [Ez2 Mz2]]]]]]]. cbn [sel] in Ez2.
    rewrite K1. cbn [bind]. rewrite K2. cbn [bind]. change (is_zero (cim z2)) with (isr z2). rewrite Ez2. cbn [rassert bind].
    destruct (single_ok sort Hsort [z1; z2] [p1; p2]) as [s [Es Hs]]; try (cbn; lia); [apply conj_closed_reals; repeat constructor; assumption|exact CC2|].
    rewrite Es. cbn [bind]. exists (mkRoots p1 p2 z1 z2), p'', z'', s. split; [reflexivity|]. split; [exact Up''|].
    assert (Uz2 := upper_perm _ _ HZ' Uz'). inversion Uz2. subst. split; [assumption|]. split; [exact PP2|].
    assert (PZ : Permutation (full z) ([z1; z2] ++ full z'')).
    { eapply Permutation_trans; [apply full_perm; eapply Permutation_trans; [exact HZ|apply perm_skip, HZ']|]. rewrite !full_cons, Ez1, Ez2. apply Permutation_refl. }
    split; [exact PZ|]. split; [apply section_roots, Hs|]. split.
    + split; [exact RP2|]. split; [left; split; apply isr_true; assumption|]. split; [exact Mp12|].
      apply Mz1f, (Permutation_in _ (Permutation_sym PZ)). right. left. reflexivity.
    + split; [exact Mp|]. split; [exact Min2|]. split.
      * intros r Hr. apply Mz1f, (Permutation_in _ (Permutation_sym PZ)), in_or_app. right. exact Hr.
      * intros r Hr _ Cr. apply Mz2; [|apply isr_true, Cr]. apply (Permutation_in _ (Permutation_sym HZ')). right. apply full_real_in; assumption.
  - destruct (single_ok sort Hsort [z1; cconj z1] [p1; p2]) as [s [Es Hs]]; try (cbn; lia); [apply conj_closed_pair|exact CC2|].
    rewrite Es. cbn [bind]. exists (mkRoots p1 p2 z1 (cconj z1)), p'', z', s. split; [reflexivity|]. split; [exact Up''|]. split; [exact Uz'|]. split; [exact PP2|].
    assert (PZ : Permutation (full z) ([z1; cconj z1] ++ full z')).
    { eapply Permutation_trans; [apply full_perm, HZ|]. rewrite full_cons, Ez1. apply Permutation_refl. }
    split; [exact PZ|]. split; [apply section_roots, Hs|]. split.
    + split; [exact RP2|]. split; [right; split; [apply isr_false, Ez1|reflexivity]|]. split; [exact Mp12|].
      apply Mz1f, (Permutation_in _ (Permutation_sym PZ)). right. left. reflexivity.
    + split; [exact Mp|]. split; [exact Min2|]. split.
      * intros r Hr. apply Mz1f, (Permutation_in _ (Permutation_sym PZ)), in_or_app. right. exact Hr.
      * intros r _ Q. apply isr_false in Ez1. contradiction.
Qed.

(** Groups in the order of processing: each is chosen from all those after it. *)
Inductive processed : list roots4 -> Prop :=
| proc_nil : processed []
| proc_cons g gs : section_ok g -> chosen_from analog g (flat_map poles_of gs) (flat_map zeros_of gs) -> processed gs -> processed (g :: gs).
Lemma chosen_perm g p p' z z' : Permutation p p' -> Permutation z z' -> chosen_from analog g p z -> chosen_from analog g p' z'.
Proof.
  intros HP HZ [C1 [C2 [C3 C4]]]. apply Permutation_sym in HP, HZ.
  split; [|split; [|split]]; intros r Hr; [apply C1|apply C2|apply C3|apply C4]; try (apply (Permutation_in _ HP), Hr); apply (Permutation_in _ HZ), Hr.
Qed.

Lemma loop_nearest n : forall p z sos (idx : list nat), upper p -> upper z -> length (full p) = (2 * n)%nat -> length (full z) = (2 * n)%nat -> length idx = n ->
  exists gs ss, rfold (fun st (_ : nat) => pair_step sort pairing analog st) idx (p, z, sos) = Ok ([], [], sos ++ ss) /\
    Forall2 (has_roots 1) ss gs /\ processed gs /\ Permutation (full p) (flat_map poles_of gs) /\ Permutation (full z) (flat_map zeros_of gs) /\ length gs = n.
Proof.
  induction n as [|n IH]; intros p z sos idx Up Uz Hp Hz Hi.
  - destruct idx; [|discriminate]. rewrite (full_nil p Hp), (full_nil z Hz). exists [], []. rewrite app_nil_r.
    split; [reflexivity|]. split; [constructor|]. split; [constructor|]. split; [constructor|]. split; [constructor|reflexivity].
  - destruct idx as [|i0 idx]; [discriminate|]. injection Hi as Hi. cbn [rfold].
    destruct (step_nearest p z sos n Up Uz Hp Hz) as [g [p' [z' [s [E' [Up' [Uz' [PP [ZZ [Hs [Hg Hc]]]]]]]]]]]. rewrite E'. cbn [bind].
    pose proof (Permutation_length PP) as LP. pose proof (Permutation_length ZZ) as LZ. rewrite app_length in LP, LZ. cbn [poles_of zeros_of length] in LP, LZ.
    destruct (IH p' z' (sos ++ [s]) idx Up' Uz') as [gs [ss [Er [F2 [Pr [P1 [P2 Lg]]]]]]]; try lia.
    exists (g :: gs), (s :: ss). rewrite Er, <- app_assoc. split; [reflexivity|]. split; [constructor; assumption|].
    split; [constructor; [exact Hg|eapply chosen_perm; [exact P1|exact P2|exact Hc]|exact Pr]|].
    cbn [flat_map length]. split; [|split; [|lia]].
    + eapply Permutation_trans; [exact PP|]. apply Permutation_app_head, P1.
    + eapply Permutation_trans; [exact ZZ|]. apply Permutation_app_head, P2.
Qed.

Lemma processed_rev gs : processed gs -> nearest_pairing analog (rev gs).
Proof.
  induction 1 as [|g gs Hg Hc Hp [IH1 IH2]].
  - split; [intros ? []|]. intros i j a b _ Q. destruct i; discriminate Q.
  - cbn [rev]. split.
    + intros a Ha. apply in_app_or in Ha. destruct Ha as [Ha|[<-|[]]]; [apply IH1, Ha|exact Hg].
    + intros i j a b Hij Ha Hb. assert (Lj : (j < length (rev gs ++ [g]))%nat) by (apply nth_error_Some; congruence).
      rewrite app_length in Lj. cbn [length] in Lj. rewrite nth_error_app1 in Ha by lia.
      destruct (Nat.eq_dec j (length (rev gs))) as [->|Nj].
      * rewrite nth_error_app2, Nat.sub_diag in Hb by lia. injection Hb as <-. apply nth_error_In, in_rev in Ha.
        destruct Hc as [C1 [C2 [C3 C4]]].
        split; [|split; [|split]]; intros r Hr; [apply C1|apply C2|apply C3|apply C4]; apply in_flat_map; exists a; split; assumption.
      * rewrite nth_error_app1 in Hb by lia. exact (IH2 i j a b Hij Ha Hb).
Qed.

Lemma cplxreal_upper z : conj_closed z -> separated epsilon z ->
  exists zc zr, cplxreal_dyn epsilon sort z None = Ok (zc, zr) /\ Permutation z (full (zc ++ zr)) /\ upper (zc ++ zr).
Proof.
  intros Hc Hs. destruct (cplxreal_ok epsilon He sort Hsort z Hc Hs) as [zc [zr [E' [Fc [Fr HP]]]]]. exists zc, zr. split; [exact E'|]. split.
  - eapply Permutation_trans; [exact HP|]. rewrite full_app, app_assoc, (full_real zr Fr). apply Permutation_app_tail, Permutation_sym, full_pos, Fc.
  - apply Forall_app. split; [eapply Forall_impl; [|exact Fc]|eapply Forall_impl; [|exact Fr]]; cbn; intros; lra.
Qed.

Lemma body_nearest n z p k : real_filter (mkZpk z p k) -> separated epsilon z -> separated epsilon p ->
  length p = (2 * S n)%nat -> length z = (2 * S n)%nat ->
  exists s ss g gs, body epsilon sort (S n) pairing analog z p k = Ok (s :: ss) /\ length ss = n /\ has_roots k s g /\ Forall2 (has_roots 1) ss gs /\
    Permutation p (flat_map poles_of (g :: gs)) /\ Permutation z (flat_map zeros_of (g :: gs)) /\ nearest_pairing analog (g :: gs).
Proof.
  intros [Hcz Hcp] Hsz Hsp Lp Lz. cbn [zk_z zk_p] in *. unfold body.
  destruct (cplxreal_upper z Hcz Hsz) as [zc [zr [-> [PZ UZ]]]]. destruct (cplxreal_upper p Hcp Hsp) as [pc [pr [-> [PP UP]]]]. cbn [bind].
  destruct (loop_nearest (S n) (pc ++ pr) (zc ++ zr) [] (seq 0 (S n)) UP UZ) as [gs [ss [-> [F2 [Pr [P1 [P2 Lg]]]]]]].
  { rewrite <- (Permutation_length PP). exact Lp. } { rewrite <- (Permutation_length PZ). exact Lz. } { apply seq_length. }
  cbn [bind length Nat.eqb rassert app].
  assert (FR : Forall2 (has_roots 1) (rev ss) (rev gs)).
  { clear - F2. induction F2; cbn [rev]; [constructor|]. apply Forall2_app; [exact IHF2|constructor; [assumption|constructor]]. }
  pose proof (processed_rev gs Pr) as NP. pose proof (P_Sos.Forall2_len _ _ _ FR) as LR. rewrite !rev_length in LR.
  assert (R1 : Permutation (flat_map poles_of gs) (flat_map poles_of (rev gs))) by apply Permutation_flat_map, Permutation_rev.
  assert (R2 : Permutation (flat_map zeros_of gs) (flat_map zeros_of (rev gs))) by apply Permutation_flat_map, Permutation_rev.
  assert (Lrev : length (rev gs) = S n) by (rewrite rev_length; exact Lg).
  destruct FR as [|s g ss' gs' Hs FR]; [discriminate Lrev|].
  exists (with_gain k s), ss', g, gs'. split; [reflexivity|]. split; [rewrite (P_Sos.Forall2_len _ _ _ FR); cbn in Lrev; lia|]. split; [|split; [exact FR|]].
  - destruct Hs as [A0 [Z0 [Z1 Hx]]]. split; [destruct s; exact A0|]. split; [destruct s; exact Z0|]. split; [destruct s; exact Z1|]. intros x.
    rewrite with_gain_num. destruct (Hx x) as [-> Hd]. split; [change (RtoC 1) with C1; ring|]. rewrite <- Hd. destruct s. reflexivity.
  - split; [|split; [|exact NP]].
    + eapply Permutation_trans; [exact PP|]. eapply Permutation_trans; [exact P1|exact R1].
    + eapply Permutation_trans; [exact PZ|]. eapply Permutation_trans; [exact P2|exact R2].
Qed.
End Loop.
End Boundary.
