(** The pairing loop of zpk2sos over any number type: which roots a section takes.
    Nothing is assumed of the comparisons. *)
From Coq Require Import Reals ZArith List Lia Lra Bool Permutation.
From Verif Require Import Base Num Trans M_Complex M_Filter M_Design P_Sos.
Import ListNotations.

Section Gen.
Context {F : Type} {NF : Num F} {TF : Trans F}.
Variable sort : forall A : Type, (A -> A -> bool) -> list A -> list A.
Definition gisr (r : cplx F) : bool := is_zero (cim r).
Definition gfull (l : list (cplx F)) : list (cplx F) := flat_map (fun r => if gisr r then [r] else [r; cconj r]) l.
Lemma gfull_cons r l : gfull (r :: l) = (if gisr r then [r] else [r; cconj r]) ++ gfull l.
Proof. reflexivity. Qed.
Lemma gfull_app l m : gfull (l ++ m) = gfull l ++ gfull m.
Proof. apply flat_map_app. Qed.
Lemma gfull_perm l m : Permutation l m -> Permutation (gfull l) (gfull m).
Proof. intros HP. apply Permutation_flat_map. exact HP. Qed.
Lemma gfull_nil l : length (gfull l) = 0%nat -> l = [].
Proof. destruct l as [|r l]; [reflexivity|]. rewrite gfull_cons. destruct (gisr r); discriminate. Qed.
Lemma gfull_count l : exists c, length (gfull l) = (count_real l + 2 * c)%nat.
Proof.
  induction l as [|r l [c IH]]; [exists 0%nat; reflexivity|]. rewrite gfull_cons, app_length. unfold count_real. cbn [filter].
  change (is_zero (cim r)) with (gisr r). fold (count_real l). destruct (gisr r); cbn [length]; fold (count_real l).
  - exists c. rewrite IH. lia.
  - exists (S c). rewrite IH. lia.
Qed.
Lemma gcount_perm l m : Permutation l m -> count_real l = count_real m.
Proof. intros HP. apply Permutation_length, filter_perm, HP. Qed.
Lemma gcount_cons r l : count_real (r :: l) = ((if gisr r then 1 else 0) + count_real l)%nat.
Proof. unfold count_real. cbn [filter]. change (is_zero (cim r)) with (gisr r). destruct (gisr r); reflexivity. Qed.
Lemma gcount_pos l : count_real l <> 0%nat -> exists r, In r l /\ gisr r = true.
Proof.
  induction l as [|r l IH]; [intros Hn; contradiction Hn; reflexivity|]. rewrite gcount_cons. destruct (gisr r) eqn:Er.
  - intros _. exists r. split; [left; reflexivity|exact Er].
  - intros Hn. destruct IH as [s [Hs1 Hs2]]; [lia|]. exists s. split; [right; exact Hs1|exact Hs2].
Qed.
Lemma gmin_in (l : list (nat * F)) : forall b, In (min_by_from b l) (b :: l).
Proof.
  induction l as [|y l IH]; intros b; cbn [min_by_from]; [left; reflexivity|].
  specialize (IH (if nltb (snd y) (snd b) then y else b)). destruct (nltb _ _).
  - right. exact IH.
  - destruct IH as [IH|IH]; [left; exact IH|right; right; exact IH].
Qed.
Lemma gmin_ok (l : list (nat * F)) : l <> [] -> exists i k, min_by_idx l = Ok i /\ In (i, k) l.
Proof.
  destruct l as [|x l]; [intros Hn; contradiction|]. intros _. cbn [min_by_idx].
  exists (fst (min_by_from x l)), (snd (min_by_from x l)). split; [reflexivity|]. rewrite <- surjective_pairing. apply gmin_in.
Qed.
Lemma gidx_worst analog (p : list (cplx F)) : p <> [] -> exists i a, idx_worst analog p = Ok i /\ nth_error p i = Some a.
Proof.
  intros Hn. unfold idx_worst. match goal with |- context [min_by_idx ?l] => destruct (gmin_ok l) as [i [k [E' Hin]]] end.
  { destruct p; [contradiction|]. discriminate. }
  apply in_map_iff in Hin. destruct Hin as [[j a] [Ej Hin]]. injection Ej as Ej _. cbn [fst] in Ej. subst j.
  exists i, a. split; [exact E'|]. apply enumerate_in. exact Hin.
Qed.
Definition gsel (w : WhichNearestComplex) (r : cplx F) : bool := match w with WReal => gisr r | WComplex => negb (gisr r) | WAny => true end.
Lemma gpick_nearest (l : list (cplx F)) to w : (exists r, In r l /\ gsel w r = true) ->
  exists i a l', nearest_real_complex_idx_dyn l to w = Ok i /\ remove_at l i = Ok (a, l') /\ Permutation l (a :: l') /\ gsel w a = true.
Proof.
  intros [r [Hr Hs]]. unfold nearest_real_complex_idx_dyn. set (keep := match w with WReal => _ | WComplex => _ | WAny => _ end).
  assert (Ek : forall ia, In ia keep <-> In ia (enumerate l) /\ gsel w (snd ia) = true).
  { intros ia. unfold keep. destruct w; cbn [gsel]; [apply filter_In|apply filter_In|]. tauto. }
  match goal with |- context [min_by_idx ?l] => destruct (gmin_ok l) as [i [k [E' Hin]]] end.
  { destruct (enumerate_mem l r Hr) as [i Hi]. assert (Hk : In (i, r) keep) by (apply Ek; split; assumption).
    destruct keep; [contradiction|discriminate]. }
  apply in_map_iff in Hin. destruct Hin as [[j a] [Ej Hin]]. injection Ej as Ej _. cbn [fst] in Ej. subst j.
  apply Ek in Hin. destruct Hin as [Hin Hsa]. apply enumerate_in in Hin. cbn [snd] in *. destruct (remove_at_ok l i a Hin) as [l' [Er HP]].
  exists i, a, l'. auto.
Qed.
Lemma gpick_worst analog (p : list (cplx F)) : p <> [] ->
  exists i a p', idx_worst analog p = Ok i /\ remove_at p i = Ok (a, p') /\ Permutation p (a :: p').
Proof.
  intros Hn. destruct (gidx_worst analog p Hn) as [i [a [E' Hi]]]. destruct (remove_at_ok p i a Hi) as [p' [Er HP]].
  exists i, a, p'. auto.
Qed.
Lemma gpick_worst_real analog (p : list (cplx F)) : count_real p <> 0%nat ->
  let preal := filter (fun ip => is_zero (cim (snd ip))) (enumerate p) in
  exists i ip a p', idx_worst analog (map snd preal) = Ok i /\ index preal i = Ok ip /\ remove_at p (fst ip) = Ok (a, p') /\
    Permutation p (a :: p') /\ gisr a = true.
Proof.
  intros Hc preal. destruct (gcount_pos p Hc) as [r [Hr Er]]. destruct (enumerate_mem p r Hr) as [j Hj].
  assert (Hin : In (j, r) preal) by (apply filter_In; split; [exact Hj|exact Er]).
  destruct (gidx_worst analog (map snd preal)) as [i [a [E' Hi]]].
  { destruct preal; [contradiction|discriminate]. }
  rewrite nth_error_map in Hi. destruct (nth_error preal i) as [[j' a']|] eqn:En; [|discriminate]. cbn in Hi. injection Hi as ->.
  assert (Hin' := nth_error_In _ _ En). apply filter_In in Hin'. destruct Hin' as [Hin' Ha]. apply enumerate_in in Hin'.
  destruct (remove_at_ok p j' a Hin') as [p' [Erm HP]].
  exists i, (j', a), a, p'. split; [exact E'|]. split; [unfold index; rewrite En; reflexivity|]. split; [exact Erm|]. split; [exact HP|exact Ha].
Qed.

(** The representatives taken by one section: a nonreal root, or two real ones. *)
Definition taken (r : list (cplx F)) : Prop := (exists a, r = [a] /\ gisr a = false) \/ (exists a b, r = [a; b] /\ gisr a = true /\ gisr b = true).
Lemma taken_full r : taken r -> length (gfull r) = 2%nat.
Proof. intros [[a [-> H]]|[a [b [-> [H H']]]]]; rewrite !gfull_cons, H; [reflexivity|]. rewrite H'. reflexivity. Qed.

Lemma gstep pairing analog p z sos n m : length (gfull p) = (2 * S n)%nat -> length (gfull z) = (2 * S m)%nat ->
  exists rp p' rz z', taken rp /\ taken rz /\ Permutation p (rp ++ p') /\ Permutation z (rz ++ z') /\
    pair_step sort pairing analog (p, z, sos) = (let! s := single_zpksos_dyn sort (gfull rz) (gfull rp) none in Ok (p', z', sos ++ [s])).
Proof.
  intros Hp Hz. destruct (gfull_count p) as [cp Ecp]. destruct (gfull_count z) as [cz Ecz].
  assert (Hpn : p <> []) by (intros ->; discriminate Hp).
  destruct (gpick_worst analog p Hpn) as [i1 [p1 [p' [E1 [E2 HP]]]]]. unfold pair_step. rewrite E1. cbn [bind]. rewrite E2. cbn [bind].
  pose proof (gcount_perm _ _ HP) as Cp. rewrite gcount_cons in Cp.
  change (is_zero (cim p1)) with (gisr p1).
  assert (P2 : exists p2 p'' rp, (if gisr p1 then
        let! i := idx_worst analog (map snd (filter (fun ip => is_zero (cim (snd ip))) (enumerate p'))) in
        let! ip := index (filter (fun ip => is_zero (cim (snd ip))) (enumerate p')) i in remove_at p' (fst ip)
      else Ok (cconj p1, p')) = Ok (p2, p'') /\ taken rp /\ gfull rp = [p1; p2] /\ Permutation p (rp ++ p'')).
  { destruct (gisr p1) eqn:Er.
    - assert (Hc : count_real p' <> 0%nat) by lia.
      destruct (gpick_worst_real analog p' Hc) as [i [ip [p2 [p'' [F1 [F2 [F3 [HP' Er']]]]]]]]. exists p2, p'', [p1; p2]. rewrite F1. cbn [bind]. rewrite F2. cbn [bind].
      split; [exact F3|]. split; [right; exists p1, p2; auto|]. split; [rewrite !gfull_cons, Er, Er'; reflexivity|].
      eapply Permutation_trans; [exact HP|apply perm_skip, HP'].
    - exists (cconj p1), p', [p1]. split; [reflexivity|]. split; [left; exists p1; auto|]. split; [rewrite gfull_cons, Er; reflexivity|]. exact HP. }
  destruct P2 as [p2 [p'' [rp [EP2 [TP [FP PP2]]]]]].
  replace (gisr p1 && (count_real p' =? 0)%nat) with false.
  2:{ symmetry. apply andb_false_iff. destruct (gisr p1); [right|left; reflexivity]. apply Nat.eqb_neq. lia. }
  replace ((length p' + 1 =? length z)%nat && negb (gisr p1) && (count_real p' =? 1)%nat && (count_real z =? 1)%nat) with false.
  2:{ symmetry. destruct (gisr p1); [rewrite andb_false_r; reflexivity|].
      replace (count_real p' =? 1)%nat with false by (symmetry; apply Nat.eqb_neq; lia). rewrite !andb_false_r. reflexivity. }
  cbv zeta. rewrite EP2. cbn [bind].
  destruct (Nat.eqb_spec (length z) 0) as [Ez|Ez]; cbn [negb]; [destruct z; discriminate|].
  destruct (gpick_nearest z p1 WAny) as [j1 [z1 [z' [G1 [G2 [HZ _]]]]]].
  { destruct z as [|r z0]; [contradiction Ez; reflexivity|]. exists r. split; reflexivity || (left; reflexivity). }
  rewrite G1. cbn [bind]. rewrite G2. cbn [bind]. change (is_zero (cim z1)) with (gisr z1).
  pose proof (gcount_perm _ _ HZ) as Cz. rewrite gcount_cons in Cz. destruct (gisr z1) eqn:Ez1; cbn [negb].
  - assert (Hc : count_real z' <> 0%nat) by lia. destruct (Nat.eqb_spec (length z') 0) as [Q|Q]; cbn [negb].
    { destruct z'; [|discriminate]. exact (False_ind _ (Hc eq_refl)). }
    destruct (gpick_nearest z' p1 WReal (gcount_pos z' Hc)) as [j2 [z2 [z'' [K1 [K2 [HZ' Ez2]]]]]]. cbn [gsel] in Ez2.
    rewrite K1. cbn [bind]. rewrite K2. cbn [bind]. change (is_zero (cim z2)) with (gisr z2). rewrite Ez2. cbn [rassert bind].
    exists rp, p'', [z1; z2], z''. split; [exact TP|]. split; [right; exists z1, z2; auto|]. split; [exact PP2|].
    split; [eapply Permutation_trans; [exact HZ|apply perm_skip, HZ']|]. rewrite FP. rewrite !gfull_cons, Ez1, Ez2. reflexivity.
  - exists rp, p'', [z1], z'. split; [exact TP|]. split; [left; exists z1; auto|]. split; [exact PP2|]. split; [exact HZ|]. rewrite FP, gfull_cons, Ez1. reflexivity.
Qed.

(** The whole loop, with an account of the roots each section took. *)
Lemma gloop (P : Sos F -> list (cplx F) -> list (cplx F) -> Prop) (ok : list (cplx F) -> Prop) pairing analog :
  (forall l m, Permutation l m -> ok l -> ok m) -> (forall l m, ok (l ++ m) -> ok l /\ ok m) ->
  (forall rp rz, taken rp -> taken rz -> ok rp -> ok rz -> exists s, single_zpksos_dyn sort (gfull rz) (gfull rp) none = Ok s /\ P s rp rz) ->
  forall n p z sos (idx : list nat), ok p -> ok z -> length (gfull p) = (2 * n)%nat -> length (gfull z) = (2 * n)%nat -> length idx = n ->
  exists ss rps rzs, rfold (fun st (_ : nat) => pair_step sort pairing analog st) idx (p, z, sos) = Ok ([], [], sos ++ ss) /\ length ss = n /\
    length rps = n /\ length rzs = n /\ Permutation p (concat rps) /\ Permutation z (concat rzs) /\ Forall taken rps /\ Forall taken rzs /\
    forall k, (k < n)%nat -> forall d, P (nth k ss d) (nth k rps []) (nth k rzs []).
Proof.
  intros okp oka Hs. induction n as [|n IH]; intros p z sos idx Op Oz Hp Hz Hi.
  - destruct idx; [|discriminate]. rewrite (gfull_nil p Hp), (gfull_nil z Hz). exists [], [], []. rewrite app_nil_r. cbn. repeat split; try constructor. intros k Hk. lia.
  - destruct idx as [|i0 idx]; [discriminate|]. injection Hi as Hi. cbn [rfold].
    destruct (gstep pairing analog p z sos n n Hp Hz) as [rp [p' [rz [z' [TP [TZ [PP [PZ E']]]]]]]]. rewrite E'.
    destruct (oka _ _ (okp _ _ PP Op)) as [O1 O2]. destruct (oka _ _ (okp _ _ PZ Oz)) as [O3 O4].
    destruct (Hs rp rz TP TZ O1 O3) as [s [Es Ps]]. rewrite Es. cbn [bind].
    pose proof (Permutation_length (gfull_perm _ _ PP)) as LP. pose proof (Permutation_length (gfull_perm _ _ PZ)) as LZ. rewrite gfull_app, app_length, (taken_full rp TP) in LP. rewrite gfull_app, app_length, (taken_full rz TZ) in LZ.
    destruct (IH p' z' (sos ++ [s]) idx O2 O4 ltac:(lia) ltac:(lia) Hi) as [ss [rps [rzs (Er & L1 & L2 & L3 & PP' & PZ' & T1 & T2 & Hk)]]].
    exists (s :: ss), (rp :: rps), (rz :: rzs). rewrite Er, <- app_assoc. split; [reflexivity|]. cbn [length concat]. split; [lia|]. split; [lia|]. split; [lia|].
    split; [eapply Permutation_trans; [exact PP|apply Permutation_app_head, PP']|]. split; [eapply Permutation_trans; [exact PZ|apply Permutation_app_head, PZ']|].
    split; [constructor; assumption|]. split; [constructor; assumption|]. intros [|k] Hk' d; cbn [nth]; [exact Ps|]. apply Hk. lia.
Qed.

(** Padding for the pairing that keeps the number of zeros and poles equal. *)
Lemma gpad (z p : list (cplx F)) : (Nat.max (length z) (length p) <> 0)%nat ->
  exists q nz np, pad_zp Nearest z p = Ok (S q, z ++ repeat czero nz, p ++ repeat czero np) /\
    (length z + nz = 2 * S q)%nat /\ (length p + np = 2 * S q)%nat /\ S q = ((Nat.max (length z) (length p) + 1) / 2)%nat.
Proof.
  intros E0. unfold pad_zp. cbn [is_minimal negb]. rewrite !app_length, !repeat_length.
  set (M := Nat.max (length z) (length p)) in *.
  assert (Hdiv : exists q, (M + 1 = 2 * S q \/ M + 1 = 2 * S q + 1)%nat).
  { exists ((M + 1) / 2 - 1)%nat. pose proof (Nat.div_mod (M + 1) 2 ltac:(lia)). pose proof (Nat.mod_upper_bound (M + 1) 2 ltac:(lia)).
    assert (1 <= (M + 1) / 2)%nat by (apply Nat.div_le_lower_bound; lia). lia. }
  destruct Hdiv as [q Hq].
  assert (Eq2 : ((M + 1) / 2 = S q)%nat).
  { destruct Hq as [Hq|Hq]; rewrite Hq; [rewrite Nat.mul_comm; apply Nat.div_mul; lia|rewrite Nat.mul_comm, Nat.div_add_l by lia; cbn; lia]. }
  replace (Nat.max (length p + (length z - length p)) (length z + (length p + (length z - length p) - length z))) with M by lia. rewrite Eq2.
  replace (length p + (length z - length p))%nat with M by lia.
  assert (PZ : exists nz np, (if Nat.odd M then ((z ++ repeat czero (M - length z)) ++ [czero], (p ++ repeat czero (length z - length p)) ++ [czero]) else (z ++ repeat czero (M - length z), p ++ repeat czero (length z - length p)))
     = (z ++ repeat (@czero F NF) nz, p ++ repeat (@czero F NF) np) /\ (length z + nz = 2 * S q)%nat /\ (length p + np = 2 * S q)%nat).
  { destruct (Nat.odd M) eqn:Eo.
    - apply Nat.odd_spec in Eo. destruct Eo as [w Ew].
      exists (M - length z + 1)%nat, (length z - length p + 1)%nat. rewrite !repeat_app, !app_assoc. split; [reflexivity|]. lia.
    - assert (Ee : Nat.even M = true) by (rewrite <- Nat.negb_odd, Eo; reflexivity). apply Nat.even_spec in Ee. destruct Ee as [w Ew].
      exists (M - length z)%nat, (length z - length p)%nat. split; [reflexivity|]. lia. }
  destruct PZ as [nz [np [-> [Lz Lp]]]]. exists q, nz, np. rewrite !app_length, !repeat_length, Lz, Lp, Nat.eqb_refl. cbn [rassert bind]. auto.
Qed.
End Gen.
