(** Rounding in the polynomial expansion of roots (poly_dyn, zpk2tf_dyn) and in the
    rational frequency transforms. *)
From Coq Require Import Reals ZArith SpecFloat List Lia Lra Bool.
From Flocq Require Import Core Relative BinarySingleNaN.
From Verif Require Import Base Num M_Linalg M_Complex M_Fourier M_Filter M_Design S_Filter S_Float S_FloatFft P_Float P_FloatStats P_MachInt P_Savgol P_Ext RSum Cx S_Design P_Poly P_FloatFilt P_FloatZi.
Import ListNotations.

(** One pass of poly_dyn, for any number type, in the order of the source. *)
Section Generic.
Context {F : Type} {NF : Num F}.
Notation CF := (cplx F).
Notation cz := (@czero F NF).
Notation c1 := (@cone F NF).
Definition gcoef (a : list CF) (z : CF) (i : nat) : CF :=
  match i with
  | O => cadd cz (cmul (nth 0 a cz) c1)
  | S j => if (S j <? length a)%nat then cadd (cadd cz (cmul (nth j a cz) (cneg z))) (cmul (nth (S j) a cz) c1)
           else cadd cz (cmul (nth j a cz) (cneg z))
  end.
Definition gpstep (a : list CF) (z : CF) : list CF := map (gcoef a z) (seq 0 (length a + 1)).
Lemma gpstep_length a z : length (gpstep a z) = (length a + 1)%nat.
Proof. unfold gpstep. rewrite map_length, seq_length. reflexivity. Qed.
Lemma gpstep_nth a z i : (i < length a + 1)%nat -> nth i (gpstep a z) cz = gcoef a z i.
Proof. intros Hi. unfold gpstep. rewrite nth_map_seq' by exact Hi. reflexivity. Qed.

Section Pass.
Variables (a : list CF) (z : CF).
Hypothesis Ha : (0 < length a)%nat.
Notation kk := [c1; cneg z].
Lemma gaccumulate (b : list CF) i u : (i < length b)%nat -> (u < length a)%nat -> (u <= i < u + 2)%nat ->
  exists b', (let! d := usub i u in
    if Nat.ltb d 2 then
      let! au := index a u in let! ki := index kk d in let! bi := index b i in
      set_index b i (cadd bi (cmul au ki)) else Ok b) = Ok b' /\ length b' = length b /\
    forall k, nth k b' cz = if (k =? i)%nat then cadd (nth i b cz) (cmul (nth u a cz) (nth (i - u) kk cz)) else nth k b cz.
Proof.
  intros Hi Hu Hr. rewrite usub_ok by lia. cbn [bind]. destruct (Nat.ltb_spec (i - u) 2); [|lia].
  rewrite (index_nth a u cz) by exact Hu. cbn [bind]. rewrite (index_nth kk (i - u) cz) by (cbn [length]; lia). cbn [bind].
  rewrite (index_nth b i cz) by exact Hi. cbn [bind]. apply set_index_nth. exact Hi.
Qed.
Definition gpass_body (b : list CF) (i : nat) : res (list CF) :=
    let! u_i := if Nat.ltb (length a) i then usub i 2 else Ok 0%nat in
    let! l1 := usub (length a) 1 in
    let u_f := Nat.min i l1 in
    if Nat.eqb u_i u_f then
      let! au := index a u_i in
      let! d := usub i u_i in
      let! ki := index kk d in
      let! bi := index b i in
      set_index b i (cadd bi (cmul au ki))
    else
      rfold (fun b u =>
        let! d := usub i u in
        if Nat.ltb d 2 then
          let! au := index a u in
          let! ki := index kk d in
          let! bi := index b i in
          set_index b i (cadd bi (cmul au ki))
        else Ok b) (seq u_i (u_f + 1 - u_i)) b.
Lemma gpass_body_ok (b : list CF) i : (i < length b)%nat -> (i <= length a)%nat -> nth i b cz = cz ->
  exists b', gpass_body b i = Ok b' /\ length b' = length b /\
    forall k, nth k b' cz = if (k =? i)%nat then gcoef a z i else nth k b cz.
Proof.
  intros Hb Hi H0. unfold gpass_body. destruct (Nat.ltb_spec (length a) i); [lia|]. cbn [bind].
  rewrite usub_ok by lia. cbn [bind].
  destruct (Nat.eqb_spec 0 (Nat.min i (length a - 1))) as [E|E].
  - rewrite (index_nth a 0 cz) by exact Ha. cbn [bind]. rewrite usub_ok by lia. cbn [bind].
    rewrite (index_nth kk (i - 0) cz) by (cbn [length]; lia). cbn [bind].
    rewrite (index_nth b i cz) by exact Hb. cbn [bind].
    destruct (set_index_nth b i (cadd (nth i b cz) (cmul (nth 0 a cz) (nth (i - 0) kk cz))) cz Hb) as [b' [E1 [L N]]].
    exists b'. split; [exact E1|]. split; [exact L|]. intros k. rewrite N. destruct (Nat.eqb_spec k i); [|reflexivity].
    rewrite H0. destruct i as [|[|j]].
    + reflexivity.
    + cbn [gcoef]. destruct (Nat.ltb_spec 1 (length a)); [lia|]. reflexivity.
    + lia.
  - destruct i as [|j]; [cbn in E; lia|]. rewrite Nat.sub_0_r. cbn [gcoef].
    destruct (Nat.ltb_spec (S j) (length a)) as [Lt|Ge].
    + replace (Nat.min (S j) (length a - 1) + 1)%nat with (j + 2)%nat by lia.
      rewrite seq_app, rfold_app.
      rewrite rfold_noop.
      2:{ intros u Hu. apply in_seq in Hu. rewrite usub_ok by lia. cbn [bind]. destruct (Nat.ltb_spec (S j - u) 2); [lia|reflexivity]. }
      cbn [bind seq rfold Nat.add].
      destruct (gaccumulate b (S j) j) as [b1 [E1 [L1 N1]]]; try lia.
      cbv zeta in E1. rewrite E1. cbn [bind].
      destruct (gaccumulate b1 (S j) (S j)) as [b2 [E2 [L2 N2]]]; try lia.
      cbv zeta in E2. rewrite E2. cbn [bind]. exists b2. split; [reflexivity|]. split; [lia|].
      intros k. rewrite N2. destruct (Nat.eqb_spec k (S j)) as [->|Nk].
      * rewrite N1, Nat.eqb_refl, H0. replace (S j - j)%nat with 1%nat by lia. rewrite Nat.sub_diag. reflexivity.
      * rewrite N1. destruct (Nat.eqb_spec k (S j)); [contradiction|reflexivity].
    + replace (Nat.min (S j) (length a - 1) + 1)%nat with (j + 1)%nat by lia.
      rewrite seq_app, rfold_app.
      rewrite rfold_noop.
      2:{ intros u Hu. apply in_seq in Hu. rewrite usub_ok by lia. cbn [bind]. destruct (Nat.ltb_spec (S j - u) 2); [lia|reflexivity]. }
      cbn [bind seq rfold Nat.add].
      destruct (gaccumulate b (S j) j) as [b1 [E1 [L1 N1]]]; try lia.
      cbv zeta in E1. rewrite E1. cbn [bind]. exists b1. split; [reflexivity|]. split; [exact L1|].
      intros k. rewrite N1. destruct (Nat.eqb_spec k (S j)); [|reflexivity]. rewrite H0.
      replace (S j - j)%nat with 1%nat by lia. reflexivity.
Qed.
Lemma gpass_loop j : (j <= length a + 1)%nat ->
  exists b, rfold gpass_body (seq 0 j) (repeat cz (length a + 1)) = Ok b /\ length b = (length a + 1)%nat /\
    forall k, nth k b cz = if (k <? j)%nat then gcoef a z k else cz.
Proof.
  induction j as [|j IH]; intros Hj.
  - exists (repeat cz (length a + 1)). split; [reflexivity|]. split; [apply repeat_length|]. intros k. apply nth_repeat.
  - destruct IH as [b [E [L N]]]; [lia|]. rewrite seq_S, rfold_app, E. cbn [bind rfold Nat.add].
    destruct (gpass_body_ok b j) as [b' [E' [L' N']]]; try lia.
    { rewrite N. destruct (Nat.ltb_spec j j); [lia|reflexivity]. }
    rewrite E'. cbn [bind]. exists b'. split; [reflexivity|]. split; [lia|]. intros k. rewrite N', N.
    destruct (Nat.eqb_spec k j) as [->|Nk].
    + destruct (Nat.ltb_spec j (S j)); [reflexivity|lia].
    + destruct (Nat.ltb_spec k j), (Nat.ltb_spec k (S j)); try lia; reflexivity.
Qed.
Lemma gpoly_pass_ok : poly_pass a z = Ok (gpstep a z).
Proof.
  unfold poly_pass. cbv zeta. change (rfold gpass_body (seq 0 (length a + 2 - 1)) (repeat cz (length a + 1)) = Ok (gpstep a z)).
  replace (length a + 2 - 1)%nat with (length a + 1)%nat by lia.
  destruct (gpass_loop (length a + 1)) as [b [E [L N]]]; [lia|]. rewrite E. f_equal.
  apply (nth_ext _ _ cz cz); [rewrite gpstep_length; exact L|]. intros k Hk. rewrite N.
  destruct (Nat.ltb_spec k (length a + 1)); [|lia]. symmetry. apply gpstep_nth. lia.
Qed.
End Pass.
Lemma gpoly_fold (z : list CF) : forall a, (0 < length a)%nat -> rfold poly_pass z a = Ok (fold_left gpstep z a).
Proof.
  induction z as [|r z IH]; intros a Ha; [reflexivity|]. cbn [rfold fold_left]. rewrite gpoly_pass_ok by exact Ha.
  cbn [bind]. apply IH. rewrite gpstep_length. lia.
Qed.
Lemma fold_gpstep_length z : forall a, length (fold_left gpstep z a) = (length a + length z)%nat.
Proof.
  induction z as [|r z IH]; intros a; cbn [fold_left length]; [lia|]. rewrite IH, gpstep_length. lia.
Qed.
Lemma gcopy_re_nth n (l : list CF) k : nth k (copy_re (repeat nzero n) l) nzero = if (k <? n)%nat then cre (nth k l cz) else nzero.
Proof.
  revert l k. induction n as [|n IH]; intros l k.
  - cbn. destruct k; reflexivity.
  - destruct l as [|c l]; cbn [repeat copy_re].
    + change (nzero :: repeat nzero n) with (repeat (@nzero F NF) (S n)). rewrite nth_repeat. destruct k as [|k]; cbn [nth]; match goal with |- context [if ?b then _ else _] => destruct b end; reflexivity.
    + destruct k as [|k]; [reflexivity|]. cbn [nth]. rewrite IH. reflexivity.
Qed.
Lemma gcopy_re_length n (l : list CF) : length (copy_re (repeat nzero n) l) = n.
Proof. revert l. induction n as [|n IH]; intros [|c l]; cbn; try rewrite repeat_length; auto. Qed.
Lemma gpoly2ba_re sort x y k : cre (nth k (poly2ba sort x y) cz) = cre (nth k x cz).
Proof.
  assert (M : cre (nth k (map (fun xi => cofre (cre xi)) x) cz) = cre (nth k x cz)).
  { pose proof (map_nth (fun xi : CF => cofre (cre xi)) x cz k) as M. cbv beta in M. change (cofre (cre cz)) with cz in M. rewrite M. reflexivity. }
  unfold poly2ba. destruct (Nat.eqb _ _); [|reflexivity]. destruct (all_eq _ _); [exact M|reflexivity].
Qed.
End Generic.
Local Open Scope R_scope.


Section CNear.
Variable I : Type.
Variables pr em : I -> Z.
Variable V : I -> Prop.
Variable sz : I -> bool.
Notation napp := (napp I pr em V).
Notation NF i := (SFNum (pr i) (em i) (sz i)).
(** Both parts approximated. *)
Definition cnapp (c : C) (f : I -> cplx spec_float) : Prop :=
  napp (fst c) (fun i => fst (f i)) /\ napp (snd c) (fun i => snd (f i)).

Lemma cnapp_zero : cnapp C0 (fun i => @czero _ (NF i)).
Proof. split; apply napp_zero. Qed.
Lemma cnapp_one : cnapp C1 (fun i => @cone _ (NF i)).
Proof. split; [apply napp_one|apply napp_zero]. Qed.
Lemma cnapp_add c d f g : cnapp c f -> cnapp d g -> cnapp (cadd c d) (fun i => @cadd _ (NF i) (f i) (g i)).
Proof. intros [A B] [A' B']. split; apply napp_add; assumption. Qed.
Lemma cnapp_sub c d f g : cnapp c f -> cnapp d g -> cnapp (csub c d) (fun i => @csub _ (NF i) (f i) (g i)).
Proof. intros [A B] [A' B']. split; apply napp_sub; assumption. Qed.
Lemma cnapp_neg c f : cnapp c f -> cnapp (cneg c) (fun i => @cneg _ (NF i) (f i)).
Proof. intros [A B]. split; apply napp_opp; assumption. Qed.
Lemma cnapp_mul c d f g : cnapp c f -> cnapp d g -> cnapp (cmul c d) (fun i => @cmul _ (NF i) (f i) (g i)).
Proof. intros [A B] [A' B']. split; [apply napp_sub|apply napp_add]; apply napp_mul; assumption. Qed.
Lemma cnapp_norm_sqr c f : cnapp c f -> napp (cnorm_sqr c) (fun i => @cnorm_sqr _ (NF i) (f i)).
Proof. intros [A B]. apply napp_add; apply napp_mul; assumption. Qed.
Lemma cnapp_div c d f g : d <> C0 -> cnapp c f -> cnapp d g -> cnapp (cdiv c d) (fun i => @cdiv _ (NF i) (f i) (g i)).
Proof.
  intros N [A B] D. pose proof (cnapp_norm_sqr d g D) as Q. destruct D as [A' B'].
  assert (M : cnorm_sqr d <> 0).
  { intros E. apply N. destruct d as [x y]. unfold cnorm_sqr in E. cbn in E.
    assert (x * x = 0) as X by nra. assert (y * y = 0) as Y by nra. apply Rmult_integral in X. apply Rmult_integral in Y. unfold C0. f_equal; tauto. }
  split; (apply napp_div; [exact M| |exact Q]); [apply napp_add|apply napp_sub]; apply napp_mul; assumption.
Qed.
Lemma cnapp_ext c c' f f' : c = c' -> (forall i, V i -> (1 < pr i < em i)%Z -> f i = f' i) -> cnapp c f -> cnapp c' f'.
Proof.
  intros <- E [A B]. split; (eapply napp_ext; [reflexivity| |eassumption]); cbn beta; intros i Vi Hi; rewrite E by assumption; reflexivity.
Qed.

(** Lists of approximations. *)
Definition lnapp (l : list C) (f : I -> list (cplx spec_float)) : Prop :=
  (forall i, V i -> length (f i) = length l) /\
  forall k, (k < length l)%nat -> cnapp (nth k l C0) (fun i => nth k (f i) (@czero _ (NF i))).

Lemma lnapp_pstep a z f g : (0 < length a)%nat -> lnapp a f -> cnapp z g ->
  lnapp (pstep a z) (fun i => @gpstep _ (NF i) (f i) (g i)).
Proof.
  intros Ha [L N] Z. split.
  - intros i Vi. rewrite gpstep_length, pstep_length, L by exact Vi. reflexivity.
  - intros k Hk. rewrite pstep_length in Hk. rewrite pstep_nth.
    apply (cnapp_ext (nth k (pstep a z) C0) _ (fun i => @gcoef _ (NF i) (f i) (g i) k)).
    { apply pstep_nth. }
    { intros i Vi _. symmetry. apply gpstep_nth. rewrite L by exact Vi. exact Hk. }
    rewrite pstep_nth. destruct k as [|j].
    + apply (cnapp_ext (cadd C0 (cmul (nth 0 a C0) C1)) _ (fun i => @gcoef _ (NF i) (f i) (g i) 0)); [ring|reflexivity|].
      unfold gcoef. apply cnapp_add; [apply cnapp_zero|]. apply cnapp_mul; [apply N; exact Ha|apply cnapp_one].
    + destruct (Nat.ltb_spec (S j) (length a)) as [Lt|Ge].
      * apply (cnapp_ext (cadd (cadd C0 (cmul (nth j a C0) (cneg z))) (cmul (nth (S j) a C0) C1)) _
          (fun i => @cadd _ (NF i) (@cadd _ (NF i) (@czero _ (NF i)) (@cmul _ (NF i) (nth j (f i) (@czero _ (NF i))) (@cneg _ (NF i) (g i)))) (@cmul _ (NF i) (nth (S j) (f i) (@czero _ (NF i))) (@cone _ (NF i))))).
        { ring. }
        { intros i Vi _. unfold gcoef. rewrite L by exact Vi. destruct (Nat.ltb_spec (S j) (length a)); [reflexivity|lia]. }
        apply cnapp_add; [apply cnapp_add; [apply cnapp_zero|]|]; apply cnapp_mul; try (apply N; lia); [apply cnapp_neg; exact Z|apply cnapp_one].
      * apply (cnapp_ext (cadd C0 (cmul (nth j a C0) (cneg z))) _
          (fun i => @cadd _ (NF i) (@czero _ (NF i)) (@cmul _ (NF i) (nth j (f i) (@czero _ (NF i))) (@cneg _ (NF i) (g i))))).
        { rewrite (nth_overflow a (n := S j)) by lia. ring. }
        { intros i Vi _. unfold gcoef. rewrite L by exact Vi. destruct (Nat.ltb_spec (S j) (length a)); [lia|reflexivity]. }
        apply cnapp_add; [apply cnapp_zero|]; apply cnapp_mul; try (apply N; lia); apply cnapp_neg; exact Z.
Qed.

(** Roots represented exactly. *)
Definition roots_ok (z : list C) (zf : I -> list (cplx spec_float)) : Prop :=
  forall i, V i -> (map cval (zf i) = z /\ Forall (cfinite (pr i) (em i)) (zf i)).
Lemma roots_nth z zf k : roots_ok z zf -> (k < length z)%nat -> cnapp (nth k z C0) (fun i => nth k (zf i) (@czero _ (NF i))).
Proof.
  intros R Hk. assert (Q : forall i, V i -> cval (nth k (zf i) (@czero _ (NF i))) = nth k z C0 /\ cfinite (pr i) (em i) (nth k (zf i) (@czero _ (NF i)))).
  { intros i Vi. destruct (R i Vi) as [E F]. split.
    - rewrite <- E. change C0 with (cval (@czero _ (NF i))). symmetry. apply map_nth.
    - rewrite Forall_forall in F. apply F. apply nth_In. rewrite <- (map_length cval (zf i)), E. exact Hk. }
  split; apply napp_exact; intros i Vi _; destruct (Q i Vi) as [E [F1 F2]]; (split; [assumption|]); rewrite <- E; reflexivity.
Qed.
Lemma lnapp_roots z zf : roots_ok z zf -> lnapp z zf.
Proof.
  intros R. split; [|intros k; apply roots_nth; exact R].
  intros i Vi. destruct (R i Vi) as [E _]. rewrite <- E, map_length. reflexivity.
Qed.
Lemma lnapp_poly z : forall zf a f, (0 < length a)%nat -> roots_ok z zf -> lnapp a f ->
  lnapp (fold_left pstep z a) (fun i => fold_left (@gpstep _ (NF i)) (zf i) (f i)).
Proof.
  induction z as [|r z IH]; intros zf a f Ha R N.
  - destruct N as [L N]. split.
    + intros i Vi. destruct (R i Vi) as [E _]. destruct (zf i); [|discriminate E]. cbn [fold_left]. apply L. exact Vi.
    + cbn [fold_left]. intros k Hk. eapply cnapp_ext; [reflexivity| |apply (N k Hk)]. cbn beta.
      intros i Vi _. destruct (R i Vi) as [E _]. destruct (zf i); [reflexivity|discriminate E].
  - assert (E : forall i, V i -> zf i = nth 0 (zf i) (@czero _ (NF i)) :: tl (zf i)).
    { intros i Vi. destruct (R i Vi) as [E _]. destruct (zf i); [discriminate E|reflexivity]. }
    assert (R' : roots_ok z (fun i => tl (zf i))).
    { intros i Vi. destruct (R i Vi) as [E1 F]. destruct (zf i) as [|c l]; [discriminate E1|]. cbn [tl].
      split; [apply (f_equal (@tl _)) in E1; exact E1|inversion F; assumption]. }
    pose proof (roots_nth _ _ 0%nat R ltac:(cbn; lia)) as Z. cbn [nth] in Z.
    pose proof (lnapp_pstep a r f _ Ha N Z) as N'.
    destruct (IH (fun i => tl (zf i)) _ _ ltac:(rewrite pstep_length; lia) R' N') as [L1 N1]. cbn [fold_left]. split.
    + intros i Vi. rewrite <- (L1 i Vi). rewrite (E i Vi) at 1. reflexivity.
    + intros k Hk. eapply cnapp_ext; [reflexivity| |apply (N1 k Hk)]. cbn beta.
      intros i Vi _. rewrite (E i Vi) at 3. reflexivity.
Qed.

(** Products. *)
Lemma cnapp_prod l : forall f c g, lnapp l f -> cnapp c g -> cnapp (fold_left cmul l c) (fun i => fold_left (@cmul _ (NF i)) (f i) (g i)).
Proof.
  induction l as [|a l IH]; intros f c g [L N] H.
  - eapply cnapp_ext; [reflexivity| |exact H]. intros i Vi _. specialize (L i Vi). destruct (f i); [reflexivity|discriminate L].
  - assert (E : forall i, V i -> f i = nth 0 (f i) (@czero _ (NF i)) :: tl (f i)).
    { intros i Vi. specialize (L i Vi). destruct (f i); [discriminate L|reflexivity]. }
    eapply cnapp_ext; [reflexivity| |apply (IH (fun i => tl (f i)) (cmul c a) (fun i => @cmul _ (NF i) (g i) (nth 0 (f i) (@czero _ (NF i)))))].
    + cbn beta. intros i Vi _. rewrite (E i Vi) at 3. reflexivity.
    + split.
      * intros i Vi. specialize (L i Vi). destruct (f i); [discriminate L|]. cbn in *. lia.
      * intros k Hk. eapply cnapp_ext; [reflexivity| |apply (N (S k)); cbn; lia]. cbn beta. intros i Vi _. rewrite (E i Vi) at 1. reflexivity.
    + apply cnapp_mul; [exact H|]. apply (N 0%nat). cbn. lia.
Qed.
Lemma lnapp_map l f (h : C -> C) (hf : forall i, cplx spec_float -> cplx spec_float) :
  (forall k, (k < length l)%nat -> cnapp (nth k l C0) (fun i => nth k (f i) (@czero _ (NF i))) ->
     cnapp (h (nth k l C0)) (fun i => hf i (nth k (f i) (@czero _ (NF i))))) ->
  lnapp l f -> lnapp (map h l) (fun i => map (hf i) (f i)).
Proof.
  intros H [L N]. split.
  - intros i Vi. rewrite !map_length. apply L. exact Vi.
  - intros k Hk. rewrite map_length in Hk. eapply cnapp_ext; [| |apply (H k Hk (N k Hk))].
    + rewrite (nth_indep (map h l) C0 (h C0)) by (rewrite map_length; exact Hk). symmetry. apply map_nth.
    + cbn beta. intros i Vi _. rewrite (nth_indep (map (hf i) (f i)) _ (hf i (@czero _ (NF i)))) by (rewrite map_length, L by exact Vi; exact Hk).
      symmetry. apply map_nth.
Qed.
Lemma lnapp_app l m f g : lnapp l f -> lnapp m g -> lnapp (l ++ m) (fun i => f i ++ g i).
Proof.
  intros [L N] [L' N']. split.
  - intros i Vi. rewrite !app_length, L, L' by exact Vi. reflexivity.
  - intros k Hk. rewrite app_length in Hk. destruct (Nat.lt_ge_cases k (length l)) as [Lt|Ge].
    + eapply cnapp_ext; [| |apply (N k Lt)].
      * rewrite app_nth1 by exact Lt. reflexivity.
      * cbn beta. intros i Vi _. rewrite app_nth1 by (rewrite L by exact Vi; exact Lt). reflexivity.
    + eapply cnapp_ext; [| |apply (N' (k - length l)%nat); lia].
      * rewrite app_nth2 by exact Ge. reflexivity.
      * cbn beta. intros i Vi _. rewrite app_nth2 by (rewrite L by exact Vi; exact Ge). rewrite L by exact Vi. reflexivity.
Qed.
Lemma lnapp_repeat c g n : cnapp c g -> lnapp (repeat c n) (fun i => repeat (g i) n).
Proof.
  intros H. split; [intros; rewrite !repeat_length; reflexivity|]. intros k Hk. rewrite repeat_length in Hk.
  eapply cnapp_ext; [| |exact H].
  - rewrite (nth_indep _ C0 c) by (rewrite repeat_length; exact Hk). rewrite nth_repeat. reflexivity.
  - cbn beta. intros i _ _. rewrite (nth_indep _ _ (g i)) by (rewrite repeat_length; exact Hk). rewrite nth_repeat. reflexivity.
Qed.

(** Finitely many approximations share a constant. *)
Lemma napp_uniform (n : nat) (c : nat -> R) (f : nat -> I -> spec_float) : (forall k, (k < n)%nat -> napp (c k) (f k)) ->
  exists K, 1 <= K /\ forall i, fmt_ok I pr em V K i -> forall k, (k < n)%nat ->
    finite (pr i) (em i) (f k i) /\ Rabs (fval (f k i) - c k) <= K * uround (pr i).
Proof.
  induction n as [|n IH]; intros H; [exists 1; split; [lra|]; intros; lia|].
  destruct IH as [K [HK Q]]; [intros; apply H; lia|]. destruct (H n ltac:(lia)) as [L [HL P]]. exists (K + L). split; [lra|].
  intros i Hi k Hk. pose proof Hi as (_ & Hpe & _). destruct (u_half (pr i) ltac:(lia)) as [U _].
  assert (0 <= K * uround (pr i)) by (apply Rmult_le_pos; lra). assert (0 <= L * uround (pr i)) by (apply Rmult_le_pos; lra).
  rewrite Rmult_plus_distr_r. destruct (Nat.eq_dec k n) as [->|Nk].
  - destruct (P i (fmt_mono I pr em V _ L i Hi ltac:(lra))) as [F E]. split; [exact F|lra].
  - destruct (Q i (fmt_mono I pr em V _ K i Hi ltac:(lra)) k ltac:(lia)) as [F E]. split; [exact F|lra].
Qed.
Lemma lnapp_uniform l f : lnapp l f -> exists K, 1 <= K /\ forall i, fmt_ok I pr em V K i -> length (f i) = length l /\
  forall k, (k < length l)%nat -> cfinite (pr i) (em i) (nth k (f i) (@czero _ (NF i))) /\
    Rabs (fval (fst (nth k (f i) (@czero _ (NF i)))) - fst (nth k l C0)) <= K * uround (pr i) /\
    Rabs (fval (snd (nth k (f i) (@czero _ (NF i)))) - snd (nth k l C0)) <= K * uround (pr i).
Proof.
  intros [L N]. destruct (napp_uniform (length l) (fun k => fst (nth k l C0)) (fun k i => fst (nth k (f i) (@czero _ (NF i)))) (fun k Hk => proj1 (N k Hk))) as [K [HK Q]].
  destruct (napp_uniform (length l) (fun k => snd (nth k l C0)) (fun k i => snd (nth k (f i) (@czero _ (NF i)))) (fun k Hk => proj2 (N k Hk))) as [M [HM P]].
  exists (K + M). split; [lra|]. intros i Hi. split; [apply L; apply Hi|]. intros k Hk. pose proof Hi as (_ & Hpe & _). destruct (u_half (pr i) ltac:(lia)) as [U _].
  assert (0 <= K * uround (pr i)) by (apply Rmult_le_pos; lra). assert (0 <= M * uround (pr i)) by (apply Rmult_le_pos; lra).
  destruct (Q i (fmt_mono I pr em V _ K i Hi ltac:(lra)) k Hk) as [F E]. destruct (P i (fmt_mono I pr em V _ M i Hi ltac:(lra)) k Hk) as [F' E'].
  rewrite Rmult_plus_distr_r. repeat split; try apply F; try apply F'; lra.
Qed.
End CNear.
