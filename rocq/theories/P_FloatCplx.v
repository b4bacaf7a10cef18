(** Splitting a list of floats into conjugate pairs and reals, when the values pair up
    exactly. *)
From Coq Require Import Reals ZArith SpecFloat List Lia Lra Bool Permutation Sorted.
From Flocq Require Import Core BinarySingleNaN.
From Verif Require Import Base Num Trans M_Complex M_Fourier M_Filter M_Design Cx S_Design S_Filter S_Float S_FloatFft S_FloatZpk S_FloatTrans S_FloatSos
  P_Poly P_Lp P_Proto P_Iir P_Zi P_Bessel P_Sqrt P_Float P_FloatStats P_FloatMed P_FloatI0 P_FloatZi P_Sos P_FloatSym P_SosGen.
Import ListNotations.
Local Open Scope R_scope.

(** ** Runs, over any number type *)
Section Runs.
Context {F : Type} {NF : Num F}.
Variable sort : forall A : Type, (A -> A -> bool) -> list A -> list A.
Hypothesis Hsort : forall A le (l : list A), Permutation l (sort A le l).
Lemma zip_app {A B} (a b : list A) (c d : list B) : length a = length c -> zip (a ++ b) (c ++ d) = zip a c ++ zip b d.
Proof. revert c. induction a as [|x a IH]; intros [|y c] H; try discriminate; [reflexivity|]. cbn [app zip]. rewrite IH by (cbn in H; lia). reflexivity. Qed.
Lemma zip_split {A B} (l : list (A * B)) : zip (map fst l) (map snd l) = l.
Proof. induction l as [|[a b] l IH]; [reflexivity|]. cbn [map zip fst snd]. rewrite IH. reflexivity. Qed.
Lemma zip_len {A B} (a : list A) (b : list B) : length a = length b -> length (zip a b) = length a.
Proof. revert b. induction a as [|x a IH]; intros [|y b] H; try discriminate; [reflexivity|]. cbn [zip length]. rewrite IH by (cbn in H; lia). reflexivity. Qed.
Lemma map_fst_zip {A B} (a : list A) (b : list B) : length a = length b -> map fst (zip a b) = a.
Proof. revert b. induction a as [|x a IH]; intros [|y b] H; try discriminate; [reflexivity|]. cbn [zip map fst]. rewrite IH by (cbn in H; lia). reflexivity. Qed.
Lemma map_snd_zip {A B} (a : list A) (b : list B) : length a = length b -> map snd (zip a b) = b.
Proof. revert b. induction a as [|x a IH]; intros [|y b] H; try discriminate; [reflexivity|]. cbn [zip map snd]. rewrite IH by (cbn in H; lia). reflexivity. Qed.
Lemma gsort_run zp zn s e : (s <= e)%nat -> (e < length zp)%nat -> length zp = length zn ->
  exists zp' zn', @sort_run F NF sort (zp, zn) (s, e) = Ok (zp', zn') /\ Permutation (zip zp zn) (zip zp' zn') /\ length zp' = length zp /\ length zn' = length zp.
Proof.
  intros Hse Hel Hl. unfold sort_run. cbn [fst snd]. unfold slice. rewrite <- Hl.
  destruct (Nat.leb_spec s (e + 1)); [|lia]. destruct (Nat.leb_spec (e + 1) (length zp)); [|lia]. cbn [andb bind].
  set (cp := firstn (e + 1 - s) (skipn s zp)). set (cn := firstn (e + 1 - s) (skipn s zn)).
  assert (D : forall (l : list (cplx F)), l = firstn s l ++ firstn (e + 1 - s) (skipn s l) ++ skipn (e + 1) l).
  { intros l. rewrite <- (firstn_skipn s l) at 1. f_equal. rewrite <- (firstn_skipn (e + 1 - s) (skipn s l)) at 1. f_equal. rewrite skipn_skipn'. f_equal. lia. }
  assert (Lc : length cp = length cn) by (unfold cp, cn; rewrite !firstn_length, !skipn_length; lia).
  pose proof (Hsort _ le_pair (zip cp cn)) as HP. set (ch := sort _ le_pair (zip cp cn)) in *. clearbody ch.
  assert (Lh : length ch = length cp) by (rewrite <- (Permutation_length HP); apply zip_len; exact Lc).
  eexists. eexists. split; [reflexivity|].
  assert (Lf : length (firstn s zp) = length (firstn s zn)) by (rewrite !firstn_length; lia). split; [|split].
  - rewrite (f_equal2 zip (D zp) (D zn)). fold cp cn. rewrite (zip_app (firstn s zp)) by exact Lf. rewrite (zip_app cp) by exact Lc. rewrite (zip_app (firstn s zp)) by exact Lf. apply Permutation_app_head.
    rewrite zip_app by (rewrite !map_length; reflexivity). rewrite zip_split. apply Permutation_app_tail. exact HP.
  - rewrite (f_equal (@length _) (D zp)). fold cp. rewrite !app_length, map_length. lia.
  - rewrite Hl. rewrite (f_equal (@length _) (D zn)). fold cn. rewrite !app_length, map_length. lia.
Qed.
Lemma gsort_runs starts : forall stops zp zn, Forall2 le starts stops -> Forall (fun e => (e < length zp)%nat) stops -> length zp = length zn ->
  exists zp' zn', rfold (@sort_run F NF sort) (zip starts stops) (zp, zn) = Ok (zp', zn') /\ Permutation (zip zp zn) (zip zp' zn') /\ length zp' = length zp /\ length zn' = length zp.
Proof.
  induction starts as [|s starts IH]; intros stops zp zn H2 Hf Hl; inversion H2 as [|? e ? stops' Hse H2']; subst.
  - exists zp, zn. split; [reflexivity|]. split; [apply Permutation_refl|]. split; [reflexivity|symmetry; exact Hl].
  - inversion Hf as [|? ? Hel Hf']; subst. cbn [zip rfold]. destruct (gsort_run zp zn s e Hse Hel Hl) as [zp1 [zn1 [-> [HP1 [L1 L2]]]]]. cbn [bind].
    destruct (IH stops' zp1 zn1 H2') as [zp' [zn' [-> [HP' [L1' L2']]]]].
    { rewrite L1. exact Hf'. } { lia. }
    exists zp', zn'. split; [reflexivity|]. split; [eapply Permutation_trans; eassumption|]. lia.
Qed.
End Runs.

Section One.
Variables prec emax : Z.
Hypothesis Hpe : (1 < prec < emax)%Z.
Variable sz : bool.
Variable T : Trans spec_float.
Hypothesis HSy : symmetric_trans prec emax T.
Local Instance Hpc : Prec_gt_0 prec.
Proof. unfold Prec_gt_0. lia. Qed.
Local Instance Hec : Prec_lt_emax prec emax.
Proof. unfold Prec_lt_emax. lia. Qed.
Notation fin := (finite prec emax).
Notation cfin := (cfinite prec emax).
Notation NFx := (SFNum prec emax sz).
Notation rnd := (round radix2 (FLT_exp (SpecFloat.emin prec emax) prec) ZnearestE).
Hypothesis H2 : fin (@two _ NFx) /\ fval (@two _ NFx) = 2.

Lemma lt_val a b : fin a -> fin b -> SFltb a b = Rltb (fval a) (fval b).
Proof.
  intros Fa Fb. destruct (finite_B prec emax a Fa) as [x [-> [Fx Vx]]]. destruct (finite_B prec emax b Fb) as [y [-> [Fy Vy]]].
  rewrite Vx, Vy. change (SFltb (B2SF x) (B2SF y)) with (Bltb x y). rewrite Bltb_correct by assumption.
  unfold Rltb. destruct (Rlt_bool_spec (B2R x) (B2R y)); destruct (Rlt_dec (B2R x) (B2R y)); (reflexivity || lra).
Qed.
Lemma le_val a b : fin a -> fin b -> SFleb a b = Rleb (fval a) (fval b).
Proof.
  intros Fa Fb. destruct (finite_B prec emax a Fa) as [x [-> [Fx Vx]]]. destruct (finite_B prec emax b Fb) as [y [-> [Fy Vy]]].
  rewrite Vx, Vy. change (SFleb (B2SF x) (B2SF y)) with (Bleb x y). rewrite Bleb_correct by assumption.
  unfold Rleb. destruct (Rle_bool_spec (B2R x) (B2R y)); destruct (Rle_dec (B2R x) (B2R y)); (reflexivity || lra).
Qed.
Lemma zero_fin : fin (S754_zero false).
Proof. split; [reflexivity|exact Logic.I]. Qed.
Lemma le_abs_val a b : cfin a -> cfin b -> @le_cplx_abs _ NFx a b = le_cplx_abs (cval a) (cval b).
Proof.
  intros [A1 A2] [B1 B2]. unfold le_cplx_abs. cbn [nltb nleb nabs SFNum RNum]. rewrite !lt_val by assumption.
  destruct (fabs_val prec emax _ A2) as [A3 A4]. destruct (fabs_val prec emax _ B2) as [B3 B4]. rewrite le_val by assumption. rewrite A4, B4. reflexivity.
Qed.
Lemma gisr_val z : cfin z -> @gisr _ NFx z = isr (cval z).
Proof. intros [_ A]. unfold gisr, isr, is_zero. cbn [neqb SFNum nzero RNum]. rewrite (SFeqb_fval prec emax) by first [exact Hpe|exact A|exact zero_fin]. reflexivity. Qed.

(** Doubling and halving are exact. *)
Lemma format_val x : fin x -> rnd (fval x) = fval x.
Proof. intros Fx. destruct (finite_B prec emax x Fx) as [b [-> [Fb Vb]]]. rewrite Vb. apply round_generic; [apply valid_rnd_N|]. apply generic_format_B2R. Qed.
Lemma format_double x : fin x -> rnd (2 * fval x) = 2 * fval x.
Proof.
  intros Fx. destruct (finite_B prec emax x Fx) as [b [-> [Fb Vb]]]. rewrite Vb. apply round_generic; [apply valid_rnd_N|].
  pose proof (generic_format_B2R prec emax b) as G. apply FLT_format_generic in G; [|exact Hpc]. destruct G as [[m e] Ef Hm Hex]. apply generic_format_FLT. cbn in Hm, Hex.
  apply (FLT_spec _ _ _ _ (Float radix2 m (e + 1))); cbn; [|exact Hm|lia]. rewrite Ef. unfold F2R. cbn [Fnum Fexp]. rewrite bpow_plus. change (bpow radix2 1) with 2. ring.
Qed.
Lemma double_half x y : fin x -> fin y -> fval y = fval x -> fin (SFadd prec emax x x) ->
  fin (SFdiv prec emax (SFadd prec emax x y) (@two _ NFx)) /\ fval (SFdiv prec emax (SFadd prec emax x y) (@two _ NFx)) = fval x.
Proof.
  intros Fx Fy E Fs. destruct (fadd_char prec emax _ _ x x Fx Fx) as [A _]. destruct (fadd_char prec emax _ _ x y Fx Fy) as [A' B'].
  assert (Fs' : fin (SFadd prec emax x y)) by (apply A'; rewrite E; apply A; exact Fs).
  assert (Vs : fval (SFadd prec emax x y) = 2 * fval x) by (rewrite (B' Fs'), E; replace (fval x + fval x) with (2 * fval x) by ring; apply format_double; exact Fx).
  destruct H2 as [F2 V2].
  assert (N2 : fval (@two _ NFx) <> 0) by (rewrite V2; lra).
  destruct (fdiv_char prec emax _ _ _ _ Fs' F2 N2) as [C D]. rewrite Vs in C, D. rewrite V2 in C, D.
  replace (2 * fval x / 2) with (fval x) in C, D by field. rewrite (format_val x Fx) in C, D.
  assert (FF : fin (SFdiv prec emax (SFadd prec emax x y) (@two _ NFx))).
  { apply C. destruct (finite_B prec emax x Fx) as [b [-> [Fb Vb]]]. rewrite Vb. apply abs_B2R_lt_emax. }
  split; [exact FF|exact (D FF)].
Qed.
Lemma fsub_same x y : fin x -> fin y -> fval y = fval x -> fin (SFsub prec emax x y) /\ fval (SFsub prec emax x y) = 0.
Proof.
  intros Fx Fy E. destruct (fsub_char prec emax _ _ x y Fx Fy) as [A B]. rewrite E in A, B. replace (fval x - fval x) with 0 in A, B by ring. rewrite round_0 in A, B by apply valid_rnd_N.
  assert (FF : fin (SFsub prec emax x y)) by (apply A; rewrite Rabs_R0; apply bpow_gt_0). split; [exact FF|exact (B FF)].
Qed.
Lemma fmul_zero x : fin x -> fval x = 0 -> fin (SFmul prec emax x x) /\ fval (SFmul prec emax x x) = 0.
Proof.
  intros Fx E. destruct (fmul_char prec emax _ _ x x Fx Fx) as [A B]. rewrite E, Rmult_0_l in A, B. rewrite round_0 in A, B by apply valid_rnd_N.
  assert (FF : fin (SFmul prec emax x x)) by (apply A; rewrite Rabs_R0; apply bpow_gt_0). split; [exact FF|exact (B FF)].
Qed.
Lemma fadd_zero x y : fin x -> fin y -> fval x = 0 -> fval y = 0 -> fin (SFadd prec emax x y) /\ fval (SFadd prec emax x y) = 0.
Proof.
  intros Fx Fy Ex Ey. destruct (fadd_char prec emax _ _ x y Fx Fy) as [A B]. rewrite Ex, Ey, Rplus_0_l in A, B. rewrite round_0 in A, B by apply valid_rnd_N.
  assert (FF : fin (SFadd prec emax x y)) by (apply A; rewrite Rabs_R0; apply bpow_gt_0). split; [exact FF|exact (B FF)].
Qed.
Lemma norm_zero z : cfin z -> fval (cre z) = 0 -> fval (cim z) = 0 -> fin (@cnorm _ T z) /\ fval (@cnorm _ T z) = 0.
Proof. intros [F1 F2] E1 E2. exact (sym_length0 _ _ _ HSy _ _ F1 F2 E1 E2). Qed.

Definition good (tol : spec_float) (z : cplx spec_float) : Prop :=
  cfin z /\ @near_real _ NFx T tol z = @gisr _ NFx z /\ fin (SFadd prec emax (cre z) (cre z)) /\ fin (SFadd prec emax (cim z) (cim z)) /\
  fin (SFmul prec emax tol (@cnorm _ T z)) /\ 0 <= fval (SFmul prec emax tol (@cnorm _ T z)).
Lemma mean_val p n : cfin p -> cfin n -> cval n = cconj (cval p) -> fin (SFadd prec emax (cre p) (cre p)) -> fin (SFadd prec emax (cim p) (cim p)) ->
  cfin (@cdivr _ NFx (@cadd _ NFx p (@cconj _ NFx n)) (@two _ NFx)) /\ cval (@cdivr _ NFx (@cadd _ NFx p (@cconj _ NFx n)) (@two _ NFx)) = cval p.
Proof.
  intros [P1 P2] [N1 N2] E A B. assert (E1 : fval (cre n) = fval (cre p)) by exact (f_equal fst E). assert (E2 : fval (cim n) = - fval (cim p)) by exact (f_equal snd E).
  destruct (double_half (cre p) (cre n) P1 N1 E1 A) as [D1 D2]. destruct (double_half (cim p) (SFopp (cim n)) P2 (fin_opp prec emax _ N2)) as [D3 D4]; [rewrite (val_opp), E2; ring|exact B|].
  split; [split; assumption|]. apply C_ext; [exact D2|exact D4].
Qed.
Lemma check_val tol p n : cfin p -> good tol n -> cval n = cconj (cval p) ->
  @nltb _ NFx (@nmul _ NFx tol (@cnorm _ T n)) (@cnorm _ T (@csub _ NFx p (@cconj _ NFx n))) = false.
Proof.
  intros [P1 P2] ([N1 N2] & _ & _ & _ & Fm & Pm) E. assert (E1 : fval (cre n) = fval (cre p)) by exact (f_equal fst E). assert (E2 : fval (cim n) = - fval (cim p)) by exact (f_equal snd E).
  destruct (fsub_same (cre p) (cre n) P1 N1 E1) as [D1 D2]. destruct (fsub_same (cim p) (SFopp (cim n)) P2 (fin_opp prec emax _ N2)) as [D3 D4]; [rewrite (val_opp), E2; ring|].
  destruct (norm_zero (@csub _ NFx p (@cconj _ NFx n)) (conj D1 D3) D2 D4) as [G1 G2].
  cbn [nltb SFNum]. rewrite lt_val by assumption. rewrite G2. unfold Rltb. destruct (Rlt_dec _ _) as [Q|Q]; [cbn [nmul SFNum] in Q; lra|reflexivity].
Qed.

Variable sort : forall A : Type, (A -> A -> bool) -> list A -> list A.
Hypothesis Hsort : is_list_sort sort.
Lemma sort_perm A le (l : list A) : Permutation l (sort A le l).
Proof. apply Hsort. Qed.

Theorem fcplxreal epsilon l : Forall (good (@nmul _ NFx epsilon (@nofZ _ NFx 100))) l -> conj_closed (map cval l) ->
  exists zc zr, @cplxreal_dyn _ NFx T epsilon sort l None = Ok (zc, zr) /\ Forall cfin zc /\ Forall cfin zr /\
    Forall (fun r => 0 < cim r) (map cval zc) /\ Forall (fun r => cim r = 0) (map cval zr) /\
    Permutation (map cval l) (map cval zc ++ map cconj (map cval zc) ++ map cval zr).
Proof.
  intros Hg Hc. destruct l as [|z0 z'].
  { exists [], []. split; [reflexivity|]. repeat split; constructor. }
  unfold cplxreal_dyn. cbn [unwrap_or]. set (z := z0 :: z') in *. clearbody z. clear z0 z'.
  set (tol := @nmul _ NFx epsilon (@nofZ _ NFx 100)) in *. cbv zeta.
  destruct (Hsort _ (@le_cplx_abs _ NFx) z) as [HP HS]. set (zs := sort _ (@le_cplx_abs _ NFx) z) in *.
  assert (Gz : forall r, In r z -> good tol r) by (rewrite Forall_forall in Hg; exact Hg).
  assert (HS' : StronglySorted (fun a b => @le_cplx_abs _ NFx a b = true) zs).
  { apply HS.
    - intros a b Ia Ib. apply Gz in Ia, Ib. rewrite !le_abs_val by (apply Ia || apply Ib). apply leA_total.
    - intros a b d Ia Ib Id. apply Gz in Ia, Ib, Id. rewrite !le_abs_val by (apply Ia || apply Ib || apply Id). apply leA_trans. }
  clear HS. clearbody zs.
  assert (Gs : forall r, In r zs -> good tol r) by (intros r Hr; apply Gz, (Permutation_in _ (Permutation_sym HP)), Hr).
  assert (SR : StronglySorted (fun a b => le_cplx_abs a b = true) (map cval zs)).
  { clear - HS' Gs Hpe. induction HS' as [|a m Hm IH Ha]; [constructor|]. cbn [map]. constructor; [apply IH; intros; apply Gs; right; assumption|].
    apply Forall_forall. intros y Hy. apply in_map_iff in Hy. destruct Hy as [b [<- Hb]]. rewrite Forall_forall in Ha. rewrite <- le_abs_val; [apply Ha; exact Hb|apply Gs; left; reflexivity|apply Gs; right; exact Hb]. }
  assert (Hcs : conj_closed (map cval zs)) by exact (conj_closed_perm _ _ (Permutation_map cval HP) Hc).
  assert (Hnr : forall r, In r zs -> @near_real _ NFx T tol r = isr (cval r)).
  { intros r Hr. destruct (Gs r Hr) as (F1 & N & _). rewrite N. apply gisr_val. exact F1. }
  rewrite (filter_ext_in _ _ _ Hnr).
  rewrite (filter_ext_in (fun zi => negb (@near_real _ NFx T tol zi)) (fun zi => negb (isr (cval zi)))) by (intros r Hr; rewrite Hnr by exact Hr; reflexivity).
  assert (Hzr : Forall (fun r => cim r = 0) (map cval (filter (fun zi => isr (cval zi)) zs))).
  { apply Forall_forall. intros r Hr. apply in_map_iff in Hr. destruct Hr as [w [<- Hw]]. apply filter_In in Hw. apply isr_true, Hw. }
  assert (Fzr : Forall cfin (filter (fun zi => isr (cval zi)) zs)).
  { apply Forall_forall. intros r Hr. apply filter_In in Hr. apply Gs, Hr. }
  destruct (Nat.eqb_spec (length (filter (fun zi => isr (cval zi)) zs)) (length zs)) as [E'|E'].
  { exists [], (filter (fun zi => isr (cval zi)) zs). split; [reflexivity|]. split; [constructor|]. split; [exact Fzr|]. split; [constructor|]. split; [exact Hzr|]. cbn [map app]. rewrite filter_all_length by exact E'. apply Permutation_map. exact HP. }
  clear E'. rewrite !filter_filter'.
  set (zp := filter _ zs). set (zn := filter _ zs).
  assert (Ep : zp = filter (fun zi => Rltb 0 (cim (cval zi))) zs).
  { unfold zp. apply filter_ext_in. intros r Hr. destruct (Gs r Hr) as ([_ F2] & _). cbn [nltb nzero SFNum]. rewrite lt_val by (exact zero_fin || exact F2). change (cim (cval r)) with (fval (cim r)). change (fval (S754_zero false)) with 0.
    destruct (Rltb_spec 0 (fval (cim r))) as [Q|Q]; [|reflexivity]. cbn [andb].
    replace (isr (cval r)) with false; [reflexivity|]. symmetry. apply isr_false. cbn. lra. }
  assert (En : zn = filter (fun zi => Rltb (cim (cval zi)) 0) zs).
  { unfold zn. apply filter_ext_in. intros r Hr. destruct (Gs r Hr) as ([_ F2] & _). cbn [nltb nzero SFNum]. rewrite lt_val by (exact zero_fin || exact F2). change (cim (cval r)) with (fval (cim r)). change (fval (S754_zero false)) with 0.
    destruct (Rltb_spec (fval (cim r)) 0) as [Q|Q]; [|reflexivity]. cbn [andb].
    replace (isr (cval r)) with false; [reflexivity|]. symmetry. apply isr_false. cbn. lra. }
  clearbody zp zn.
  assert (Vp : map cval zp = filter (fun zi => Rltb 0 (cim zi)) (map cval zs)) by (rewrite Ep, filter_map_comm; reflexivity).
  assert (Vn : map cval zn = filter (fun zi => Rltb (cim zi) 0) (map cval zs)) by (rewrite En, filter_map_comm; reflexivity).
  assert (Hperm : Permutation (map cconj (map cval zn)) (map cval zp)).
  { rewrite Vp, Vn. eapply Permutation_trans; [|apply (filter_perm _ _ _ Hcs)]. rewrite (filter_map_comm cconj).
    rewrite (filter_ext (fun x => Rltb 0 (cim (cconj x))) (fun zi => Rltb (cim zi) 0)); [apply Permutation_refl|].
    intros r. change (cim (cconj r)) with (- cim r). destruct (Rltb_spec 0 (- cim r)), (Rltb_spec (cim r) 0); try reflexivity; lra. }
  assert (Hpos : forall r, In r (map cval zp) -> 0 < cim r).
  { intros r Hr. rewrite Vp in Hr. apply filter_In in Hr. destruct Hr as [_ Hr]. destruct (Rltb_spec 0 (cim r)); [assumption|discriminate]. }
  assert (Eq : map cconj (map cval zn) = map cval zp).
  { apply (sorted_perm_eq (fun a b => le_cplx_abs a b = true)).
    - apply (map_sorted cconj (fun a b => le_cplx_abs a b = true) (fun a b => le_cplx_abs a b = true)); [|rewrite Vn; apply filter_sorted, SR]. intros x y. rewrite !leA_iff.
      change (cim (cconj x)) with (- cim x). change (cim (cconj y)) with (- cim y). change (cre (cconj x)) with (cre x). change (cre (cconj y)) with (cre y).
      rewrite !Rabs_Ropp. tauto.
    - rewrite Vp. apply filter_sorted, SR.
    - exact Hperm.
    - intros a. destruct (leA_total a a); assumption.
    - intros a b Ia Ib. apply (Permutation_in _ Hperm) in Ia, Ib. apply Hpos in Ia, Ib. rewrite !leA_iff, !(Rabs_right _) by lra.
      intros [Q|[Q Q']] [W|[W W']]; try lra. destruct a as [a1 a2], b as [b1 b2]. cbn in *. apply C_ext; cbn; lra. }
  assert (Ll : length zp = length zn) by (rewrite <- (map_length cval zp), <- Eq, !map_length; reflexivity).
  assert (Pr : Forall (fun pn => cval (snd pn) = cconj (cval (fst pn)) /\ good tol (fst pn) /\ good tol (snd pn)) (zip zp zn)).
  { assert (Gp : forall r, In r zp -> good tol r) by (intros r Hr; rewrite Ep in Hr; apply filter_In in Hr; apply Gs, Hr).
    assert (Gn : forall r, In r zn -> good tol r) by (intros r Hr; rewrite En in Hr; apply filter_In in Hr; apply Gs, Hr).
    clear - Eq Ll Gp Gn. revert zn Eq Ll Gn. induction zp as [|p zp IH]; intros [|n zn] Eq Ll Gn; try discriminate; [constructor|]. cbn [zip]. cbn [map] in Eq. injection Eq as Q1 Q2 Q3.
    constructor; [|apply IH; [intros; apply Gp; right; assumption|exact Q3|cbn in Ll; lia|intros; apply Gn; right; assumption]].
    cbn [fst snd]. split; [|split; [apply Gp; left; reflexivity|apply Gn; left; reflexivity]]. apply C_ext; cbn in *; [exact Q1|]. change (snd (cval n)) with (fval (cim n)) in *. cbn. lra. }
  rewrite <- Ll, Nat.eqb_refl. cbn [negb].
  set (fl := @same_real_flags _ NFx T tol zp).
  assert (Efl : exists l, fl = false :: l /\ last (false :: l) false = false /\ (zp <> [] -> length l = length zp) /\ (zp = [] -> l = [false])).
  { unfold fl, same_real_flags. cbn [app]. eexists. split; [reflexivity|]. split.
    - change (false :: ?m ++ [false]) with ((false :: m) ++ [false]). apply last_last.
    - split; [|intros ->; reflexivity]. intros Hne. rewrite app_length, map_length. cbn [length].
      assert (Hz : forall (l : list (cplx spec_float)), length (zip l (tl l)) = (length l - 1)%nat).
      { intros l. destruct l as [|x l]; [reflexivity|]. cbn [tl length]. rewrite Nat.sub_succ, Nat.sub_0_r. revert x. induction l as [|y l IH]; intros x; [reflexivity|]. cbn [zip length]. f_equal. apply IH. }
      rewrite Hz. destruct zp; [contradiction|cbn [length]; lia]. }
  destruct Efl as [l [-> [Hlast [Hlen Hnil]]]].
  pose proof (runs_spec l 0 false Hlast) as RS. cbv zeta in RS. destruct RS as [RB RF].
  unfold positions. fold (@pos_from Z 0 (fun s => Z.ltb 0 s) (same_real_steps (false :: l))). fold (@pos_from Z 0 (fun s => Z.ltb s 0) (same_real_steps (false :: l))).
  assert (RB' : Forall (fun e => (e < length zp)%nat) (pos_from 0 (fun s => Z.ltb s 0) (same_real_steps (false :: l)))).
  { destruct zp as [|x zp0] eqn:Ez; [rewrite Hnil by reflexivity; constructor|]. rewrite <- Hlen by discriminate. exact RB. }
  clear RB. set (starts := pos_from 0 _ _) in *. set (stops := pos_from 0 (fun s => Z.ltb s 0) _) in *. clearbody starts stops.
  rewrite (Forall2_len _ _ _ RF), Nat.eqb_refl. cbn [rassert bind].
  destruct (@gsort_runs _ NFx sort sort_perm starts stops zp zn RF RB' Ll) as [zp' [zn' [-> [HP' [L1 L2]]]]]. cbn [bind].
  pose proof (Permutation_Forall HP' Pr) as Pr'. rewrite Forall_forall in Pr'.
  replace (existsb _ (zip zp' zn')) with false.
  2:{ symmetry. apply not_true_is_false. intros Q. apply existsb_exists in Q. destruct Q as [[p n] [Hin Q]]. destruct (Pr' _ Hin) as (V1 & G1 & G2). cbn [fst snd] in *.
      rewrite (check_val tol p n (proj1 G1) G2 V1) in Q. discriminate. }
  set (mean := fun pn : cplx spec_float * cplx spec_float => @cdivr _ NFx (@cadd _ NFx (fst pn) (@cconj _ NFx (snd pn))) (@two _ NFx)).
  assert (Mv : forall pn, In pn (zip zp' zn') -> cfin (mean pn) /\ cval (mean pn) = cval (fst pn)).
  { intros pn Hin. destruct (Pr' _ Hin) as (V1 & G1 & G2). apply mean_val; [apply G1|apply G2|exact V1|apply G1|apply G1]. }
  assert (EM : map cval (map mean (zip zp' zn')) = map cval zp').
  { rewrite map_map. rewrite (map_ext_in _ (fun pn => cval (fst pn))) by (intros pn Hin; apply Mv; exact Hin). rewrite <- (map_map fst cval), map_fst_zip by lia. reflexivity. }
  assert (PM : Permutation (map cval zp) (map cval zp')).
  { rewrite <- (map_fst_zip zp zn Ll), <- (map_fst_zip zp' zn') by lia. apply Permutation_map, Permutation_map. exact HP'. }
  exists (map mean (zip zp' zn')), (filter (fun zi => isr (cval zi)) zs). split; [reflexivity|].
  split; [apply Forall_forall; intros r Hr; apply in_map_iff in Hr; destruct Hr as [pn [<- Hin]]; apply Mv; exact Hin|]. split; [exact Fzr|]. rewrite EM.
  split; [apply Forall_forall; intros r Hr; apply Hpos, (Permutation_in _ (Permutation_sym PM)), Hr|]. split; [exact Hzr|].
  eapply Permutation_trans; [apply Permutation_map, HP|].
  eapply Permutation_trans; [|apply Permutation_app; [exact PM|apply Permutation_app_tail, Permutation_map, PM]].
  assert (Ezn : map cconj (map cval zp) = map cval zn).
  { rewrite <- Eq, map_map. rewrite <- (map_id (map cval zn)) at 2. apply map_ext. intros r. apply cconj_conj. }
  rewrite Ezn, Vp, Vn. 
  assert (FM : forall A B (f : A -> B) g (m : list A), map f (filter (fun x => g (f x)) m) = filter g (map f m)) by (intros A B f g m; symmetry; apply filter_map_comm).
  rewrite <- (FM _ _ cval (fun zi => Rltb 0 (cim zi))), <- (FM _ _ cval (fun zi => Rltb (cim zi) 0)), <- !map_app. apply Permutation_map.
  eapply Permutation_trans; [apply (filter_split (fun zi => negb (isr (cval zi))) (fun zi => isr (cval zi)))|]. { intros r _. reflexivity. }
  rewrite app_assoc. apply Permutation_app_tail.
  eapply Permutation_trans; [apply (filter_split (fun zi => Rltb 0 (cim (cval zi))) (fun zi => Rltb (cim (cval zi)) 0))|].
  { intros r Hr. apply filter_In in Hr. destruct Hr as [_ Hr]. apply negb_true_iff, isr_false in Hr.
    destruct (Rltb_spec 0 (cim (cval r))), (Rltb_spec (cim (cval r)) 0); try reflexivity; lra. }
  rewrite !filter_filter'. apply Permutation_app; apply Permutation_refl'; apply filter_ext; intros r.
  - destruct (Rltb_spec 0 (cim (cval r))) as [Q|Q]; [|reflexivity]. cbn [andb]. replace (isr (cval r)) with false; [reflexivity|]. symmetry. apply isr_false. lra.
  - destruct (Rltb_spec (cim (cval r)) 0) as [Q|Q]; [|reflexivity]. cbn [andb]. replace (isr (cval r)) with false; [reflexivity|]. symmetry. apply isr_false. lra.
Qed.
End One.
