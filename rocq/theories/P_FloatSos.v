(** Rounding in zpk2sos: each float section is close to the section that the limits of its
    roots make, and together those have the roots of the exact filter. *)
From Coq Require Import Reals ZArith SpecFloat List Lia Lra Bool Permutation Sorted.
From Flocq Require Import Core BinarySingleNaN.
From Verif Require Import Base Num Trans M_Complex M_Fourier M_Filter M_Design Cx S_Design S_Filter S_Float S_FloatFft S_FloatZpk S_FloatTrans S_FloatSos
  P_Poly P_Lp P_Proto P_Iir P_Zi P_Bessel P_Sqrt P_Float P_FloatStats P_FloatMed P_FloatI0 P_FloatZi P_FloatPoly T_FloatPoly P_FloatDesign P_FloatResponse P_FloatSqrt P_Sos P_FloatSym P_FloatMate P_SosGen P_FloatCplx P_FloatGood.
Import ListNotations.
Local Open Scope R_scope.

(** ** Lists *)
Lemma conj_closed_involution (l : list C) (m : nat -> nat) :
  (forall k, (k < length l)%nat -> (m k < length l)%nat /\ m (m k) = k /\ nth (m k) l C0 = cconj (nth k l C0)) -> conj_closed l.
Proof.
  intros H. unfold conj_closed. set (n := length l) in *.
  assert (E1 : map cconj l = map (fun k => nth k l C0) (map m (seq 0 n))).
  { apply (nth_ext _ _ C0 C0); [rewrite !map_length, seq_length; reflexivity|]. intros k Hk. rewrite map_length in Hk. fold n in Hk.
    rewrite (nth_map_in cconj l k C0 C0 Hk). rewrite map_map. rewrite (nth_map_in (fun x => nth (m x) l C0) (seq 0 n) k C0 0%nat) by (rewrite seq_length; exact Hk).
    rewrite seq_nth by exact Hk. cbn [Nat.add]. symmetry. apply H. exact Hk. }
  assert (E2 : l = map (fun k => nth k l C0) (seq 0 n)).
  { apply (nth_ext _ _ C0 C0); [rewrite map_length, seq_length; reflexivity|]. intros k Hk. rewrite (nth_map_in (fun k => nth k l C0) (seq 0 n) k C0 0%nat) by (rewrite seq_length; exact Hk). rewrite seq_nth by exact Hk. reflexivity. }
  rewrite E1. eapply Permutation_trans; [|apply Permutation_refl'; symmetry; exact E2]. apply Permutation_map. apply NoDup_Permutation_bis.
  - assert (In_inj : forall a b, In a (seq 0 n) -> In b (seq 0 n) -> m a = m b -> a = b).
    { intros a b Ha Hb Q. apply in_seq in Ha, Hb. destruct (H a) as (_ & A & _); [lia|]. destruct (H b) as (_ & B & _); [lia|]. congruence. }
    clear - In_inj. assert (ND := seq_NoDup n 0). induction ND as [|x xs Hx ND IH]; [constructor|]. cbn [map]. constructor.
    + intros Q. apply in_map_iff in Q. destruct Q as [y [Ey Hy]]. apply Hx. rewrite <- (In_inj y x); [exact Hy|right; exact Hy|left; reflexivity|exact Ey].
    + apply IH. intros; apply In_inj; try (right; assumption). assumption.
  - rewrite map_length. lia.
  - intros x Hx. apply in_map_iff in Hx. destruct Hx as [k [<- Hk]]. apply in_seq in Hk. apply in_seq. destruct (H k) as (A & _); lia.
Qed.
Lemma Forall2_concat_l {A B} (P : A -> B -> Prop) ls : forall m, Forall2 P (concat ls) m -> exists ms, m = concat ms /\ Forall2 (Forall2 P) ls ms.
Proof.
  induction ls as [|l ls IH]; intros m H; cbn [concat] in H.
  - inversion H. exists []. split; [reflexivity|constructor].
  - apply Forall2_app_inv_l in H. destruct H as (m1 & m2 & H1 & H2 & ->). destruct (IH _ H2) as [ms [-> H3]]. exists (m1 :: ms). split; [reflexivity|constructor; assumption].
Qed.
Lemma Forall2_map_l {A B D} (P : B -> D -> Prop) (f : A -> B) l m : Forall2 P (map f l) m <-> Forall2 (fun a d => P (f a) d) l m.
Proof.
  revert m. induction l as [|a l IH]; intros m; split; intros H; inversion H; subst; constructor; try assumption; apply IH; assumption.
Qed.
Lemma Forall2_len' {A B} (P : A -> B -> Prop) l m : Forall2 P l m -> length l = length m.
Proof. induction 1; cbn; congruence. Qed.
Lemma Forall2_nth_intro {A B} (P : A -> B -> Prop) da db l : forall m, length l = length m -> (forall k, (k < length l)%nat -> P (nth k l da) (nth k m db)) -> Forall2 P l m.
Proof.
  induction l as [|a l IH]; intros [|b m] L H; try discriminate; [constructor|]. constructor; [apply (H 0%nat); cbn; lia|]. apply IH; [cbn in L; lia|]. intros k Hk. apply (H (S k)). cbn. lia.
Qed.
Lemma Forall2_nth_elim {A B} (P : A -> B -> Prop) da db l m : Forall2 P l m -> forall k, (k < length l)%nat -> P (nth k l da) (nth k m db).
Proof. induction 1 as [|a b l m H HF IH]; intros k Hk; cbn in Hk; [lia|]. destruct k; [exact H|]. apply IH. lia. Qed.

(** ** The limits of a splitting *)
Definition vnear (e : R) (v c : C) : Prop := cwithin e v c /\ same_sign (cim v) (cim c).
Lemma vnear_conj e v c : vnear e v c -> vnear e (cconj v) (cconj c).
Proof.
  intros [[A B] [S1 S2]]. split; [split; [exact A|]|].
  - change (snd (cconj v)) with (- snd v). change (snd (cconj c)) with (- snd c). replace (- snd v - - snd c) with (- (snd v - snd c)) by ring. rewrite Rabs_Ropp. exact B.
  - change (cim (cconj v)) with (- cim v). change (cim (cconj c)) with (- cim c). assert (N1 : forall x, 0 < - x <-> x < 0) by (intros; split; lra). assert (N2 : forall x, - x < 0 <-> 0 < x) by (intros; split; lra).
    unfold same_sign. rewrite !N1, !N2. split; assumption.
Qed.
Lemma vnear_isr e v c : vnear e v c -> isr v = isr c.
Proof. intros [_ S]. pose proof (same_sign_zero _ _ S) as Q. destruct (isr c) eqn:E; [apply isr_true in E; apply isr_true; tauto|apply isr_false in E; apply isr_false; tauto]. Qed.
Lemma split_limits e (vl vc vr l : list C) : conj_closed l -> Forall2 (vnear e) vl l ->
  Forall (fun r => 0 < cim r) vc -> Forall (fun r => cim r = 0) vr -> Permutation vl (vc ++ map cconj vc ++ vr) ->
  exists ec er, Forall2 (vnear e) vc ec /\ Forall2 (vnear e) vr er /\ Permutation l (full (ec ++ er)) /\ incl (ec ++ er) l.
Proof.
  intros Hc HF Hpos Hre HP. destruct (Permutation_Forall2 HP HF) as [m' [HM HF']].
  apply Forall2_app_inv_l in HF'. destruct HF' as (ec & m2 & F1 & F2 & ->). apply Forall2_app_inv_l in F2. destruct F2 as (en & er & F2 & F3 & ->).
  exists ec, er. split; [exact F1|]. split; [exact F3|].
  assert (Pc : Forall (fun r => 0 < cim r) ec).
  { clear - F1 Hpos. induction F1 as [|v c vc ec [_ [S _]] F1 IH]; [constructor|]. inversion Hpos; subst. constructor; [apply S; assumption|apply IH; assumption]. }
  assert (Pn : Forall (fun r => cim r < 0) en).
  { clear - F2 Hpos. revert en F2. induction Hpos as [|v vc P Hpos IH]; intros en F2; inversion F2 as [|? c ? en' [_ [_ S]] F2']; subst; constructor; [apply S; change (cim (cconj v)) with (- cim v); lra|apply IH; assumption]. }
  assert (Pr : Forall (fun r => cim r = 0) er).
  { clear - F3 Hre. induction F3 as [|v c vc ec [_ S] F3 IH]; [constructor|]. inversion Hre; subst. constructor; [apply (same_sign_zero _ _ S); assumption|apply IH; assumption]. }
  assert (FT : forall (f : C -> bool) (m : list C), Forall (fun r => f r = true) m -> filter f m = m) by (intros f m; induction 1 as [|r m Hr Hm IH]; [reflexivity|]; cbn [filter]; rewrite Hr, IH; reflexivity).
  assert (FF : forall (f : C -> bool) (m : list C), Forall (fun r => f r = false) m -> filter f m = []) by (intros f m; induction 1 as [|r m Hr Hm IH]; [reflexivity|]; cbn [filter]; rewrite Hr, IH; reflexivity).
  assert (Q : Permutation (map cconj ec) en).
  { pose proof (filter_perm (fun r => Rltb (cim r) 0) _ _ (Permutation_trans (Permutation_sym HM) (Permutation_trans (Permutation_sym Hc) (Permutation_map cconj HM)))) as W.
    rewrite !map_app, !filter_app in W.
    rewrite (FF _ ec) in W by (eapply Forall_impl; [|exact Pc]; intros r Hr; cbn beta; destruct (Rltb_spec (cim r) 0); [lra|reflexivity]).
    rewrite (FT _ en) in W by (eapply Forall_impl; [|exact Pn]; intros r Hr; cbn beta; destruct (Rltb_spec (cim r) 0); [reflexivity|lra]).
    rewrite (FF _ er) in W by (eapply Forall_impl; [|exact Pr]; intros r Hr; cbn beta; destruct (Rltb_spec (cim r) 0); [lra|reflexivity]).
    rewrite (FT _ (map cconj ec)) in W by (apply Forall_map; eapply Forall_impl; [|exact Pc]; intros r Hr; cbn beta; change (cim (cconj r)) with (- cim r); destruct (Rltb_spec (- cim r) 0); [reflexivity|lra]).
    rewrite (FF _ (map cconj en)) in W by (apply Forall_map; eapply Forall_impl; [|exact Pn]; intros r Hr; cbn beta; change (cim (cconj r)) with (- cim r); destruct (Rltb_spec (- cim r) 0); [lra|reflexivity]).
    rewrite (FF _ (map cconj er)) in W by (apply Forall_map; eapply Forall_impl; [|exact Pr]; intros r Hr; cbn beta; change (cim (cconj r)) with (- cim r); destruct (Rltb_spec (- cim r) 0); [lra|reflexivity]).
    rewrite !app_nil_r in W. cbn [app] in W. apply Permutation_sym. exact W. }
  split.
  - eapply Permutation_trans; [exact HM|]. rewrite full_app, (full_real er Pr). rewrite app_assoc. apply Permutation_app_tail. eapply Permutation_trans; [|apply Permutation_sym, full_pos, Pc]. apply Permutation_app_head, Permutation_sym, Q.
  - intros x Hx. apply (Permutation_in _ (Permutation_sym HM)). apply in_app_or in Hx. destruct Hx as [Hx|Hx]; [apply in_or_app; left; exact Hx|apply in_or_app; right; apply in_or_app; right; exact Hx].
Qed.

(** ** One section *)
Definition esec (ez ep : list C) : Sos R :=
  Sos_new (nth 0 (padded_coef 2 1 ez) 0) (nth 1 (padded_coef 2 1 ez) 0) (nth 2 (padded_coef 2 1 ez) 0)
          (nth 0 (padded_coef 2 1 ep) 0) (nth 1 (padded_coef 2 1 ep) 0) (nth 2 (padded_coef 2 1 ep) 0).
Definition gained {F} {NF : Num F} (k : F) (s : Sos F) : Sos F := mkSos (nmul (b0 s) k) (nmul (b1 s) k) (nmul (b2 s) k) (a0 s) (a1 s) (a2 s) (zi0 s) (zi1 s).
Lemma esec_head ep : nth 0 (padded_coef 2 1 ep) 0 = 1.
Proof. unfold padded_coef. cbn [Nat.add seq map nth]. rewrite pcoef_head. cbn. ring. Qed.
Lemma esec_section ez ep : conj_closed ez -> conj_closed ep -> length ez = 2%nat -> length ep = 2%nat ->
  fresh (esec ez ep) /\ forall x, rpoly_at [b0 (esec ez ep); b1 (esec ez ep); b2 (esec ez ep)] x = root_product ez x /\ rpoly_at [a0 (esec ez ep); a1 (esec ez ep); a2 (esec ez ep)] x = root_product ep x.
Proof.
  intros Hz Hp Lz Lp.
  assert (A0 : nth 0 (padded_coef 2 1 ep) 0 = 1).
  { apply esec_head. }
  split; [split; [exact A0|split; reflexivity]|]. intros x.
  pose proof (padded_eval 2 1 ez x Hz ltac:(lia)) as Ez. pose proof (padded_eval 2 1 ep x Hp ltac:(lia)) as Ep. rewrite Lz in Ez. rewrite Lp in Ep. cbn [Nat.sub cpow] in Ez, Ep.
  unfold esec, Sos_new. cbn [M_Filter.b0 M_Filter.b1 M_Filter.b2 M_Filter.a0 M_Filter.a1 M_Filter.a2].
  assert (D : forall l, padded_coef 2 1 l = [nth 0 (padded_coef 2 1 l) 0; nth 1 (padded_coef 2 1 l) 0; nth 2 (padded_coef 2 1 l) 0]) by reflexivity.
  rewrite <- !D, Ez, Ep. change (RtoC 1) with C1. split; ring.
Qed.

(** ** The leading coefficient of a polynomial made from roots is exactly one *)
Section Head.
Variables prec emax : Z.
Hypothesis Hpe : (1 < prec < emax)%Z.
Variable sz : bool.
Local Instance Hph : Prec_gt_0 prec.
Proof. unfold Prec_gt_0. lia. Qed.
Local Instance Heh : Prec_lt_emax prec emax.
Proof. unfold Prec_lt_emax. lia. Qed.
Notation fin := (finite prec emax).
Notation NFx := (SFNum prec emax sz).
Notation rnd := (round radix2 (FLT_exp (SpecFloat.emin prec emax) prec) ZnearestE).
Definition unit (z : cplx spec_float) : Prop := cfinite prec emax z /\ fval (fst z) = 1 /\ fval (snd z) = 0.
Lemma fin_one : fin (@none _ NFx) /\ fval (@none _ NFx) = 1.
Proof. exact (small_int prec emax 1 Hpe ltac:(cbn; lia)). Qed.
Lemma rnd_1 : rnd 1 = 1.
Proof. destruct fin_one as [F E]. rewrite <- E. apply format_val. exact F. Qed.
Lemma rnd_0 : rnd 0 = 0.
Proof. apply round_0. apply valid_rnd_N. Qed.
Lemma one_le_max : 1 <= fmax prec emax.
Proof. pose proof (small_fmax _ _ Hpe). lra. Qed.
Lemma unit_mul z : unit z -> unit (@cadd _ NFx (@czero _ NFx) (@cmul _ NFx z (@cone _ NFx))).
Proof.
  intros [[F1 F2] [E1 E2]]. destruct fin_one as [Fo Eo]. pose proof (zero_fin prec emax) as Fz. pose proof one_le_max as M.
  assert (Z : fval (S754_zero false) = 0) by reflexivity. pose proof Rabs_R0 as A0. pose proof Rabs_R1 as A1.
  destruct z as [x y]. cbn [fst snd] in *. unfold unit, cadd, cmul, czero, cone, cofre, cfinite, cre, cim. cbn [fst snd].
  change (@nadd _ NFx) with (SFadd prec emax). change (@nsub _ NFx) with (SFsub prec emax). change (@nmul _ NFx) with (SFmul prec emax). change (@nzero _ NFx) with (S754_zero false).
  set (o := @none _ NFx) in *.
  destruct (fmul_ok prec emax _ _ x o F1 Fo) as [G1 V1]; [rewrite E1, Eo, Rmult_1_l, A1; exact M|]. rewrite E1, Eo, Rmult_1_l, rnd_1 in V1.
  destruct (fmul_ok prec emax _ _ y (S754_zero false) F2 Fz) as [G2 V2]; [rewrite E2, Rmult_0_l, A0; lra|]. rewrite E2, Rmult_0_l, rnd_0 in V2.
  destruct (fmul_ok prec emax _ _ x (S754_zero false) F1 Fz) as [G3 V3]; [rewrite Z, Rmult_0_r, A0; lra|]. rewrite Z, Rmult_0_r, rnd_0 in V3.
  destruct (fmul_ok prec emax _ _ y o F2 Fo) as [G4 V4]; [rewrite E2, Rmult_0_l, A0; lra|]. rewrite E2, Rmult_0_l, rnd_0 in V4.
  destruct (fsub_ok prec emax _ _ _ _ G1 G2) as [G5 V5]; [rewrite V1, V2, Rminus_0_r, A1; exact M|]. rewrite V1, V2, Rminus_0_r, rnd_1 in V5.
  destruct (fadd_ok prec emax _ _ _ _ G3 G4) as [G6 V6]; [rewrite V3, V4, Rplus_0_l, A0; lra|]. rewrite V3, V4, Rplus_0_l, rnd_0 in V6.
  destruct (fadd_ok prec emax _ _ _ _ Fz G5) as [G7 V7]; [rewrite Z, V5, Rplus_0_l, A1; exact M|]. rewrite Z, V5, Rplus_0_l, rnd_1 in V7.
  destruct (fadd_ok prec emax _ _ _ _ Fz G6) as [G8 V8]; [rewrite Z, V6, Rplus_0_l, A0; lra|]. rewrite Z, V6, Rplus_0_l, rnd_0 in V8.
  exact (conj (conj G7 G8) (conj V7 V8)).
Qed.
Lemma poly_head z : forall a, (0 < length a)%nat -> unit (hd (@czero _ NFx) a) -> unit (hd (@czero _ NFx) (fold_left (@gpstep _ NFx) z a)).
Proof.
  induction z as [|r z IH]; intros a La Ua; [exact Ua|]. cbn [fold_left]. apply IH; [rewrite gpstep_length; lia|].
  destruct a as [|c a]; [cbn in La; lia|]. cbn [hd] in Ua. unfold gpstep. rewrite Nat.add_1_r. cbn [seq map hd gcoef nth]. apply unit_mul. exact Ua.
Qed.
Lemma section_head sort z p k s : @single_zpksos_dyn _ NFx sort z p k = Ok s -> fval (a0 s) = 1.
Proof.
  unfold single_zpksos_dyn, zpk2tf_dyn. destruct (@poly_dyn _ NFx sort z) as [pz| | |]; try discriminate. cbn [bind].
  unfold poly_dyn. rewrite (@gpoly_fold _ NFx) by (cbn; lia). cbn [bind].
  pose proof (poly_head p [@cone _ NFx] ltac:(cbn; lia)) as U. cbn [hd] in U. destruct fin_one as [Fo Eo].
  assert (U' := U (conj (conj Fo (zero_fin prec emax)) (conj Eo eq_refl))). clear U.
  set (A := fold_left _ p [@cone _ NFx]) in *. pose proof (@fold_gpstep_length _ NFx p [@cone _ NFx]) as LA. fold A in LA. destruct A as [|c A]; [cbn in LA; lia|]. clear LA. cbn [hd] in U'.
  destruct U' as [_ [U' _]].
  match goal with |- context [if ?b then Ok ?x else Ok ?y] => set (av := if b then Ok x else Ok y) end.
  assert (EA : exists A', av = Ok A' /\ exists d A2, A' = d :: A2 /\ fst d = fst c).
  { unfold av. destruct (all_eq _ _); eexists; (split; [reflexivity|]); cbn [map]; eexists; eexists; (split; [reflexivity|]); reflexivity. }
  destruct EA as [A' [-> [d [A2 [-> Ed]]]]]. cbn [bind ba_b ba_a].
  assert (EP : exists d' A3, @poly2ba _ NFx sort (d :: A2) p = d' :: A3 /\ fst d' = fst d).
  { unfold poly2ba. destruct (Nat.eqb _ _); [destruct (all_eq _ _)|]; cbn [map]; eexists; eexists; (split; [reflexivity|]); reflexivity. }
  destruct EP as [d' [A3 [-> Ed']]]. change (2 + 1)%nat with 3%nat. cbn [repeat copy_re].
  match goal with |- context [match ?m with [] => _ | _ => _ end] => set (bb := m) end. destruct bb as [|x0 [|x1 [|x2 [|? ?]]]]; try discriminate.
  destruct A3 as [|d2 [|d3 A3]]; cbn [copy_re]; intros Q; injection Q as <-; unfold Sos_new; cbn [M_Filter.a0];
    unfold cre; rewrite Ed', Ed; exact U'.
Qed.
(** A root at zero makes the last coefficient zero, exactly. *)
Lemma zmul x y : fin x -> fin y -> fval x = 0 \/ fval y = 0 -> fin (SFmul prec emax x y) /\ fval (SFmul prec emax x y) = 0.
Proof.
  intros Fx Fy H. assert (E : fval x * fval y = 0) by (destruct H as [-> | ->]; ring). pose proof one_le_max as M.
  destruct (fmul_ok prec emax _ _ x y Fx Fy) as [G W]; [rewrite E, Rabs_R0; lra|]. rewrite E, rnd_0 in W. split; assumption.
Qed.
Definition czer (z : cplx spec_float) : Prop := cfinite prec emax z /\ cval z = C0.
Lemma czer_mul w v : cfinite prec emax w -> cfinite prec emax v -> cval w = C0 \/ cval v = C0 -> czer (@cmul _ NFx w v).
Proof.
  intros [F1 F2] [G1 G2] H. pose proof one_le_max as M.
  assert (Q : (fval (fst w) = 0 /\ fval (snd w) = 0) \/ (fval (fst v) = 0 /\ fval (snd v) = 0)).
  { destruct H as [H|H]; [left|right]; exact (conj (f_equal fst H) (f_equal snd H)). }
  destruct w as [x y], v as [p q]. cbn [fst snd] in *. unfold czer, cmul, cfinite, cval, cre, cim. cbn [fst snd].
  change (@nadd _ NFx) with (SFadd prec emax). change (@nsub _ NFx) with (SFsub prec emax). change (@nmul _ NFx) with (SFmul prec emax).
  destruct (zmul x p F1 G1) as [A1 B1]; [tauto|]. destruct (zmul y q F2 G2) as [A2 B2]; [tauto|]. destruct (zmul x q F1 G2) as [A3 B3]; [tauto|]. destruct (zmul y p F2 G1) as [A4 B4]; [tauto|].
  destruct (fsub_ok prec emax _ _ _ _ A1 A2) as [A5 B5]; [rewrite B1, B2, Rminus_0_r, Rabs_R0; lra|]. rewrite B1, B2, Rminus_0_r, rnd_0 in B5.
  destruct (fadd_ok prec emax _ _ _ _ A3 A4) as [A6 B6]; [rewrite B3, B4, Rplus_0_r, Rabs_R0; lra|]. rewrite B3, B4, Rplus_0_r, rnd_0 in B6.
  split; [split; assumption|]. rewrite B5, B6. reflexivity.
Qed.
Lemma czer_add v : czer v -> czer (@cadd _ NFx (@czero _ NFx) v).
Proof.
  intros [[F1 F2] H]. pose proof (f_equal fst H) as H1. pose proof (f_equal snd H) as H2. pose proof one_le_max as M. pose proof (zero_fin prec emax) as Fz.
  assert (Z : fval (S754_zero false) = 0) by reflexivity. destruct v as [p q]. cbn [fst snd cval C0] in *. unfold czer, cadd, czero, cofre, cfinite, cval, cre, cim in *. cbn [fst snd] in *.
  change (@nadd _ NFx) with (SFadd prec emax). change (@nzero _ NFx) with (S754_zero false).
  destruct (fadd_ok prec emax _ _ _ _ Fz F1) as [A1 B1]; [rewrite Z, H1, Rplus_0_r, Rabs_R0; lra|]. rewrite Z, H1, Rplus_0_r, rnd_0 in B1.
  destruct (fadd_ok prec emax _ _ _ _ Fz F2) as [A2 B2]; [rewrite Z, H2, Rplus_0_r, Rabs_R0; lra|]. rewrite Z, H2, Rplus_0_r, rnd_0 in B2.
  split; [split; assumption|]. rewrite B1, B2. reflexivity.
Qed.
Lemma cneg_fin z : cfinite prec emax z -> cfinite prec emax (@cneg _ NFx z).
Proof. intros [A B]. split; apply fin_opp; assumption. Qed.
Lemma czer_neg z : czer z -> czer (@cneg _ NFx z).
Proof.
  intros [F H]. split; [apply cneg_fin; exact F|]. pose proof (f_equal fst H) as H1. pose proof (f_equal snd H) as H2. destruct z as [x y]. unfold cval in *. cbn [fst snd C0 cneg cre cim] in *.
  change (@nneg _ NFx) with SFopp. rewrite !val_opp. unfold cre, cim in *. cbn [fst snd] in *. rewrite H1, H2. apply C_ext; cbn; ring.
Qed.
Lemma one_mul_fin v : cfinite prec emax v -> cfinite prec emax (@cadd _ NFx (@czero _ NFx) (@cmul _ NFx (@cone _ NFx) v)).
Proof.
  intros [F1 F2]. destruct fin_one as [Fo Eo]. pose proof (zero_fin prec emax) as Fz. pose proof one_le_max as M. assert (Z : fval (S754_zero false) = 0) by reflexivity.
  destruct v as [p q]. cbn [fst snd] in *. unfold cadd, cmul, czero, cone, cofre, cfinite, cre, cim. cbn [fst snd].
  change (@nadd _ NFx) with (SFadd prec emax). change (@nsub _ NFx) with (SFsub prec emax). change (@nmul _ NFx) with (SFmul prec emax). change (@nzero _ NFx) with (S754_zero false). set (o := @none _ NFx) in *.
  assert (MX : forall x, fin x -> Rabs (fval x) <= fmax prec emax) by (intros x Fx; destruct (finite_B prec emax x Fx) as [b [_ [_ ->]]]; rewrite fmax_eq; apply abs_B2R_le_emax_minus_prec; typeclasses eauto).
  assert (O : forall x, fin x -> fin (SFmul prec emax o x) /\ fval (SFmul prec emax o x) = fval x).
  { intros x Fx. destruct (fmul_ok prec emax _ _ o x Fo Fx) as [G W]; [rewrite Eo, Rmult_1_l; apply MX; exact Fx|]. rewrite Eo, Rmult_1_l, (format_val prec emax x Fx) in W. split; assumption. }
  destruct (O p F1) as [A1 B1]. destruct (O q F2) as [A2 B2]. destruct (zmul (S754_zero false) q Fz F2 (or_introl Z)) as [A3 B3]. destruct (zmul (S754_zero false) p Fz F1 (or_introl Z)) as [A4 B4].
  destruct (fsub_ok prec emax _ _ _ _ A1 A3) as [A5 B5]; [rewrite B1, B3, Rminus_0_r; apply MX; exact F1|]. rewrite B1, B3, Rminus_0_r, (format_val prec emax p F1) in B5.
  destruct (fadd_ok prec emax _ _ _ _ A2 A4) as [A6 B6]; [rewrite B2, B4, Rplus_0_r; apply MX; exact F2|]. rewrite B2, B4, Rplus_0_r, (format_val prec emax q F2) in B6.
  split; [apply (fadd_ok prec emax); try assumption; try typeclasses eauto; rewrite Z, B5, Rplus_0_l; apply MX; exact F1|apply (fadd_ok prec emax); try assumption; try typeclasses eauto; rewrite Z, B6, Rplus_0_l; apply MX; exact F2].
Qed.
Lemma poly_tail a b : cfinite prec emax a -> cfinite prec emax b -> cval a = C0 \/ cval b = C0 ->
  exists c0 c1 c2, fold_left (@gpstep _ NFx) [a; b] [@cone _ NFx] = [c0; c1; c2] /\ czer c2.
Proof.
  intros Fa Fb H. cbn [fold_left gpstep map seq length Nat.add gcoef nth Nat.ltb Nat.leb]. eexists. eexists. eexists. split; [reflexivity|]. apply czer_add.
  assert (F1 : cfinite prec emax (@cadd _ NFx (@czero _ NFx) (@cmul _ NFx (@cone _ NFx) (@cneg _ NFx a)))) by (apply one_mul_fin, cneg_fin; exact Fa).
  apply czer_mul; [exact F1|apply cneg_fin; exact Fb|]. destruct H as [H|H]; [left|right; apply czer_neg; split; assumption].
  apply czer_add. apply czer_mul; [split; [apply fin_one|apply zero_fin]|apply cneg_fin; exact Fa|]. right. apply czer_neg. split; assumption.
Qed.
Lemma poly2ba_re sort x y k : fval (fst (nth k (@poly2ba _ NFx sort x y) (@czero _ NFx))) = fval (fst (nth k x (@czero _ NFx))).
Proof.
  unfold poly2ba. destruct (Nat.eqb _ _); [destruct (all_eq _ _)|]; try reflexivity. change (@czero _ NFx) with (@cofre _ NFx (cre (@czero _ NFx))) at 1. rewrite (map_nth (fun xi => @cofre _ NFx (cre xi))). reflexivity.
Qed.
Lemma poly2ba_len sort x y : length (@poly2ba _ NFx sort x y) = length x.
Proof. unfold poly2ba. destruct (Nat.eqb _ _); [destruct (all_eq _ _)|]; try reflexivity. apply map_length. Qed.
Lemma copy3 (l : list (cplx spec_float)) : length l = 3%nat -> copy_re (repeat (@nzero _ NFx) 3) l = [fst (nth 0 l (@czero _ NFx)); fst (nth 1 l (@czero _ NFx)); fst (nth 2 l (@czero _ NFx))].
Proof. destruct l as [|x [|y [|z [|w l]]]]; try discriminate. reflexivity. Qed.
Lemma poly_dyn_tail sort z : length z = 2%nat -> Forall (cfinite prec emax) z -> exists A, @poly_dyn _ NFx sort z = Ok A /\ length A = 3%nat /\ (In C0 (map cval z) -> czer (nth 2 A (@czero _ NFx))).
Proof.
  intros Lz Fz. unfold poly_dyn. rewrite (@gpoly_fold _ NFx) by (cbn; lia). cbn [bind]. set (A := fold_left _ z [@cone _ NFx]).
  assert (LA : length A = 3%nat) by (unfold A; rewrite (@fold_gpstep_length _ NFx), Lz; reflexivity).
  assert (ZT : In C0 (map cval z) -> czer (nth 2 A (@czero _ NFx))).
  { unfold A. destruct z as [|a [|b [|c l]]]; try discriminate Lz. intros Hin. destruct (poly_tail a b (Forall_inv Fz) (Forall_inv (Forall_inv_tail Fz))) as (c0 & c1 & c2 & E & Hc).
    - destruct Hin as [H|[H|[]]]; [left|right]; exact H.
    - rewrite E. exact Hc. }
  destruct (all_eq _ _); eexists; (split; [reflexivity|]); [|split; [exact LA|exact ZT]]. rewrite map_length. split; [exact LA|]. intros Hin. specialize (ZT Hin). clear - ZT LA.
  destruct A as [|x [|y [|w [|? ?]]]]; try discriminate LA. cbn [map nth] in *. destruct ZT as [[F1 F2] E]. split; [split; [exact F1|apply zero_fin]|]. pose proof (f_equal fst E) as E1. apply C_ext; [exact E1|reflexivity].
Qed.
Lemma section_tail sort z p s : length z = 2%nat -> length p = 2%nat -> Forall (cfinite prec emax) z -> Forall (cfinite prec emax) p -> @single_zpksos_dyn _ NFx sort z p (@none _ NFx) = Ok s ->
  (In C0 (map cval z) -> fval (b2 s) = 0) /\ (In C0 (map cval p) -> fval (a2 s) = 0).
Proof.
  intros Lz Lp Fz Fp. unfold single_zpksos_dyn, zpk2tf_dyn. destruct (poly_dyn_tail sort z Lz Fz) as (A & -> & LA & ZA). destruct (poly_dyn_tail sort p Lp Fp) as (B & -> & LB & ZB). cbn [bind].
  cbn [ba_b ba_a]. change (2 + 1)%nat with 3%nat.
  rewrite (copy3 (@poly2ba _ NFx sort B p)) by (rewrite poly2ba_len; exact LB). rewrite copy3 by (rewrite poly2ba_len, map_length; exact LA).
  intros Q. injection Q as <-. unfold Sos_new. cbn [M_Filter.b2 M_Filter.a2]. rewrite !poly2ba_re.
  split; intros Hin.
  - specialize (ZA Hin). destruct A as [|x [|y [|w [|? ?]]]]; try discriminate LA. cbn [map nth] in *.
    destruct (czer_mul (@cofre _ NFx (@none _ NFx)) w) as [_ W]; [split; [apply fin_one|apply zero_fin]|apply ZA|right; apply ZA|]. exact (f_equal fst W).
  - exact (f_equal fst (proj2 (ZB Hin))).
Qed.
End Head.

Section Fam.
Variable I : Type.
Variables pr em : I -> Z.
Variable V : I -> Prop.
Variable sz : I -> bool.
Notation napp := (napp I pr em V).
Notation lnapp := (lnapp I pr em V sz).
Notation NF i := (SFNum (pr i) (em i) (sz i)).
Notation fmt_ok := (fmt_ok I pr em V).
Notation ev := (ev I pr em V).

Definition znear (i : I) (e : R) (z : cplx spec_float) (c : C) : Prop := cfinite (pr i) (em i) z /\ cwithin e (cval z) c.
Definition rnear (i : I) (e : R) (x : spec_float) (c : R) : Prop := finite (pr i) (em i) x /\ Rabs (fval x - c) <= e.

Lemma section_near K0 k ez ep : 1 <= K0 -> length ez = 2%nat -> length ep = 2%nat ->
  exists K, 1 <= K /\ forall i, fmt_ok K i -> forall zf pf kf sort, is_sort sort -> Forall2 (znear i (K0 * uround (pr i))) zf ez -> Forall2 (znear i (K0 * uround (pr i))) pf ep -> rnear i (K0 * uround (pr i)) kf k ->
    exists s, @single_zpksos_dyn _ (NF i) sort zf pf (@none _ (NF i)) = Ok s /\ sos_within (pr i) (em i) (K * uround (pr i)) s (esec ez ep) /\
      sos_within (pr i) (em i) (K * uround (pr i)) (@gained _ (NF i) kf s) (gained k (esec ez ep)).
Proof.
  intros HK0 Lz Lp.
  set (J := (I * (list (cplx spec_float) * list (cplx spec_float)))%type).
  set (prj := fun j : J => pr (fst j)). set (emj := fun j : J => em (fst j)). set (szj := fun j : J => sz (fst j)).
  set (W := fun j : J => V (fst j) /\ Forall2 (znear (fst j) (K0 * uround (pr (fst j)))) (fst (snd j)) ez /\ Forall2 (znear (fst j) (K0 * uround (pr (fst j)))) (snd (snd j)) ep).
  set (g := mkZpk ez ep 1). set (gf := fun j : J => mkZpk (fst (snd j)) (snd (snd j)) (SpecFloat.binary_normalize (prj j) (emj j) 1 0 false)).
  assert (LN : forall (pick : J -> list (cplx spec_float)) l, (forall j, W j -> Forall2 (znear (fst j) (K0 * uround (pr (fst j)))) (pick j) l) -> P_FloatPoly.lnapp J prj emj W szj l pick).
  { intros pick l H. split; [intros j Wj; exact (Forall2_len' _ _ _ (H j Wj))|]. intros q Hq. split; exists K0; (split; [exact HK0|]); intros j (Wj & Hpe & _);
      pose proof (Forall2_nth_elim _ (@czero _ (SFNum (prj j) (emj j) (szj j))) C0 _ _ (H j Wj) q ltac:(rewrite (Forall2_len' _ _ _ (H j Wj)); exact Hq)) as [[F1 F2] [E1 E2]]; split; assumption. }
  assert (ZN : znapp J prj emj W szj g gf).
  { split; [apply (LN (fun j => fst (snd j)) ez); intros j Wj; apply Wj|]. split; [apply (LN (fun j => snd (snd j)) ep); intros j Wj; apply Wj|]. apply (napp_one J prj emj W). }
  destruct (stage_tf J prj emj W szj g gf ZN 2) as [K1 [HK1 H1]].
  (* the gain *)
  assert (G : forall b, exists K, 1 <= K /\ forall i, fmt_ok K i -> forall bf kf, rnear i (K1 * uround (pr i)) bf b -> rnear i (K0 * uround (pr i)) kf k -> rnear i (K * uround (pr i)) (SFmul (pr i) (em i) bf kf) (b * k)).
  { intros b. set (J2 := (I * (spec_float * spec_float))%type). set (W2 := fun j : J2 => V (fst j) /\ rnear (fst j) (K1 * uround (pr (fst j))) (fst (snd j)) b /\ rnear (fst j) (K0 * uround (pr (fst j))) (snd (snd j)) k).
    assert (N1 : P_FloatZi.napp J2 (fun j => pr (fst j)) (fun j => em (fst j)) W2 b (fun j => fst (snd j))) by (exists K1; split; [exact HK1|]; intros j (Wj & _); apply Wj).
    assert (N2 : P_FloatZi.napp J2 (fun j => pr (fst j)) (fun j => em (fst j)) W2 k (fun j => snd (snd j))) by (exists K0; split; [exact HK0|]; intros j (Wj & _); apply Wj).
    destruct (napp_mul _ _ _ _ _ _ _ _ N1 N2) as [K [HK H]]. exists K. split; [exact HK|]. intros i (Vi & Hpe & HU) bf kf Rb Rk. apply (H (i, (bf, kf))). split; [split; [exact Vi|split; assumption]|]. split; assumption. }
  destruct (G (nth 0 (padded_coef 2 1 ez) 0)) as [L0 [HL0 G0]]. destruct (G (nth 1 (padded_coef 2 1 ez) 0)) as [L1 [HL1 G1]]. destruct (G (nth 2 (padded_coef 2 1 ez) 0)) as [L2 [HL2 G2]].
  set (K := K1 + L0 + L1 + L2). exists K. split; [unfold K; lra|]. intros i Hi zf pf kf sort Hs Nz Np Nk.
  pose proof Hi as (Vi & Hpe & HU). destruct (u_half (pr i) (proj1 Hpe)) as [U0 _].
  destruct (H1 (i, (zf, pf))) with (sort := sort) as (bf & af & b & a & E1 & E2 & Fb & Fa & Nb & Na); [|exact Hs|].
  { split; [split; [exact Vi|split; assumption]|]. split; [exact Hpe|]. eapply Rle_trans; [|exact HU]. apply Rmult_le_compat_r; [apply Rlt_le, U0|unfold K; lra]. }
  unfold gf, g, prj, emj, szj in *. cbn [zk_z zk_p zk_k fst snd] in *.
  rewrite (zpk2tf_ok sort Hs) in E2. injection E2 as <- <-.
  assert (LC : forall c l, length (padded_coef 2 c l) = 3%nat) by reflexivity.
  pose proof (Forall2_len' _ _ _ Nb) as Lb. pose proof (Forall2_len' _ _ _ Na) as La. rewrite LC in Lb, La.
  destruct bf as [|x0 [|x1 [|x2 [|? ?]]]]; try discriminate Lb. destruct af as [|y0 [|y1 [|y2 [|? ?]]]]; try discriminate La.
  pose proof (section_head (pr i) (em i) Hpe (sz i) sort zf pf (SpecFloat.binary_normalize (pr i) (em i) 1 0 false)) as HEAD.
  exists (@Sos_new _ (NF i) x0 x1 x2 y0 y1 y2). split; [unfold single_zpksos_dyn; change (@none _ (NF i)) with (SpecFloat.binary_normalize (pr i) (em i) 1 0 false); rewrite E1; reflexivity|].
  assert (UP : forall x y K', K' <= K -> Rabs (x - y) <= K' * uround (pr i) -> Rabs (x - y) <= K * uround (pr i)).
  { intros x y K' HK' B. eapply Rle_trans; [exact B|]. apply Rmult_le_compat_r; lra. }
  pose proof (Forall2_nth_elim _ (S754_zero false) 0 _ _ Nb) as Qb. pose proof (Forall2_nth_elim _ (S754_zero false) 0 _ _ Na) as Qa. cbn [length] in Qb, Qa.
  pose proof (Qb 0%nat ltac:(lia)) as B0. pose proof (Qb 1%nat ltac:(lia)) as B1. pose proof (Qb 2%nat ltac:(lia)) as B2. pose proof (Qa 0%nat ltac:(lia)) as A0. pose proof (Qa 1%nat ltac:(lia)) as A1. pose proof (Qa 2%nat ltac:(lia)) as A2.
  cbn beta in B0, B1, B2, A0, A1, A2. clear Qb Qa. change (nth 0 [x0; x1; x2] (S754_zero false)) with x0 in B0. change (nth 1 [x0; x1; x2] (S754_zero false)) with x1 in B1. change (nth 2 [x0; x1; x2] (S754_zero false)) with x2 in B2.
  change (nth 0 [y0; y1; y2] (S754_zero false)) with y0 in A0. change (nth 1 [y0; y1; y2] (S754_zero false)) with y1 in A1. change (nth 2 [y0; y1; y2] (S754_zero false)) with y2 in A2.
  pose proof (Forall_inv Fb) as F0. pose proof (Forall_inv (Forall_inv_tail Fb)) as F1. pose proof (Forall_inv (Forall_inv_tail (Forall_inv_tail Fb))) as F2.
  assert (UM : forall K', K' <= K -> fmt_ok K' i) by (intros K' HK'; exact (fmt_mono I pr em V _ K' i Hi HK')).
  destruct (G0 i (UM L0 ltac:(unfold K; lra)) x0 kf (conj F0 B0) Nk) as [P0 Q0]. destruct (G1 i (UM L1 ltac:(unfold K; lra)) x1 kf (conj F1 B1) Nk) as [P1 Q1]. destruct (G2 i (UM L2 ltac:(unfold K; lra)) x2 kf (conj F2 B2) Nk) as [P2 Q2].
  assert (LK1 : K1 <= K) by (unfold K; lra). assert (LL0 : L0 <= K) by (unfold K; lra). assert (LL1 : L1 <= K) by (unfold K; lra). assert (LL2 : L2 <= K) by (unfold K; lra).
  unfold esec, gained, Sos_new, sos_within, coefs. cbn [M_Filter.b0 M_Filter.b1 M_Filter.b2 M_Filter.a0 M_Filter.a1 M_Filter.a2 zi0 zi1].
  assert (H0 : fval y0 = nth 0 (padded_coef 2 1 ep) 0).
  { rewrite (esec_head ep). unfold single_zpksos_dyn in HEAD. rewrite E1 in HEAD. exact (HEAD _ eq_refl). }
  split; (split; [|split; [|split; [exact H0|split; reflexivity]]]).
  - constructor; [exact F0|]. constructor; [exact F1|]. constructor; [exact F2|]. exact Fa.
  - constructor; [exact (UP _ _ K1 LK1 B0)|]. constructor; [exact (UP _ _ K1 LK1 B1)|]. constructor; [exact (UP _ _ K1 LK1 B2)|]. constructor; [exact (UP _ _ K1 LK1 A0)|]. constructor; [exact (UP _ _ K1 LK1 A1)|]. constructor; [exact (UP _ _ K1 LK1 A2)|]. constructor.
  - constructor; [exact P0|]. constructor; [exact P1|]. constructor; [exact P2|]. exact Fa.
  - constructor; [exact (UP _ _ L0 LL0 Q0)|]. constructor; [exact (UP _ _ L1 LL1 Q1)|]. constructor; [exact (UP _ _ L2 LL2 Q2)|]. constructor; [exact (UP _ _ K1 LK1 A0)|]. constructor; [exact (UP _ _ K1 LK1 A1)|]. constructor; [exact (UP _ _ K1 LK1 A2)|]. constructor.
Qed.

Lemma sos_within_mono prec emax e e' s t : e <= e' -> sos_within prec emax e s t -> sos_within prec emax e' s t.
Proof.
  intros Le (A & B & D & D' & D''). split; [exact A|]. split; [|split; [exact D|split; assumption]]. clear - Le B. induction B as [|x y l m H HF IH]; constructor; [lra|exact IH].
Qed.
(** The pairs of roots a section can have. *)
Definition cands (L : list C) : list (list C) := flat_map (fun a => [a; cconj a] :: map (fun b => [a; b]) L) L.
Lemma cands_length L e : In e (cands L) -> length e = 2%nat.
Proof. intros H. apply in_flat_map in H. destruct H as [a [_ [<-|H]]]; [reflexivity|]. apply in_map_iff in H. destruct H as [b [<- _]]. reflexivity. Qed.
Lemma sections_near K0 k (cd : list (list C * list C)) : 1 <= K0 -> Forall (fun q => length (fst q) = 2%nat /\ length (snd q) = 2%nat) cd ->
  exists K, 1 <= K /\ forall i, fmt_ok K i -> forall ez ep, In (ez, ep) cd -> forall zf pf kf sort, is_sort sort -> Forall2 (znear i (K0 * uround (pr i))) zf ez -> Forall2 (znear i (K0 * uround (pr i))) pf ep -> rnear i (K0 * uround (pr i)) kf k ->
    exists s, @single_zpksos_dyn _ (NF i) sort zf pf (@none _ (NF i)) = Ok s /\ sos_within (pr i) (em i) (K * uround (pr i)) s (esec ez ep) /\
      sos_within (pr i) (em i) (K * uround (pr i)) (@gained _ (NF i) kf s) (gained k (esec ez ep)).
Proof.
  intros HK0 HL. induction HL as [|[z p] cd [Lz Lp] HL [K [HK IH]]].
  - exists 1. split; [lra|]. intros i _ ez ep [].
  - destruct (section_near K0 k z p HK0 Lz Lp) as [K' [HK' H']]. exists (K + K'). split; [lra|]. intros i Hi ez ep Hin zf pf kf sort Hs Nz Np Nk.
    pose proof (fmt_mono I pr em V _ K i Hi ltac:(lra)) as Hi1. pose proof (fmt_mono I pr em V _ K' i Hi ltac:(lra)) as Hi2. destruct Hi as (_ & Hpe & _). destruct (u_half (pr i) (proj1 Hpe)) as [U0 _].
    assert (L1 : K * uround (pr i) <= (K + K') * uround (pr i)) by (apply Rmult_le_compat_r; lra). assert (L2 : K' * uround (pr i) <= (K + K') * uround (pr i)) by (apply Rmult_le_compat_r; lra).
    destruct Hin as [Q|Hin].
    + injection Q as <- <-. destruct (H' i Hi2 zf pf kf sort Hs Nz Np Nk) as (s & E1 & E2 & E3). exists s. split; [exact E1|]. split; [exact (sos_within_mono _ _ _ _ _ _ L2 E2)|exact (sos_within_mono _ _ _ _ _ _ L2 E3)].
    + destruct (IH i Hi1 ez ep Hin zf pf kf sort Hs Nz Np Nk) as (s & E1 & E2 & E3). exists s. split; [exact E1|]. split; [exact (sos_within_mono _ _ _ _ _ _ L1 E2)|exact (sos_within_mono _ _ _ _ _ _ L1 E3)].
Qed.
Lemma lnapp_near l lf : lnapp l lf -> exists K, 1 <= K /\ forall i, fmt_ok K i -> Forall2 (znear i (K * uround (pr i))) (lf i) l.
Proof.
  intros [L H].
  destruct (napp_uniform I pr em V (length l) (fun k => fst (nth k l C0)) (fun k i => fst (nth k (lf i) (@czero _ (NF i)))) (fun k Hk => proj1 (H k Hk))) as [K1 [HK1 H1]].
  destruct (napp_uniform I pr em V (length l) (fun k => snd (nth k l C0)) (fun k i => snd (nth k (lf i) (@czero _ (NF i)))) (fun k Hk => proj2 (H k Hk))) as [K2 [HK2 H2]].
  exists (K1 + K2). split; [lra|]. intros i Hi. specialize (H1 i (fmt_mono I pr em V _ K1 i Hi ltac:(lra))). specialize (H2 i (fmt_mono I pr em V _ K2 i Hi ltac:(lra))). destruct Hi as (Vi & Hpe & _). destruct (u_half (pr i) (proj1 Hpe)) as [U0 _].
  assert (L1 : K1 * uround (pr i) <= (K1 + K2) * uround (pr i)) by (apply Rmult_le_compat_r; lra). assert (L2 : K2 * uround (pr i) <= (K1 + K2) * uround (pr i)) by (apply Rmult_le_compat_r; lra).
  apply (Forall2_nth_intro _ (@czero _ (NF i)) C0); [apply L; exact Vi|]. rewrite (L i Vi). intros k Hk. destruct (H1 k Hk) as [F1 E1]. destruct (H2 k Hk) as [F2 E2].
  split; [split; assumption|]. split; [exact (Rle_trans _ _ _ E1 L1)|exact (Rle_trans _ _ _ E2 L2)].
Qed.
End Fam.

(** ** Products of sections *)
Lemma conj_closed_app l m : conj_closed l -> conj_closed m -> conj_closed (l ++ m).
Proof. unfold conj_closed. intros A B. rewrite map_app. apply Permutation_app; assumption. Qed.
Lemma conj_closed_full l : conj_closed (full l).
Proof.
  induction l as [|r l IH]; [apply Permutation_refl|]. rewrite full_cons. apply conj_closed_app; [|exact IH]. destruct (isr r) eqn:E; [|apply conj_closed_pair].
  apply conj_closed_reals. constructor; [exact E|constructor].
Qed.
Lemma cascade_roots ezs : forall eps, length ezs = length eps -> Forall (fun e => length (full e) = 2%nat) ezs -> Forall (fun e => length (full e) = 2%nat) eps ->
  let se := map (fun q => esec (full (fst q)) (full (snd q))) (combine ezs eps) in
  Forall fresh se /\ forall x, sos_num se x = root_product (full (concat ezs)) x /\ sos_den se x = root_product (full (concat eps)) x.
Proof.
  induction ezs as [|ez ezs IH]; intros [|ep eps] L Hz Hp; try discriminate; cbv zeta.
  - split; [constructor|]. intros x. split; reflexivity.
  - pose proof (Forall_inv Hz) as Z1. pose proof (Forall_inv Hp) as P1. cbn beta in Z1, P1.
    destruct (IH eps ltac:(cbn in L; lia) (Forall_inv_tail Hz) (Forall_inv_tail Hp)) as [F Q]. cbv zeta in F, Q. cbn [combine map fst snd concat].
    destruct (esec_section (full ez) (full ep) (conj_closed_full _) (conj_closed_full _) Z1 P1) as [Fr S].
    split; [constructor; assumption|]. intros x. destruct (S x) as [S1 S2]. destruct (Q x) as [Q1 Q2]. rewrite sos_num_cons, sos_den_cons, S1, S2, Q1, Q2, !full_app, !rp_app. split; reflexivity.
Qed.
Lemma list_sort_is_sort sort : is_list_sort sort -> is_sort sort.
Proof. intros H A le l. destruct (H A le l) as [P S]. split; [exact P|]. intros T1 T2. apply S; intros; [apply T1|eapply T2; eassumption]. Qed.

(** ** The whole function *)
Section Whole.
Variable I : Type.
Variables pr em : I -> Z.
Variable V : I -> Prop.
Variable sz : I -> bool.
Notation napp := (napp I pr em V).
Notation lnapp := (lnapp I pr em V sz).
Notation lmate := (lmate I pr em V sz).
Notation NF i := (SFNum (pr i) (em i) (sz i)).
Notation fmt_ok := (fmt_ok I pr em V).
Notation ev := (ev I pr em V).
Variable E : R.
Hypothesis HE : 0 <= E.
Variable T : I -> Trans spec_float.
Hypothesis HT : forall i, V i -> (1 < pr i < em i)%Z -> accurate_trans (pr i) (em i) E (T i).
Hypothesis HS : forall i, V i -> (1 < pr i < em i)%Z -> symmetric_trans (pr i) (em i) (T i).
Let tol (i : I) : spec_float := @nmul _ (NF i) (machine_eps (pr i)) (@nofZ _ (NF i) 100).
Lemma tol_small : napp 0 tol /\ ev (fun i => 0 <= fval (tol i)).
Proof.
  assert (N : napp 0 (fun i => machine_eps (pr i))).
  { exists 2. split; [lra|]. intros i (_ & Hpe & _). destruct (machine_eps_ok (pr i) (em i) Hpe) as [F W]. split; [exact F|]. rewrite W, Rminus_0_r, Rabs_right; [lra|]. destruct (u_half (pr i) (proj1 Hpe)). lra. }
  assert (N2 : napp 0 tol) by (replace 0 with (0 * IZR 100) by ring; apply napp_mul; [exact N|apply napp_intZ]). split; [exact N2|].
  eapply ev_impl; [|exact (ev_and _ _ _ _ _ _ (napp_ev _ _ _ _ _ _ N2) (ev_intZ I pr em V sz 100))]. cbn beta. intros i _ Hpe [F [F1 W1]]. destruct (machine_eps_ok (pr i) (em i) Hpe) as [F2 W2].
  apply (fmul_nn (pr i) (em i) Hpe); try assumption. rewrite W1, W2. destruct (u_half (pr i) (proj1 Hpe)). apply Rmult_le_pos; lra.
Qed.

(** What a splitting of the float list gives. *)
Definition rel (i : I) (e : R) (z : cplx spec_float) (c : C) : Prop := znear I pr em i e z c /\ same_sign (cim (cval z)) (cim c).
Lemma split_near l lf m : lmate l lf m -> conj_closed l ->
  exists K0, 1 <= K0 /\ forall K, K0 <= K -> forall i, fmt_ok K i -> forall sort, is_list_sort sort ->
    exists zc zr ec er, @cplxreal_dyn _ (NF i) (T i) (machine_eps (pr i)) sort (lf i) None = Ok (zc, zr) /\
      Forall2 (rel i (K * uround (pr i))) (zc ++ zr) (ec ++ er) /\ Permutation l (full (ec ++ er)) /\ incl (ec ++ er) l /\ (In C0 (map cval (lf i)) -> In C0 (map cval (zc ++ zr))).
Proof.
  intros Hm Hc. destruct tol_small as [Ht Pt].
  pose proof (good_list I pr em V sz E HE T HT HS tol Ht Pt l lf m Hm) as [K1 [HK1 G]].
  destruct (lnapp_near I pr em V sz l lf (lmate_lnapp I pr em V sz l lf m Hm)) as [K2 [HK2 N]].
  destruct (ev_intZ I pr em V sz 2) as [K3 [HK3 W]].
  exists (K1 + K2 + K3). split; [lra|]. intros K LK i Hi sort Hs.
  destruct (G i (fmt_mono I pr em V _ K1 i Hi ltac:(lra))) as (L & Gd & Sg & Cj). specialize (N i (fmt_mono I pr em V _ K2 i Hi ltac:(lra))). specialize (W i (fmt_mono I pr em V _ K3 i Hi ltac:(lra))).
  destruct Hi as (Vi & Hpe & _). destruct (u_half (pr i) (proj1 Hpe)) as [U0 _].
  assert (LU : K2 * uround (pr i) <= K * uround (pr i)) by (apply Rmult_le_compat_r; lra). set (e := K * uround (pr i)) in *.
  assert (CC : conj_closed (map cval (lf i))).
  { apply (conj_closed_involution _ m). rewrite map_length, L. intros k Hk. destruct (Cj k Hk) as (A & B & Q). split; [exact A|]. split; [exact B|].
    rewrite (nth_map_in cval (lf i) k C0 (@czero _ (NF i))) by (rewrite L; exact Hk). rewrite (nth_map_in cval (lf i) (m k) C0 (@czero _ (NF i))) by (rewrite L; exact A). exact Q. }
  destruct (fcplxreal (pr i) (em i) Hpe (sz i) (T i) (HS i Vi Hpe) W sort Hs (machine_eps (pr i)) (lf i) Gd CC) as (zc & zr & Ez & Fc & Fr & Pos & Re & HP).
  assert (HF : Forall2 (vnear e) (map cval (lf i)) l).
  { apply Forall2_map_l. apply (Forall2_nth_intro _ (@czero _ (NF i)) C0); [exact L|]. rewrite L. intros k Hk. destruct (Forall2_nth_elim _ (@czero _ (NF i)) C0 _ _ N k) as [_ [B1 B2]]; [rewrite L; exact Hk|].
    split; [split; [exact (Rle_trans _ _ _ B1 LU)|exact (Rle_trans _ _ _ B2 LU)]|]. exact (Sg k Hk). }
  destruct (split_limits e _ _ _ l Hc HF Pos Re HP) as (ec & er & F1 & F2 & P & In).
  exists zc, zr, ec, er. split; [exact Ez|]. split; [|split; [assumption|split; [assumption|]]].
  2:{ intros Hin. apply (Permutation_in _ HP) in Hin. rewrite map_app. apply in_or_app. apply in_app_or in Hin. destruct Hin as [Hin|Hin]; [left; exact Hin|]. apply in_app_or in Hin. destruct Hin as [Hin|Hin]; [left|right; exact Hin].
      apply in_map_iff in Hin. destruct Hin as [c [Q Hcin]]. assert (c = C0) by (apply C_ext; [exact (f_equal fst Q)|]; pose proof (f_equal snd Q) as Q2; cbn in Q2 |- *; lra). subst c. exact Hcin. }
  apply (proj1 (Forall2_map_l _ _ _ _)) in F1. apply (proj1 (Forall2_map_l _ _ _ _)) in F2.
  assert (J : forall zz ee, Forall (cfinite (pr i) (em i)) zz -> Forall2 (fun a d => vnear e (cval a) d) zz ee -> Forall2 (rel i e) zz ee).
  { intros zz ee Hf H2. induction H2 as [|a d zz ee [A B] H2 IH]; constructor; [|apply IH; inversion Hf; assumption]. split; [split; [inversion Hf; assumption|exact A]|exact B]. }
  apply Forall2_app; [exact (J _ _ Fc F1)|exact (J _ _ Fr F2)].
Qed.
Lemma rel_gisr i e z c : (1 < pr i < em i)%Z -> rel i e z c -> @gisr _ (NF i) z = isr c.
Proof. intros Hpe [[F W] S]. rewrite (gisr_val (pr i) (em i) Hpe (sz i) z F). exact (vnear_isr e _ _ (conj W S)). Qed.
Lemma rel_full i e zf ze : (1 < pr i < em i)%Z -> Forall2 (rel i e) zf ze -> Forall2 (znear I pr em i e) (@gfull _ (NF i) zf) (full ze).
Proof.
  intros Hpe H. induction H as [|z c zf ze R H IH]; [constructor|]. rewrite full_cons. rewrite gfull_cons. rewrite (rel_gisr i e z c Hpe R). destruct R as [[F [W1 W2]] S].
  destruct (isr c); cbn [app]; constructor; try exact IH; try (split; [exact F|split; assumption]). constructor; [|exact IH].
  split; [split; [apply F|apply fin_opp, F]|]. split; [exact W1|]. change (snd (cval (@cconj _ (NF i) z))) with (fval (SFopp (cim z))). rewrite val_opp. change (snd (cconj c)) with (- snd c). change (snd (cval z)) with (fval (cim z)) in W2.
  replace (- fval (cim z) - - snd c) with (- (fval (cim z) - snd c)) by ring. rewrite Rabs_Ropp. exact W2.
Qed.
Lemma taken_cand i e r er L : (1 < pr i < em i)%Z -> @taken _ (NF i) r -> Forall2 (rel i e) r er -> incl er L -> In (full er) (cands L) /\ length (full er) = 2%nat.
Proof.
  intros Hpe HT' H Hi. assert (Q : In (full er) (cands L)); [|split; [exact Q|exact (cands_length _ _ Q)]].
  destruct HT' as [[a [-> Ga]]|[a [b [-> [Ga Gb]]]]].
  - inversion H as [|? c ? er' R H']; subst. inversion H'; subst. rewrite full_cons. rewrite <- (rel_gisr i e a c Hpe R), Ga. cbn [app full flat_map]. apply in_flat_map. exists c. split; [apply Hi; left; reflexivity|left; reflexivity].
  - inversion H as [|? c ? er' R H']; subst. inversion H' as [|? d ? er'' R' H'']; subst. inversion H''; subst. rewrite !full_cons. rewrite <- (rel_gisr i e a c Hpe R), Ga, <- (rel_gisr i e b d Hpe R'), Gb. cbn [app full flat_map].
    apply in_flat_map. exists c. split; [apply Hi; left; reflexivity|]. right. apply in_map_iff. exists d. split; [reflexivity|]. apply Hi. right. left. reflexivity.
Qed.
Lemma Forall_rel {A B} (P : A -> B -> Prop) (L : list B) l : Forall (fun a => exists b, In b L /\ P a b) l -> exists m, Forall2 P l m /\ incl m L.
Proof.
  induction 1 as [|a l [b [Hb Pb]] H [m [IH Hi]]]; [exists []; split; [constructor|intros x []]|]. exists (b :: m). split; [constructor; assumption|]. intros x [<-|Hx]; [exact Hb|apply Hi; exact Hx].
Qed.
Lemma rel_mono i e e' z c : e <= e' -> rel i e z c -> rel i e' z c.
Proof. intros Le [[F [A B]] S]. split; [split; [exact F|split; lra]|exact S]. Qed.

Lemma znear_fin i e zf ze : Forall2 (znear I pr em i e) zf ze -> Forall (cfinite (pr i) (em i)) zf.
Proof. intros H. induction H as [|a b zf ze [F _] H IH]; constructor; assumption. Qed.
Lemma gfull_incl i r : In C0 (map cval r) -> In C0 (map cval (@gfull _ (NF i) r)).
Proof.
  induction r as [|a r IH]; intros H; [exact H|]. rewrite gfull_cons, map_app. apply in_or_app. destruct H as [H|H]; [left|right; apply IH; exact H]. destruct (gisr a); left; exact H.
Qed.

Variables (g : @ZpkFormatFilter R) (gf : I -> @ZpkFormatFilter spec_float).
Hypothesis Hz : znapp I pr em V sz g gf.
Hypothesis Hm : zmate I pr em V sz g gf.
Hypothesis Hr : real_filter g.
Let L : nat := Nat.max 1 ((Nat.max (length (zk_z g)) (length (zk_p g)) + 1) / 2).

Theorem fzpk2sos : exists K SS, 1 <= K /\ forall i, fmt_ok K i -> forall sort order pairing analog, is_list_sort sort -> analog <> Some true -> (pairing = None \/ pairing = Some Nearest) ->
  exists sf sr, @zpk2sos_dyn _ (NF i) (T i) (machine_eps (pr i)) sort order (gf i) pairing analog = Ok sf /\ length sr = L /\ Forall fresh sr /\
    Forall2 (sos_within (pr i) (em i) (K * uround (pr i))) sf sr /\ Forall (fun t => In t SS) sr /\
    (forall x, sos_num sr x = (RtoC (zk_k g) * root_product (zk_z g) x * cpow x (2 * L - length (zk_z g)))%C /\
              sos_den sr x = (root_product (zk_p g) x * cpow x (2 * L - length (zk_p g)))%C) /\
    ((length (zk_z g) < 2 * L)%nat -> Exists (fun s => fval (b2 s) = 0) sf) /\ ((length (zk_p g) < 2 * L)%nat -> Exists (fun s => fval (a2 s) = 0) sf).
Proof.
  destruct Hz as [NZ [NP NK]]. destruct Hm as [[mz MZ] [mp MP]]. destruct Hr as [CZ CP].
  destruct (Nat.eq_dec (Nat.max (length (zk_z g)) (length (zk_p g))) 0) as [E0|E0].
  - (* no roots *)
    destruct NK as [K [HK HN]]. destruct (napp_one I pr em V) as [K1 [HK1 HN1]]. exists (K + K1), [Sos_new (zk_k g) 0 0 1 0 0]. split; [lra|]. intros i Hi sort order pairing analog Hs Ha Hp.
    destruct (HN i (fmt_mono I pr em V _ K i Hi ltac:(lra))) as [Fk Bk]. destruct (HN1 i (fmt_mono I pr em V _ K1 i Hi ltac:(lra))) as [F1 B1]. pose proof Hi as (Vi & Hpe & _). destruct (u_half (pr i) (proj1 Hpe)) as [U0 _].
    assert (Lz : length (zk_z (gf i)) = 0%nat) by (rewrite (proj1 NZ i Vi); lia). assert (Lp : length (zk_p (gf i)) = 0%nat) by (rewrite (proj1 NP i Vi); lia).
    exists [@Sos_new _ (NF i) (zk_k (gf i)) (S754_zero false) (S754_zero false) (@none _ (NF i)) (S754_zero false) (S754_zero false)], [Sos_new (zk_k g) 0 0 1 0 0].
    split.
    { unfold zpk2sos_dyn. rewrite Lz, Lp. cbn [Nat.eqb andb].
      assert (Ea : unwrap_or analog false = false) by (destruct analog as [[|]|]; [contradiction Ha; reflexivity|reflexivity|reflexivity]). rewrite Ea. reflexivity. }
    assert (EL : L = 1%nat) by (unfold L; rewrite E0; reflexivity). rewrite EL. split; [reflexivity|]. split; [constructor; [split; [reflexivity|split; reflexivity]|constructor]|].
    assert (LU : K * uround (pr i) <= (K + K1) * uround (pr i)) by (apply Rmult_le_compat_r; lra). assert (LU1 : K1 * uround (pr i) <= (K + K1) * uround (pr i)) by (apply Rmult_le_compat_r; lra).
    assert (PU : 0 <= (K + K1) * uround (pr i)) by (apply Rmult_le_pos; lra). set (e := (K + K1) * uround (pr i)) in *.
    assert (Z0 : Rabs (fval (S754_zero false) - 0) <= e) by (cbn [fval]; rewrite Rminus_0_r, Rabs_R0; exact PU). pose proof (zero_fin (pr i) (em i)) as FZ.
    split.
    { constructor; [|constructor]. split; [|split; [|split; [exact (proj2 (fin_one (pr i) (em i) Hpe (sz i)))|split; reflexivity]]]; unfold coefs, Sos_new; cbn [M_Filter.b0 M_Filter.b1 M_Filter.b2 M_Filter.a0 M_Filter.a1 M_Filter.a2].
      - constructor; [exact Fk|]. constructor; [exact FZ|]. constructor; [exact FZ|]. constructor; [exact F1|]. constructor; [exact FZ|]. constructor; [exact FZ|]. constructor.
      - constructor; [exact (Rle_trans _ _ _ Bk LU)|]. constructor; [exact Z0|]. constructor; [exact Z0|]. constructor; [exact (Rle_trans _ _ _ B1 LU1)|]. constructor; [exact Z0|]. constructor; [exact Z0|]. constructor. }
    split; [constructor; [left; reflexivity|constructor]|].
    split; [|split; intros _; constructor; reflexivity].
    intros x. rewrite sos_num_cons, sos_den_cons, !rpoly3. change (sos_num [] x) with C1. change (sos_den [] x) with C1. unfold Sos_new. cbn [M_Filter.b0 M_Filter.b1 M_Filter.b2 M_Filter.a0 M_Filter.a1 M_Filter.a2].
    assert (G1 : zk_z g = []) by (apply length_zero_iff_nil; lia). assert (G2 : zk_p g = []) by (apply length_zero_iff_nil; lia). rewrite G1, G2. cbn [root_product length Nat.mul Nat.add Nat.sub cpow].
    change (RtoC 1) with C1. change (RtoC 0) with C0. change (root_product [] x) with C1. split; ring.
  - (* sections *)
    destruct (@gpad R RNum (zk_z g) (zk_p g) E0) as (q & nz & np & _ & Lz & Lp & Eq).
    assert (EL : L = S q) by (unfold L; rewrite <- Eq; lia).
    set (lz := zk_z g ++ repeat C0 nz). set (lp := zk_p g ++ repeat C0 np).
    set (lzf := fun i => zk_z (gf i) ++ repeat (@czero _ (NF i)) nz). set (lpf := fun i => zk_p (gf i) ++ repeat (@czero _ (NF i)) np).
    assert (MZ' : exists m, lmate lz lzf m).
    { eexists. refine (lmate_app I pr em V sz _ _ _ _ _ _ MZ _). exact (lmate_repeat_real I pr em V sz 0 (fun _ => S754_zero false) false nz (napp_zero I pr em V false)). }
    assert (MP' : exists m, lmate lp lpf m).
    { eexists. refine (lmate_app I pr em V sz _ _ _ _ _ _ MP _). exact (lmate_repeat_real I pr em V sz 0 (fun _ => S754_zero false) false np (napp_zero I pr em V false)). }
    destruct MZ' as [mz' MZ']. destruct MP' as [mp' MP'].
    destruct (split_near lz lzf mz' MZ' (conj_closed_pad _ _ CZ)) as [K1 [HK1 SZ]]. destruct (split_near lp lpf mp' MP' (conj_closed_pad _ _ CP)) as [K2 [HK2 SP]]. destruct NK as [K3 [HK3 NK]].
    set (K0 := K1 + K2 + K3). set (LL := lz ++ lp).
    destruct (sections_near I pr em V sz K0 (zk_k g) (list_prod (cands LL) (cands LL))) as [K4 [HK4 S4]]; [unfold K0; lra|apply Forall_forall; intros [a b] Hab; apply in_prod_iff in Hab; split; eapply cands_length; apply Hab|].
    set (ES := map (fun q => esec (fst q) (snd q)) (list_prod (cands LL) (cands LL))). exists (K0 + K4), (ES ++ map (gained (zk_k g)) ES). split; [unfold K0; lra|]. intros i Hi sort order pairing analog Hs Ha Hp. pose proof (list_sort_is_sort sort Hs) as Hs'.
    assert (Hi0 : fmt_ok K0 i) by (exact (fmt_mono I pr em V _ K0 i Hi ltac:(lra))). assert (Hi4 : fmt_ok K4 i) by (exact (fmt_mono I pr em V _ K4 i Hi ltac:(unfold K0; lra))).
    pose proof Hi as (Vi & Hpe & _). destruct (u_half (pr i) (proj1 Hpe)) as [U0 _].
    destruct (SZ K0 ltac:(unfold K0; lra) i Hi0 sort Hs) as (zc & zr & ezc & ezr & EZ & RZ & PZ & IZ & NZ0). destruct (SP K0 ltac:(unfold K0; lra) i Hi0 sort Hs) as (pc & pr' & epc & epr & EP & RP & PP & IP & NP0).
    destruct (NK i (fmt_mono I pr em V _ K3 i Hi ltac:(unfold K0; lra))) as [Fk Bk].
    assert (Nk : rnear I pr em i (K0 * uround (pr i)) (zk_k (gf i)) (zk_k g)) by (split; [exact Fk|]; eapply Rle_trans; [exact Bk|]; apply Rmult_le_compat_r; [lra|unfold K0; lra]).
    assert (LU : K4 * uround (pr i) <= (K0 + K4) * uround (pr i)) by (apply Rmult_le_compat_r; [lra|unfold K0; lra]).
    set (e0 := K0 * uround (pr i)) in *. set (e := (K0 + K4) * uround (pr i)) in *.
    set (ok := fun l : list (cplx spec_float) => Forall (fun z => exists c, In c LL /\ rel i e0 z c) l).
    set (P := fun (s : Sos spec_float) (rp rz : list (cplx spec_float)) => forall ep ez, Forall2 (rel i e0) rp ep -> Forall2 (rel i e0) rz ez -> incl ep LL -> incl ez LL ->
       sos_within (pr i) (em i) e s (esec (full ez) (full ep)) /\ sos_within (pr i) (em i) e (@gained _ (NF i) (zk_k (gf i)) s) (gained (zk_k g) (esec (full ez) (full ep))) /\
       (In C0 (map cval rz) -> fval (b2 s) = 0) /\ (In C0 (map cval rp) -> fval (a2 s) = 0)).
    assert (OK : forall zf ze, Forall2 (rel i e0) zf ze -> incl ze LL -> ok zf).
    { intros zf ze H Hin. induction H as [|z c zf ze R H IH]; [constructor|]. constructor; [exists c; split; [apply Hin; left; reflexivity|exact R]|]. apply IH. intros x Hx. apply Hin. right. exact Hx. }
    assert (IZ' : incl (ezc ++ ezr) LL) by (intros x Hx; apply in_or_app; left; apply IZ; exact Hx). assert (IP' : incl (epc ++ epr) LL) by (intros x Hx; apply in_or_app; right; apply IP; exact Hx).
    assert (Lenz : length (@gfull _ (NF i) (zc ++ zr)) = (2 * S q)%nat).
    { rewrite (Forall2_len' _ _ _ (rel_full i e0 _ _ Hpe RZ)), <- (Permutation_length PZ). unfold lz. rewrite app_length, repeat_length. exact Lz. }
    assert (Lenp : length (@gfull _ (NF i) (pc ++ pr')) = (2 * S q)%nat).
    { rewrite (Forall2_len' _ _ _ (rel_full i e0 _ _ Hpe RP)), <- (Permutation_length PP). unfold lp. rewrite app_length, repeat_length. exact Lp. }
    destruct (@gloop _ (NF i) (T i) sort P ok Nearest false) with (n := S q) (p := pc ++ pr') (z := zc ++ zr) (sos := @nil (Sos spec_float)) (idx := seq 0 (S q)) as (ss & rps & rzs & Er & Ls & Lrp & Lrz & Pp & Pz & Tp & Tz & HPk).
    { intros l m HP' H'. exact (Permutation_Forall HP' H'). }
    { intros l m H'. apply Forall_app. exact H'. }
    { intros rp rz Tp Tz Op Oz. destruct (Forall_rel _ LL rp Op) as [ep [Rp Ip]]. destruct (Forall_rel _ LL rz Oz) as [ez [Rz Iz]].
      assert (MK : forall ep ez, Forall2 (rel i e0) rp ep -> Forall2 (rel i e0) rz ez -> incl ep LL -> incl ez LL -> exists s, @single_zpksos_dyn _ (NF i) sort (@gfull _ (NF i) rz) (@gfull _ (NF i) rp) (@none _ (NF i)) = Ok s /\
         sos_within (pr i) (em i) (K4 * uround (pr i)) s (esec (full ez) (full ep)) /\ sos_within (pr i) (em i) (K4 * uround (pr i)) (@gained _ (NF i) (zk_k (gf i)) s) (gained (zk_k g) (esec (full ez) (full ep)))).
      { clear ep ez Rp Ip Rz Iz. intros ep ez Rp Rz Ip Iz. destruct (taken_cand i e0 rp ep LL Hpe Tp Rp Ip) as [Cp _]. destruct (taken_cand i e0 rz ez LL Hpe Tz Rz Iz) as [Cz _].
        apply (S4 i Hi4 (full ez) (full ep)); [apply in_prod; assumption|exact Hs'|exact (rel_full i e0 _ _ Hpe Rz)|exact (rel_full i e0 _ _ Hpe Rp)|exact Nk]. }
      destruct (MK ep ez Rp Rz Ip Iz) as (s & Es & _). exists s. split; [exact Es|]. intros ep' ez' Rp' Rz' Ip' Iz'. destruct (MK ep' ez' Rp' Rz' Ip' Iz') as (s' & Es' & W1 & W2). rewrite Es in Es'. injection Es' as <-.
      split; [exact (sos_within_mono _ _ _ _ _ _ LU W1)|]. split; [exact (sos_within_mono _ _ _ _ _ _ LU W2)|].
      destruct (taken_cand i e0 rp ep LL Hpe Tp Rp Ip) as [_ L2p]. destruct (taken_cand i e0 rz ez LL Hpe Tz Rz Iz) as [_ L2z].
      pose proof (rel_full i e0 _ _ Hpe Rz) as RFz. pose proof (rel_full i e0 _ _ Hpe Rp) as RFp.
      destruct (section_tail (pr i) (em i) Hpe (sz i) sort (@gfull _ (NF i) rz) (@gfull _ (NF i) rp) s) as [TB TA]; [rewrite (Forall2_len' _ _ _ RFz); exact L2z|rewrite (Forall2_len' _ _ _ RFp); exact L2p|exact (znear_fin i e0 _ _ RFz)|exact (znear_fin i e0 _ _ RFp)|exact Es|].
      split; intros Hin; [apply TB|apply TA]; apply gfull_incl; exact Hin. }
    { exact (OK _ _ RP IP'). } { exact (OK _ _ RZ IZ'). } { exact Lenp. } { exact Lenz. } { apply seq_length. }
    (* the limits of what each section took *)
    assert (LIFT : forall zf ze rs, Forall2 (rel i e0) zf ze -> Permutation zf (concat rs) -> exists es, Permutation ze (concat es) /\ Forall2 (Forall2 (rel i e0)) rs es).
    { intros zf ze rs H HP'. destruct (Permutation_Forall2 HP' H) as [m' [HM HF]]. destruct (Forall2_concat_l _ _ _ HF) as [ms [-> H2]]. exists ms. split; assumption. }
    destruct (LIFT _ _ _ RZ Pz) as [ezs [Qz Fz]]. destruct (LIFT _ _ _ RP Pp) as [eps [Qp Fp]].
    assert (Lez : length ezs = S q) by (rewrite <- (Forall2_len' _ _ _ Fz); exact Lrz). assert (Lep : length eps = S q) by (rewrite <- (Forall2_len' _ _ _ Fp); exact Lrp).
    assert (Hez : forall k, (k < S q)%nat -> Forall2 (rel i e0) (nth k rzs []) (nth k ezs []) /\ incl (nth k ezs []) LL).
    { intros k Hk. split; [apply (Forall2_nth_elim _ [] [] _ _ Fz); rewrite Lrz; exact Hk|]. intros x Hx. apply IZ'. apply (Permutation_in _ (Permutation_sym Qz)). apply in_concat. exists (nth k ezs []). split; [apply nth_In; rewrite Lez; exact Hk|exact Hx]. }
    assert (Hep : forall k, (k < S q)%nat -> Forall2 (rel i e0) (nth k rps []) (nth k eps []) /\ incl (nth k eps []) LL).
    { intros k Hk. split; [apply (Forall2_nth_elim _ [] [] _ _ Fp); rewrite Lrp; exact Hk|]. intros x Hx. apply IP'. apply (Permutation_in _ (Permutation_sym Qp)). apply in_concat. exists (nth k eps []). split; [apply nth_In; rewrite Lep; exact Hk|exact Hx]. }
    assert (Two : forall (rs : list (list (cplx spec_float))) es, length es = S q -> length rs = S q -> Forall (@taken _ (NF i)) rs -> (forall k, (k < S q)%nat -> Forall2 (rel i e0) (nth k rs []) (nth k es []) /\ incl (nth k es []) LL) -> Forall (fun e => length (full e) = 2%nat) es).
    { intros rs es L1 L2 HT' H. apply Forall_forall. intros x Hx. destruct (In_nth _ _ [] Hx) as [k [Hk <-]]. rewrite L1 in Hk. destruct (H k Hk) as [R1 R2].
      rewrite Forall_forall in HT'. apply (taken_cand i e0 (nth k rs []) (nth k es []) LL Hpe); [apply HT', nth_In; rewrite L2; exact Hk|exact R1|exact R2]. }
    pose proof (Two rzs ezs Lez Lrz Tz Hez) as TZ. pose proof (Two rps eps Lep Lrp Tp Hep) as TP.
    assert (Cnd : forall (rs : list (list (cplx spec_float))) es, length es = S q -> length rs = S q -> Forall (@taken _ (NF i)) rs -> (forall k, (k < S q)%nat -> Forall2 (rel i e0) (nth k rs []) (nth k es []) /\ incl (nth k es []) LL) -> Forall (fun e => In (full e) (cands LL)) es).
    { intros rs es L1 L2 HT' H. apply Forall_forall. intros x Hx. destruct (In_nth _ _ [] Hx) as [k [Hk <-]]. rewrite L1 in Hk. destruct (H k Hk) as [R1 R2].
      rewrite Forall_forall in HT'. apply (taken_cand i e0 (nth k rs []) (nth k es []) LL Hpe); [apply HT', nth_In; rewrite L2; exact Hk|exact R1|exact R2]. }
    pose proof (Cnd rzs ezs Lez Lrz Tz Hez) as CZ'. pose proof (Cnd rps eps Lep Lrp Tp Hep) as CP'.
    destruct (cascade_roots ezs eps ltac:(congruence) TZ TP) as [Fr Rt]. cbv zeta in Fr, Rt. set (se := map (fun q => esec (full (fst q)) (full (snd q))) (combine ezs eps)) in *.
    assert (Lse : length se = S q) by (unfold se; rewrite map_length, combine_length, Lez, Lep; apply Nat.min_id).
    assert (W2 : Forall2 (fun s t => sos_within (pr i) (em i) e s t /\ sos_within (pr i) (em i) e (@gained _ (NF i) (zk_k (gf i)) s) (gained (zk_k g) t)) ss se).
    { apply (Forall2_nth_intro _ (@Sos_new _ (NF i) (S754_zero false) (S754_zero false) (S754_zero false) (S754_zero false) (S754_zero false) (S754_zero false)) (Sos_new 0 0 0 0 0 0)); [congruence|]. rewrite Ls. intros k Hk.
      unfold se. rewrite (nth_map_in (fun q => esec (full (fst q)) (full (snd q))) (combine ezs eps) k _ ([], [])) by (rewrite combine_length, Lez, Lep, Nat.min_id; exact Hk). rewrite combine_nth by congruence. cbn [fst snd].
      destruct (Hez k Hk) as [Z1 Z2]. destruct (Hep k Hk) as [P1 P2]. destruct (HPk k Hk (@Sos_new _ (NF i) (S754_zero false) (S754_zero false) (S754_zero false) (S754_zero false) (S754_zero false) (S754_zero false)) _ _ P1 Z1 P2 Z2) as (Q1 & Q2 & _). exact (conj Q1 Q2). }
    assert (WHICH : forall (zf : list (cplx spec_float)) rs, length rs = S q -> Permutation zf (concat rs) -> In C0 (map cval zf) -> exists k, (k < S q)%nat /\ In C0 (map cval (nth k rs []))).
    { intros zf rs Lrs HP' Hin. apply in_map_iff in Hin. destruct Hin as [c [Qc Hc]]. apply (Permutation_in _ HP') in Hc. apply in_concat in Hc. destruct Hc as [r [Hr0 Hc]]. destruct (In_nth _ _ [] Hr0) as [k [Hk <-]]. exists k. split; [rewrite <- Lrs; exact Hk|]. rewrite <- Qc. apply in_map. exact Hc. }
    assert (EXB : (length (zk_z g) < 2 * L)%nat -> Exists (fun s => fval (b2 s) = 0) ss).
    { intros Hlt. destruct (WHICH (zc ++ zr) rzs Lrz Pz) as [k [Hk Hin]].
      { apply NZ0. unfold lzf. destruct nz as [|nz']; [lia|]. rewrite map_app. apply in_or_app. right. left. reflexivity. }
      destruct (Hez k Hk) as [Z1 Z2]. destruct (Hep k Hk) as [P1 P2]. set (ds := @Sos_new _ (NF i) (S754_zero false) (S754_zero false) (S754_zero false) (S754_zero false) (S754_zero false) (S754_zero false)).
      destruct (HPk k Hk ds _ _ P1 Z1 P2 Z2) as (_ & _ & Q3 & _). apply Exists_exists. exists (nth k ss ds). split; [apply nth_In; rewrite Ls; exact Hk|apply Q3; exact Hin]. }
    assert (EXA : (length (zk_p g) < 2 * L)%nat -> Exists (fun s => fval (a2 s) = 0) ss).
    { intros Hlt. destruct (WHICH (pc ++ pr') rps Lrp Pp) as [k [Hk Hin]].
      { apply NP0. unfold lpf. destruct np as [|np']; [lia|]. rewrite map_app. apply in_or_app. right. left. reflexivity. }
      destruct (Hez k Hk) as [Z1 Z2]. destruct (Hep k Hk) as [P1 P2]. set (ds := @Sos_new _ (NF i) (S754_zero false) (S754_zero false) (S754_zero false) (S754_zero false) (S754_zero false) (S754_zero false)).
      destruct (HPk k Hk ds _ _ P1 Z1 P2 Z2) as (_ & _ & _ & Q3). apply Exists_exists. exists (nth k ss ds). split; [apply nth_In; rewrite Ls; exact Hk|apply Q3; exact Hin]. }
    (* the call *)
    assert (Ea : unwrap_or analog false = false) by (destruct analog as [[|]|]; [contradiction Ha; reflexivity|reflexivity|reflexivity]).
    assert (Ep : unwrap_or pairing (if unwrap_or analog false then Minimal else Nearest) = Nearest) by (rewrite Ea; destruct Hp as [->| ->]; reflexivity).
    assert (Lgz : length (zk_z (gf i)) = length (zk_z g)) by exact (proj1 NZ i Vi). assert (Lgp : length (zk_p (gf i)) = length (zk_p g)) by exact (proj1 NP i Vi).
    assert (W3 : Forall2 (fun s t => sos_within (pr i) (em i) e s t /\ sos_within (pr i) (em i) e (@gained _ (NF i) (zk_k (gf i)) s) (gained (zk_k g) t)) (rev ss) (rev se)).
    { clear - W2. induction W2 as [|s t ss se H W2 IH]; [constructor|]. cbn [rev]. apply Forall2_app; [exact IH|]. constructor; [exact H|constructor]. }
    assert (In3 : Forall (fun t => In t ES) (rev se)).
    { apply Forall_rev. unfold se. apply Forall_forall. intros t Ht. apply in_map_iff in Ht. destruct Ht as [[a b] [<- Hab]]. cbn [fst snd]. unfold ES. apply in_map_iff. exists (full a, full b). split; [reflexivity|].
      rewrite Forall_forall in CZ', CP'. apply in_prod; [apply CZ'; exact (in_combine_l _ _ _ _ Hab)|apply CP'; exact (in_combine_r _ _ _ _ Hab)]. }
    assert (Lr : length (rev se) = S q) by (rewrite rev_length; exact Lse).
    assert (Fr' : Forall fresh (rev se)) by (apply Forall_rev; exact Fr).
    destruct (rev ss) as [|s1 sr1] eqn:Ers; [exfalso; pose proof (Forall2_len' _ _ _ W3) as X; rewrite Lr in X; discriminate X|].
    inversion W3 as [|? t1 ? tr1 [Wl Wg] Wt Q Q']; subst.
    exists (@gained _ (NF i) (zk_k (gf i)) s1 :: sr1), (gained (zk_k g) t1 :: tr1).
    split.
    { unfold zpk2sos_dyn. rewrite Ep, Ea. cbn [andb negb is_minimal].
      replace (Nat.eqb (length (zk_z (gf i))) 0 && Nat.eqb (length (zk_p (gf i))) 0) with false by (symmetry; apply andb_false_iff; rewrite !Nat.eqb_neq; lia).
      destruct (@gpad _ (NF i) (zk_z (gf i)) (zk_p (gf i))) as (q' & nz' & np' & Epad & Lz' & Lp' & Eq'); [rewrite Lgz, Lgp; exact E0|].
      rewrite Lgz, Lgp in *. assert (q' = q) by lia. subst q'. assert (nz' = nz) by lia. assert (np' = np) by lia. subst nz' np'.
      rewrite Epad. cbn [bind]. fold (lzf i). rewrite EZ. cbn [bind]. fold (lpf i). rewrite EP. cbn [bind]. rewrite Er. cbn [bind app length Nat.eqb rassert]. rewrite Ers. reflexivity. }
    rewrite <- Q' in Lr, Fr', In3. split; [cbn [length] in *; lia|]. split; [constructor; [|exact (Forall_inv_tail Fr')]; exact (Forall_inv Fr')|].
    split; [constructor; [exact Wg|]; clear - Wt; induction Wt as [|s t a b [H _] Wt IH]; constructor; assumption|].
    split; [constructor; [apply in_or_app; right; apply in_map; exact (Forall_inv In3)|eapply Forall_impl; [|exact (Forall_inv_tail In3)]; intros t Ht; apply in_or_app; left; exact Ht]|].
    split; [|split; intros Hlt].
    2:{ specialize (EXB Hlt). apply Exists_rev in EXB. rewrite Ers in EXB. inversion EXB as [? ? B0|]; subst; [apply Exists_cons_hd|apply Exists_cons_tl; assumption].
        destruct Wl as (Fg & _). unfold coefs in Fg. cbn [gained M_Filter.b2]. apply (zmul (pr i) (em i) Hpe); [exact (Forall_inv (Forall_inv_tail (Forall_inv_tail Fg)))|exact Fk|left; exact B0]. }
    2:{ specialize (EXA Hlt). apply Exists_rev in EXA. rewrite Ers in EXA. inversion EXA as [? ? B0|]; subst; [apply Exists_cons_hd; exact B0|apply Exists_cons_tl; assumption]. }
    intros x. rewrite sos_num_cons, sos_den_cons. change (gained (zk_k g) t1) with (with_gain (zk_k g) t1). rewrite with_gain_num. cbn [with_gain M_Filter.a0 M_Filter.a1 M_Filter.a2].
    destruct (Rt x) as [R1 R2]. rewrite <- (sos_num_rev se), <- Q', sos_num_cons in R1. rewrite <- (sos_den_rev se), <- Q', sos_den_cons in R2. rewrite R2.
    assert (Z1 : root_product (full (concat ezs)) x = (root_product (zk_z g) x * cpow x nz)%C).
    { rewrite <- (rp_perm _ _ x (full_perm _ _ Qz)), <- (rp_perm _ _ x PZ). apply rp_pad. }
    assert (P1 : root_product (full (concat eps)) x = (root_product (zk_p g) x * cpow x np)%C).
    { rewrite <- (rp_perm _ _ x (full_perm _ _ Qp)), <- (rp_perm _ _ x PP). apply rp_pad. }
    rewrite P1, EL. replace (2 * S q - length (zk_z g))%nat with nz by lia. replace (2 * S q - length (zk_p g))%nat with np by lia. split; [|reflexivity].
    replace (RtoC (zk_k g) * rpoly_at [b0 t1; b1 t1; b2 t1] x * sos_num tr1 x)%C with (RtoC (zk_k g) * (rpoly_at [b0 t1; b1 t1; b2 t1] x * sos_num tr1 x))%C by ring.
    rewrite R1, Z1. ring.
Qed.
End Whole.
