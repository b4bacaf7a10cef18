(** The stages of a band-pass or band-stop design in floats. *)
From Coq Require Import Reals Ratan ZArith SpecFloat List Lia Lra Bool Permutation.
From Flocq Require Import Core BinarySingleNaN.
From Verif Require Import Base Num Trans M_Complex M_Filter M_Design Cx S_Design S_Filter S_Float S_FloatFft S_FloatZpk S_FloatTrans
  P_Float P_FloatStats P_Sqrt P_Poly P_Lp P_Proto P_Stable P_Zi P_FloatI0 P_FloatZi P_FloatPoly T_FloatPoly P_FloatDesign P_FloatResponse P_FloatSqrt T_FloatDesign P_FloatBand.
Import ListNotations.
Local Open Scope R_scope.

(** Same zeros and gain, same poles in some order. *)
Definition same_upto (h h0 : @ZpkFormatFilter R) : Prop := zk_z h = zk_z h0 /\ Permutation (zk_p h) (zk_p h0) /\ zk_k h = zk_k h0.

(** Same gain, same zeros and same poles, each in some order. *)
Definition same_perm (h h0 : @ZpkFormatFilter R) : Prop := Permutation (zk_z h) (zk_z h0) /\ Permutation (zk_p h) (zk_p h0) /\ zk_k h = zk_k h0.
Lemma same_upto_perm h h0 : same_upto h h0 -> same_perm h h0.
Proof. intros [Z [P K]]. split; [rewrite Z; apply Permutation_refl|]. split; [exact P|exact K]. Qed.

Section Band2.
Context {F : Type} {NF : Num F} {TF : Trans F}.
Definition band2 (bt : FilterBandType) (g : ZpkFormatFilter) (w0 w1 : F) : res ZpkFormatFilter :=
  match bt with
  | Bandpass => lp2bp_zpk_dyn g (Some (nsqrt (nmul w0 w1))) (Some (nsub w1 w0))
  | _ => lp2bs_zpk_dyn g (Some (nsqrt (nmul w0 w1))) (Some (nsub w1 w0))
  end.
End Band2.
(** No prototype pole goes to a double pole. *)
Definition no_double (bt : FilterBandType) (poles : list C) (W0 W1 : R) : Prop :=
  forall p, In p poles ->
  match bt with
  | Bandpass => (p * RtoC ((W1 - W0) / 2)%R * (p * RtoC ((W1 - W0) / 2)%R))%C <> RtoC (W0 * W1)%R
  | _ => (RtoC ((W1 - W0) / 2)%R / p * (RtoC ((W1 - W0) / 2)%R / p))%C <> RtoC (W0 * W1)%R
  end.

Section Stage.
Variable I : Type.
Variables pr em : I -> Z.
Variable sz : I -> bool.
Variable E : R.
Hypothesis HE : 0 <= E.
Variable T : I -> Trans spec_float.
Variable V : I -> Prop.
Hypothesis HT : forall i, V i -> (1 < pr i < em i)%Z -> accurate_trans (pr i) (em i) E (T i).
Notation NF i := (SFNum (pr i) (em i) (sz i)).
Notation napp := (napp I pr em V).
Notation znapp := (znapp I pr em V sz).
Notation lnapp := (lnapp I pr em V sz).

(** What a transform followed by the roots gives. *)
Lemma roots_stage l lf wo wf (Nl : lnapp l lf) (Nw : napp wo wf) (Hl : forall z, In z l -> (z * z)%C <> RtoC (wo * wo)%R) :
  let q := fun z => csub (csquare z) (npow wo 2, 0) in
  let qf := fun i z => @csub _ (NF i) (@csquare _ (NF i) z) (@npow _ (NF i) (wf i) 2, @nzero _ (NF i)) in
  exists pat : I -> list bool, (forall i, length (pat i) = length l) /\ forall sg, exists m,
    Permutation m (map (fun z => cadd z (csqrt (q z))) l ++ map (fun z => csub z (csqrt (q z))) l) /\
    P_FloatPoly.lnapp I pr em (fun i => V i /\ pat i = sg) sz m
      (fun i => map (fun z => @cadd _ (NF i) z (@csqrt _ (NF i) (T i) (qf i z))) (lf i) ++ map (fun z => @csub _ (NF i) z (@csqrt _ (NF i) (T i) (qf i z))) (lf i)).
Proof.
  intros q qf.
  assert (Nq : forall k, (k < length l)%nat -> cnapp I pr em V (q (nth k l C0)) (fun i => qf i (nth k (lf i) (@czero _ (NF i))))).
  { intros k Hk. destruct Nl as [_ N]. specialize (N k Hk). unfold q, qf. apply cnapp_sub; [apply cnapp_mul; exact N|]. split; [apply (napp_npow I pr em V sz); exact Nw|apply napp_zero]. }
  assert (Hq : forall z, In z l -> q z <> C0).
  { intros z Hz Q. apply (Hl z Hz). unfold q, csquare in Q. assert (W2 : (npow wo 2, 0) = RtoC (wo * wo)%R) by (apply C_ext; cbn; [ring|reflexivity]). rewrite W2 in Q.
    replace (z * z)%C with ((z * z - RtoC (wo * wo)%R) + RtoC (wo * wo)%R)%C by ring. rewrite Q. ring. }
  exists (pattern I pr em sz T l lf q qf). split; [apply pattern_length|]. intros sg.
  exists (plus_list l q sg ++ minus_list l q sg). split; [apply signed_perm|].
  apply lnapp_app.
  - apply (lnapp_plus I pr em sz E HE T V HT l lf q qf Nl Nq Hq sg).
  - apply (lnapp_minus I pr em sz E HE T V HT l lf q qf Nl Nq Hq sg).
Qed.

Variables (g : @ZpkFormatFilter R) (gf : I -> @ZpkFormatFilter spec_float).
Hypothesis Hg : znapp g gf.
Hypothesis Gz : zk_z g = [].
Hypothesis Gp : Forall (fun p => cre p < 0) (zk_p g).
Variables (W0 W1 : R) (w0 w1 : I -> spec_float).
Hypothesis N0 : napp W0 w0.
Hypothesis N1 : napp W1 w1.
Hypothesis P0 : 0 < W0.
Hypothesis P1 : W0 < W1.
Let wo : R := sqrt (W0 * W1).
Let wf (i : I) : spec_float := @nsqrt _ (NF i) (@nmul _ (NF i) (w0 i) (w1 i)).
Let bw : R := W1 - W0.
Let bf (i : I) : spec_float := @nsub _ (NF i) (w1 i) (w0 i).
Lemma wo_sq : wo * wo = W0 * W1.
Proof. unfold wo. apply sqrt_sqrt. nra. Qed.
Lemma wo_pos : 0 < wo.
Proof. unfold wo. apply sqrt_lt_R0. nra. Qed.
Lemma napp_wo : napp wo wf.
Proof. apply (napp_sqrt I pr em V sz); [nra|]. apply napp_mul; assumption. Qed.
Lemma napp_bw : napp bw bf.
Proof. apply napp_sub; assumption. Qed.
Lemma gf_len i : V i -> zk_z (gf i) = [] /\ length (zk_p (gf i)) = length (zk_p g).
Proof. intros Vi. destruct Hg as [[L1 _] [[L2 _] _]]. split; [|apply L2; exact Vi]. specialize (L1 i Vi). rewrite Gz in L1. destruct (zk_z (gf i)); [reflexivity|discriminate L1]. Qed.

Definition staged (real : res (@ZpkFormatFilter R)) (float : I -> res (@ZpkFormatFilter spec_float)) (ok : @ZpkFormatFilter R -> Prop) : Prop :=
  exists (pat : I -> list bool) (n : nat) h0 hf, (forall i, length (pat i) = n) /\ real = Ok h0 /\ (forall i, V i -> float i = Ok (hf i)) /\ ok h0 /\
  forall sg, exists h, same_upto h h0 /\ P_FloatDesign.znapp I pr em (fun i => V i /\ pat i = sg) sz h hf.
Definition good (h : @ZpkFormatFilter R) : Prop := Forall (fun z => cre z = 0) (zk_z h) /\ Forall (fun p => cre p < 0) (zk_p h) /\ (length (zk_z h) <= length (zk_p h))%nat.

Lemma stage_lp2bp : no_double Bandpass (zk_p g) W0 W1 -> staged (lp2bp_zpk_dyn g (Some wo) (Some bw)) (fun i => @lp2bp_zpk_dyn _ (NF i) (T i) (gf i) (Some (wf i)) (Some (bf i))) good.
Proof.
  intros ND. pose proof Hg as [_ [NP NK]]. pose proof napp_wo as NW. pose proof napp_bw as NB.
  set (hp := fun zi : C => cmul zi (bw / 2, 0)). set (hpf := fun i zi => @cmul _ (NF i) zi (@ndiv _ (NF i) (bf i) (@two _ (NF i)), @nzero _ (NF i))).
  assert (Nl : lnapp (map hp (zk_p g)) (fun i => map (hpf i) (zk_p (gf i)))).
  { apply (lnapp_map I pr em V sz _ _ hp hpf); [|exact NP]. intros k Hk Nk. apply cnapp_mul; [exact Nk|]. split; [|apply napp_zero].
    apply napp_div; [apply IZR_neq; lia|exact NB|exact (napp_intZ I pr em V sz 2)]. }
  assert (Hl : forall z, In z (map hp (zk_p g)) -> (z * z)%C <> RtoC (wo * wo)%R).
  { intros z Hz. apply in_map_iff in Hz. destruct Hz as [p [<- Hp]]. rewrite wo_sq. exact (ND p Hp). }
  destruct (roots_stage _ _ _ _ Nl NW Hl) as [pat [Lp H]]. set (n := length (zk_p g)).
  set (root := fun z : C => csqrt (csub (csquare z) (npow wo 2, 0))) in *.
  set (rootf := fun i (z : cplx spec_float) => @csqrt _ (NF i) (T i) (@csub _ (NF i) (@csquare _ (NF i) z) (@npow _ (NF i) (wf i) 2, @nzero _ (NF i)))).
  exists pat, (length (map hp (zk_p g))).
  exists (mkZpk (repeat C0 n) (map (fun z => cadd z (root z)) (map hp (zk_p g)) ++ map (fun z => csub z (root z)) (map hp (zk_p g))) (zk_k g * npow bw n)).
  exists (fun i => mkZpk (repeat (@czero _ (NF i)) n) (map (fun z => @cadd _ (NF i) z (rootf i z)) (map (hpf i) (zk_p (gf i))) ++ map (fun z => @csub _ (NF i) z (rootf i z)) (map (hpf i) (zk_p (gf i)))) (@nmul _ (NF i) (zk_k (gf i)) (@npow _ (NF i) (bf i) n))).
  assert (EQ : lp2bp_zpk_dyn g (Some wo) (Some bw) = Ok (mkZpk (repeat C0 n) (map (fun z => cadd z (root z)) (map hp (zk_p g)) ++ map (fun z => csub z (root z)) (map hp (zk_p g))) (zk_k g * npow bw n))).
  { unfold lp2bp_zpk_dyn, relative_degree_dyn. rewrite Gz. cbn [length Nat.ltb Nat.leb bind map app]. rewrite !map_map. unfold n. rewrite Nat.sub_0_r. reflexivity. }
  split; [exact Lp|]. split; [exact EQ|]. split; [|split].
  - intros i Vi. destruct (gf_len i Vi) as [Z L]. unfold lp2bp_zpk_dyn, relative_degree_dyn. rewrite Z. cbn [length Nat.ltb Nat.leb bind map app]. rewrite !map_map, L, Nat.sub_0_r. reflexivity.
  - destruct (lp2bp_eq g wo bw _ EQ) as [_ [Ez [Ep _]]]. split; [|split].
    + cbn [zk_z]. apply Forall_forall. intros z Hz. apply repeat_spec in Hz. subst z. reflexivity.
    + rewrite Ep. apply quad_Forall; [pose proof wo_pos; lra|]. apply Forall_forall. intros z Hz. apply in_map_iff in Hz. destruct Hz as [p [<- Hp]].
      rewrite Forall_forall in Gp. apply scale_stable; [unfold bw; lra|apply Gp, Hp].
    + cbn [zk_z zk_p]. rewrite app_length, !map_length, repeat_length. fold n. lia.
  - intros sg. destruct (H sg) as [m [Pm Nm]]. exists (mkZpk (repeat C0 n) m (zk_k g * npow bw n)). split; [split; [reflexivity|split; [exact Pm|reflexivity]]|].
    split; [|split]; cbn [zk_z zk_p zk_k].
    + apply lnapp_repeat. apply cnapp_zero.
    + exact Nm.
    + apply (napp_shrink pr em V); [intros i [Vi _]; exact Vi|]. apply napp_mul; [exact NK|]. apply (napp_npow I pr em V sz). exact NB.
Qed.

Lemma stage_lp2bs : conj_closed (zk_p g) -> no_double Bandstop (zk_p g) W0 W1 -> staged (lp2bs_zpk_dyn g (Some wo) (Some bw)) (fun i => @lp2bs_zpk_dyn _ (NF i) (T i) (gf i) (Some (wf i)) (Some (bf i))) good.
Proof.
  intros CC ND. pose proof Hg as [_ [NP NK]]. pose proof napp_wo as NW. pose proof napp_bw as NB.
  assert (Gp0 : forall p, In p (zk_p g) -> p <> C0) by (rewrite Forall_forall in Gp; intros p Hp ->; apply Gp in Hp; cbn in Hp; lra).
  assert (NI0 : ~ In C0 (zk_p g)) by (intros Q; apply (Gp0 _ Q); reflexivity).
  assert (N1' : napp (-1) (fun i => @nofZ _ (NF i) (-1))) by apply (napp_intZ I pr em V sz).
  set (hp := fun zi : C => cmul (cdiv (0, bw / 2) zi) (0, -1)). set (hpf := fun i zi => @cmul _ (NF i) (@cdiv _ (NF i) (@nzero _ (NF i), @ndiv _ (NF i) (bf i) (@two _ (NF i))) zi) (@nzero _ (NF i), @nofZ _ (NF i) (-1))).
  assert (Nl : lnapp (map hp (zk_p g)) (fun i => map (hpf i) (zk_p (gf i)))).
  { apply (lnapp_map I pr em V sz _ _ hp hpf); [|exact NP]. intros k Hk Nk. apply cnapp_mul; [|split; [apply napp_zero|exact N1']].
    apply cnapp_div; [apply Gp0, nth_In, Hk| |exact Nk]. split; [apply napp_zero|].
    apply napp_div; [apply IZR_neq; lia|exact NB|exact (napp_intZ I pr em V sz 2)]. }
  assert (HPE : forall p, hp p = (RtoC (bw / 2)%R / p)%C) by (intros r; unfold hp; apply C_ext; cbn; unfold Rdiv; ring).
  assert (Hl : forall z, In z (map hp (zk_p g)) -> (z * z)%C <> RtoC (wo * wo)%R).
  { intros z Hz. apply in_map_iff in Hz. destruct Hz as [p [<- Hp]]. rewrite wo_sq, HPE. exact (ND p Hp). }
  destruct (roots_stage _ _ _ _ Nl NW Hl) as [pat [Lp H]]. set (n := length (zk_p g)).
  set (root := fun z : C => csqrt (csub (csquare z) (npow wo 2, 0))) in *.
  set (rootf := fun i (z : cplx spec_float) => @csqrt _ (NF i) (T i) (@csub _ (NF i) (@csquare _ (NF i) z) (@npow _ (NF i) (wf i) 2, @nzero _ (NF i)))).
  set (zs := repeat (0, 1 * wo) n ++ repeat (0, -1 * wo) n).
  set (den := cprod (map (fun pi => cmul (-1, 0) pi) (zk_p g))).
  exists pat, (length (map hp (zk_p g))).
  exists (mkZpk zs (map (fun z => cadd z (root z)) (map hp (zk_p g)) ++ map (fun z => csub z (root z)) (map hp (zk_p g))) (zk_k g * (1 / cre den))).
  exists (fun i => mkZpk (repeat (@nzero _ (NF i), @nmul _ (NF i) (@none _ (NF i)) (wf i)) n ++ repeat (@nzero _ (NF i), @nmul _ (NF i) (@nofZ _ (NF i) (-1)) (wf i)) n)
     (map (fun z => @cadd _ (NF i) z (rootf i z)) (map (hpf i) (zk_p (gf i))) ++ map (fun z => @csub _ (NF i) z (rootf i z)) (map (hpf i) (zk_p (gf i))))
     (@nmul _ (NF i) (zk_k (gf i)) (@ndiv _ (NF i) (@none _ (NF i)) (cre (@cprod _ (NF i) (map (fun pi => @cmul _ (NF i) (@nofZ _ (NF i) (-1), @nzero _ (NF i)) pi) (zk_p (gf i)))))))).
  assert (EQ : lp2bs_zpk_dyn g (Some wo) (Some bw) = Ok (mkZpk zs (map (fun z => cadd z (root z)) (map hp (zk_p g)) ++ map (fun z => csub z (root z)) (map hp (zk_p g))) (zk_k g * (1 / cre den)))).
  { unfold lp2bs_zpk_dyn, relative_degree_dyn. rewrite Gz. cbn [length Nat.ltb Nat.leb bind map app fold_left]. rewrite !map_map. unfold zs, n. rewrite Nat.sub_0_r. reflexivity. }
  assert (D0 : cre den <> 0).
  { assert (Hd : hom (zk_p g) C0 C1 <> C0) by (rewrite hom_1; apply root_product_neq0, NI0).
    assert (Im : cim (hom (zk_p g) C0 C1) = 0) by apply (hom_real _ 0 1), CC.
    unfold den. rewrite (map_ext_in (fun pi => cmul (-1, 0) pi) cneg) by (intros; apply C_ext; cbn; ring). rewrite !cprod_cpl, cpl_map_neg. intros Q. apply Hd. apply C_ext; assumption. }
  split; [exact Lp|]. split; [exact EQ|]. split; [|split].
  - intros i Vi. destruct (gf_len i Vi) as [Z L]. unfold lp2bs_zpk_dyn, relative_degree_dyn. rewrite Z. cbn [length Nat.ltb Nat.leb bind map app fold_left]. rewrite !map_map, L, Nat.sub_0_r. reflexivity.
  - destruct (lp2bs_eq g wo bw Gz NI0 CC) as [f' [EQ' [Ez [Ep _]]]]. rewrite EQ in EQ'. injection EQ' as <-. split; [|split].
    + cbn [zk_z]. apply Forall_forall. intros z Hz. unfold zs in Hz. apply in_app_or in Hz. destruct Hz as [Hz|Hz]; apply repeat_spec in Hz; subst z; reflexivity.
    + rewrite Ep. apply quad_Forall; [pose proof wo_pos; lra|]. apply Forall_forall. intros z Hz. apply in_map_iff in Hz. destruct Hz as [p [<- Hp]].
      rewrite Forall_forall in Gp. apply inv_stable; [unfold bw; lra|apply Gp, Hp].
    + cbn [zk_z zk_p]. unfold zs. rewrite !app_length, !map_length, !repeat_length. fold n. lia.
  - intros sg. destruct (H sg) as [m [Pm Nm]]. exists (mkZpk zs m (zk_k g * (1 / cre den))). split; [split; [reflexivity|split; [exact Pm|reflexivity]]|].
    assert (SH : forall i, V i /\ pat i = sg -> V i) by (intros i [Vi _]; exact Vi).
    split; [|split]; cbn [zk_z zk_p zk_k].
    + apply lnapp_app; apply lnapp_repeat; (split; [apply napp_zero|]); apply napp_mul; try (apply (napp_shrink pr em V _ _ _ SH); exact NW).
      * apply napp_one.
      * apply (napp_shrink pr em V _ _ _ SH); exact N1'.
    + exact Nm.
    + apply (napp_shrink pr em V _ _ _ SH). apply napp_mul; [exact NK|]. apply napp_div; [exact D0|apply napp_one|].
      refine (proj1 (cnapp_prod I pr em V sz _ _ _ _ _ (cnapp_one I pr em V sz))).
      apply (lnapp_map I pr em V sz _ _ (fun pi => cmul (-1, 0) pi) (fun i pi => @cmul _ (NF i) (@nofZ _ (NF i) (-1), @nzero _ (NF i)) pi)); [|exact NP].
      intros k Hk Nk. apply cnapp_mul; [|exact Nk]. split; [exact N1'|apply napp_zero].
Qed.

Lemma stage_band2 bt : (bt = Bandpass \/ bt = Bandstop) -> conj_closed (zk_p g) -> no_double bt (zk_p g) W0 W1 ->
  staged (band2 bt g W0 W1) (fun i => @band2 _ (NF i) (T i) bt (gf i) (w0 i) (w1 i)) good.
Proof. intros [-> | ->] CC ND; [apply stage_lp2bp; exact ND|apply stage_lp2bs; assumption]. Qed.
End Stage.

(** The bilinear transform and the polynomial form do not mind the order. *)
Lemma cprod_perm l m : Permutation l m -> cprod l = cprod m.
Proof. intros P. rewrite !cprod_cpl. induction P; [reflexivity|rewrite !cpl_cons, IHP; reflexivity|rewrite !cpl_cons; ring|congruence]. Qed.
Lemma bilinear_upto h h0 fs k0 : same_upto h h0 -> bilinear_zpk_dyn h0 fs = Ok k0 -> exists k, bilinear_zpk_dyn h fs = Ok k /\ same_upto k k0.
Proof.
  destruct h as [hz hp hk], h0 as [z0 p0 q0]. intros [Z [P K]]. cbn [zk_z zk_p zk_k] in *. subst hz hk. unfold bilinear_zpk_dyn, relative_degree_dyn. cbn [zk_z zk_p zk_k].
  rewrite (Permutation_length P). destruct (Nat.ltb _ _); [discriminate|]. cbn [bind]. intros Q. injection Q as <-. eexists. split; [reflexivity|]. split; [reflexivity|].
  split; cbn [zk_p zk_k]; [apply Permutation_map; exact P|]. rewrite (cprod_perm _ _ (Permutation_map _ P)). reflexivity.
Qed.
Lemma digital_upto an h h0 k0 : same_upto h h0 -> to_digital an h0 = Ok k0 -> exists k, to_digital an h = Ok k /\ same_upto k k0.
Proof. intros S. unfold to_digital. destruct an; [intros Q; injection Q as <-; exists h; split; [reflexivity|exact S]|apply bilinear_upto; exact S]. Qed.
Lemma bilinear_perm h h0 fs k0 : same_perm h h0 -> bilinear_zpk_dyn h0 fs = Ok k0 -> exists k, bilinear_zpk_dyn h fs = Ok k /\ same_perm k k0.
Proof.
  destruct h as [hz hp hk], h0 as [z0 p0 q0]. intros [Z [P K]]. cbn [zk_z zk_p zk_k] in *. subst hk. unfold bilinear_zpk_dyn, relative_degree_dyn. cbn [zk_z zk_p zk_k].
  rewrite (Permutation_length P), (Permutation_length Z). destruct (Nat.ltb _ _); [discriminate|]. cbn [bind]. intros Q. injection Q as <-. eexists. split; [reflexivity|].
  split; [|split]; cbn [zk_z zk_p zk_k]; [apply Permutation_app_tail, Permutation_map; exact Z|apply Permutation_map; exact P|].
  rewrite (cprod_perm _ _ (Permutation_map _ P)), (cprod_perm _ _ (Permutation_map _ Z)). reflexivity.
Qed.
Lemma digital_perm an h h0 k0 : same_perm h h0 -> to_digital an h0 = Ok k0 -> exists k, to_digital an h = Ok k /\ same_perm k k0.
Proof. intros S. unfold to_digital. destruct an; [intros Q; injection Q as <-; exists h; split; [reflexivity|exact S]|apply bilinear_perm; exact S]. Qed.
