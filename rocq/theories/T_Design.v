(** Properties C43, C44, C47-C51, C53, C54: polynomials, frequency transformations and
    analog prototypes. *)
From Coq Require Import List Arith ZArith Reals Permutation Sorted Lra Lia.
From Verif Require Import Base Num Trans M_Complex M_Filter M_Design Cx S_Bessel S_Design P_Bessel P_Poly P_Lp P_Sort P_Proto P_Cheb.
Import ListNotations.
Local Open Scope R_scope.

Example sort_contract_met : is_sort isort.
Proof. exact isort_is_sort. Qed.

(** C43 *)
Theorem C43_poly sort z : is_sort sort ->
  exists a, poly_dyn sort z = Ok a /\ length a = S (length z) /\ nth 0 a C0 = C1 /\
    (forall x, poly_at a x = root_product z x) /\
    (conj_closed z -> Forall (fun c => cim c = 0) a).
Proof.
  intros Hs. exists (pcoef z). split; [apply poly_dyn_ok; exact Hs|]. split; [apply pcoef_length|]. split; [apply pcoef_head|].
  split; [intros x; apply pcoef_eval|apply conj_closed_real].
Qed.
Print Assumptions C43_poly.

(** The coefficients are those of the polynomial also when it has no real coefficients. *)
Example C43_concrete : exists a, poly_dyn isort [(1, 1); (2, 0)] = Ok a /\ nth 1 a C0 = (-3, -1) /\ nth 2 a C0 = (2, 2).
Proof.
  exists (pcoef [(1, 1); (2, 0)]). split; [apply poly_dyn_ok, isort_is_sort|].
  unfold pcoef. cbn. split; cx; lra.
Qed.

(** C44 *)
Theorem C44_zpk2tf_partial sort order z p k : is_sort sort -> conj_closed z -> conj_closed p ->
  (length z <= order)%nat -> (length p <= order)%nat ->
  exists b a, zpk2tf_dyn sort order z p k = Ok (mkBa b a) /\
    length b = (order + 1)%nat /\ length a = (order + 1)%nat /\
    (forall x, rpoly_at b x = (RtoC k * root_product z x * cpow x (order - length z))%C) /\
    (forall x, rpoly_at a x = (root_product p x * cpow x (order - length p))%C) /\
    (length z = length p -> forall x, x <> C0 -> ~ In x p -> (rpoly_at b x / rpoly_at a x)%C = H (mkZpk z p k) x).
Proof.
  intros Hs Hz Hp Lz Lp. exists (padded_coef order k z), (padded_coef order 1 p).
  split; [apply zpk2tf_ok; exact Hs|]. unfold padded_coef at 1 2. rewrite !map_length, !seq_length. split; [reflexivity|]. split; [reflexivity|].
  assert (Ea : forall x, rpoly_at (padded_coef order 1 p) x = (root_product p x * cpow x (order - length p))%C).
  { intros x. rewrite padded_eval by assumption. change (RtoC 1) with C1. generalize (root_product p x) (cpow x (order - length p)). intros u v. cx; ring. }
  split; [intros x; apply padded_eval; assumption|]. split; [exact Ea|].
  intros Hl x Hx Hn. rewrite Ea, padded_eval by assumption. unfold H. cbn [zk_k zk_z zk_p]. rewrite <- Hl.
  assert (Hpw : cpow x (order - length z) <> C0).
  { apply cpow_neq0. exact Hx. }
  pose proof (root_product_neq0 p x Hn) as Hr. field. split; assumption.
Qed.
Print Assumptions C44_zpk2tf_partial.

Theorem C44_zpk2tf_refuted sort : is_sort sort ->
  exists order z p k x b a, conj_closed z /\ conj_closed p /\ (length z <= order)%nat /\ (length p <= order)%nat /\
    zpk2tf_dyn sort order z p k = Ok (mkBa b a) /\ x <> C0 /\ ~ In x p /\
    (rpoly_at b x / rpoly_at a x)%C <> H (mkZpk z p k) x.
Proof.
  intros Hs. exists 1%nat, [], [RtoC (-1)], 1, (RtoC 2), (padded_coef 1 1 []), (padded_coef 1 1 [RtoC (-1)]).
  assert (Hc : conj_closed [RtoC (-1)]) by (unfold conj_closed; cbn [map]; rewrite cconj_RtoC; apply Permutation_refl).
  split; [constructor|]. split; [exact Hc|]. split; [cbn; lia|]. split; [cbn; lia|]. split; [apply zpk2tf_ok; exact Hs|].
  split; [intros Q; apply (f_equal fst) in Q; cbn in Q; lra|].
  split; [intros [Q|[]]; apply (f_equal fst) in Q; cbn in Q; lra|].
  rewrite !padded_eval by (try (cbn; lia); try exact Hc; constructor). unfold H. cbn [zk_k zk_z zk_p root_product fold_right length Nat.sub cpow].
  intros Q. apply (f_equal fst) in Q. cbn in Q. field_simplify in Q; lra.
Qed.
Print Assumptions C44_zpk2tf_refuted.

(** C47 *)
Theorem C47_bilinear f fs :
  (~ proper f -> bilinear_zpk_dyn f fs = Panic) /\
  (proper f -> real_filter f -> ~ In (RtoC (2 * fs)) (zk_z f) -> ~ In (RtoC (2 * fs)) (zk_p f) ->
   exists f', bilinear_zpk_dyn f fs = Ok f' /\
     length (zk_z f') = length (zk_p f') /\ length (zk_p f') = length (zk_p f) /\ real_filter f' /\
     (forall x, x <> RtoC (-1) -> ~ In (RtoC (2 * fs)%R * ((x - C1) / (x + C1)))%C (zk_p f) ->
        H f' x = H f (RtoC (2 * fs)%R * ((x - C1) / (x + C1)))%C) /\
     (0 < fs -> Forall2 (fun p p' => cnorm_sqr p' < 1 <-> cre p < 0) (zk_p f) (zk_p f'))).
Proof.
  split; [intros Hn; apply bilinear_panics; unfold proper in Hn; lia|].
  intros Hpr Hr Hz Hp. destruct (bilinear_total f fs Hpr) as [f' E']. exists f'. split; [exact E'|].
  destruct (bilinear_eq f fs f' E') as [_ [Ez [Ep Ek]]]. unfold proper in Hpr.
  split; [rewrite Ez, Ep, app_length, !map_length, repeat_length; lia|]. split; [rewrite Ep; apply map_length|].
  split.
  { destruct Hr as [Rz Rp]. split; [rewrite Ez|rewrite Ep].
    - apply conj_closed_app; [apply conj_closed_map; [apply bil_conj|exact Rz]|apply conj_closed_repeat; cbn; lra].
    - apply conj_closed_map; [apply bil_conj|exact Rp]. }
  split.
  - intros x Hx Hn.
    assert (Hx1 : (x + C1)%C <> C0).
    { intros Q. apply Hx. destruct x as [a b]. pose proof (f_equal fst Q) as Q1. pose proof (f_equal snd Q) as Q2. cbn in Q1, Q2. apply C_ext; cbn; lra. }
    replace (RtoC (2 * fs)%R * ((x - C1) / (x + C1)))%C with (RtoC (2 * fs)%R * (x - C1) / (x + C1))%C in * by (field; exact Hx1).
    apply (bilinear_H f fs Hz Hp); assumption.
  - intros Hf. rewrite Ep. clear - Hf Hp. induction (zk_p f) as [|r l IH]; cbn [map]; constructor.
    + apply bil_inside; [exact Hf|]. intros Q. apply Hp. left. exact Q.
    + apply IH. intros Q. apply Hp. right. exact Q.
Qed.
Print Assumptions C47_bilinear.
Example C47_hyp_met : let f := mkZpk [RtoC (-3)] [RtoC (-1); RtoC (-2)] 2 in
  proper f /\ real_filter f /\ ~ In (RtoC (2 * 1)) (zk_z f) /\ ~ In (RtoC (2 * 1)) (zk_p f).
Proof.
  cbv zeta. cbn [zk_z zk_p]. split; [unfold proper; cbn; lia|]. split.
  - split; unfold conj_closed; cbn [map zk_z zk_p]; rewrite ?cconj_RtoC; apply Permutation_refl.
  - split; intros Q; repeat (destruct Q as [Q|Q]; [apply (f_equal fst) in Q; cbn in Q; lra|]); destruct Q.
Qed.

(** C48 *)
Lemma lp2lp_total f wo : proper f -> exists f', lp2lp_zpk_dyn f (Some wo) = Ok f'.
Proof. intros Hp. unfold lp2lp_zpk_dyn. rewrite (relative_degree_le _ _ Hp). eexists. reflexivity. Qed.
Theorem C48_lp2lp (f : @ZpkFormatFilter R) wo :
  (~ proper f -> lp2lp_zpk_dyn f (Some wo) = Panic) /\
  (proper f -> wo <> 0 ->
   exists f', lp2lp_zpk_dyn f (Some wo) = Ok f' /\
     length (zk_z f') = length (zk_z f) /\ length (zk_p f') = length (zk_p f) /\
     (forall s, ~ In (s / RtoC wo)%C (zk_p f) -> H f' s = H f (s / RtoC wo)%C) /\
     (real_filter f -> real_filter f') /\ (0 < wo -> stable_analog f -> stable_analog f')) /\
  lp2lp_zpk_dyn f None = lp2lp_zpk_dyn f (Some 1).
Proof.
  split; [intros Hn; unfold lp2lp_zpk_dyn; rewrite relative_degree_gt by (unfold proper in Hn; lia); reflexivity|].
  split; [|reflexivity]. intros Hpr Hw. destruct (lp2lp_total f wo Hpr) as [f' E']. exists f'. split; [exact E'|].
  destruct (lp2lp_eq f wo f' E') as [_ [Ez [Ep Ek]]]. rewrite Ez, Ep, !map_length. split; [reflexivity|]. split; [reflexivity|].
  split; [intros s Hn; apply (lp2lp_H f wo); assumption|]. split.
  - intros [Rz Rp]. split; [rewrite Ez|rewrite Ep]; (apply conj_closed_map; [intros r; apply scale_conj|assumption]).
  - intros H0 Hs. unfold stable_analog. rewrite Ep. revert Hs. apply Forall_map_in. intros r. apply scale_stable. exact H0.
Qed.
Print Assumptions C48_lp2lp.

(** C49: filters without (finite) zeros. *)
Theorem C49_lp2hp_partial (f : @ZpkFormatFilter R) wo :
  (~ proper f -> lp2hp_zpk_dyn f (Some wo) = Panic) /\
  (zk_z f = [] -> conj_closed (zk_p f) -> ~ In C0 (zk_p f) ->
   exists f', lp2hp_zpk_dyn f (Some wo) = Ok f' /\
     length (zk_z f') = length (zk_p f) /\ length (zk_p f') = length (zk_p f) /\
     (forall s, s <> C0 -> ~ In (RtoC wo / s)%C (zk_p f) -> H f' s = H f (RtoC wo / s)%C) /\
     real_filter f' /\ (0 < wo -> stable_analog f -> stable_analog f')) /\
  lp2hp_zpk_dyn f None = lp2hp_zpk_dyn f (Some 1).
Proof.
  split; [intros Hn; unfold lp2hp_zpk_dyn; rewrite relative_degree_gt by (unfold proper in Hn; lia); reflexivity|].
  split; [|reflexivity]. intros Z0 Hc H0. destruct (lp2hp_eq f wo Z0 H0 Hc) as [f' [E' [Ez [Ep Ek]]]]. exists f'. split; [exact E'|].
  rewrite Ez, Ep, map_length, repeat_length. split; [reflexivity|]. split; [reflexivity|].
  split; [intros s Hs Hn; apply (lp2hp_H f wo); assumption|]. split.
  - split; [rewrite Ez; apply conj_closed_repeat; reflexivity|rewrite Ep; apply conj_closed_map; [intros r; apply inv_conj|assumption]].
  - intros Hw Hs. unfold stable_analog. rewrite Ep. revert Hs. apply Forall_map_in. intros r. apply inv_stable. exact Hw.
Qed.
Print Assumptions C49_lp2hp_partial.
Example C49_hyp_met : let f := mkZpk [] [RtoC (-1); RtoC (-2)] 2 in zk_z f = [] /\ conj_closed (zk_p f) /\ ~ In C0 (zk_p f) /\ stable_analog f.
Proof.
  cbv zeta. cbn [zk_z zk_p]. split; [reflexivity|]. split; [unfold conj_closed; cbn [map]; rewrite !cconj_RtoC; apply Permutation_refl|].
  split; [intros [Q|[Q|[]]]; apply (f_equal fst) in Q; cbn in Q; lra|]. repeat constructor; cbn; lra.
Qed.

(** With a zero the result is wrong: for (s+1)/(s+1) the high-pass at s=1 is -1-2i. *)
Theorem C49_lp2hp_refuted : exists (f f' : @ZpkFormatFilter R) wo s,
  real_filter f /\ proper f /\ ~ In C0 (zk_z f) /\ ~ In C0 (zk_p f) /\ 0 < wo /\ s <> C0 /\ ~ In (RtoC wo / s)%C (zk_p f) /\
  lp2hp_zpk_dyn f (Some wo) = Ok f' /\ H f' s <> H f (RtoC wo / s)%C.
Proof.
  exists (mkZpk [RtoC (-1)] [RtoC (-1)] 1). eexists. exists 1, C1.
  assert (Hc : conj_closed [RtoC (-1)]) by (unfold conj_closed; cbn [map]; rewrite cconj_RtoC; apply Permutation_refl).
  assert (Hn : ~ In C0 [RtoC (-1)]) by (intros [Q|[]]; apply (f_equal fst) in Q; cbn in Q; lra).
  split; [split; exact Hc|]. split; [unfold proper; cbn; lia|]. split; [exact Hn|]. split; [exact Hn|]. split; [lra|].
  split; [intros Q; apply (f_equal fst) in Q; cbn in Q; lra|].
  split; [intros [Q|[]]; apply (f_equal fst) in Q; cbn in Q; field_simplify in Q; lra|].
  split; [reflexivity|]. intros Q. apply (f_equal snd) in Q. cbn in Q. field_simplify in Q; lra.
Qed.
Print Assumptions C49_lp2hp_refuted.

(** C50 *)
Theorem C50_lp2bp (f : @ZpkFormatFilter R) wo bw :
  (~ proper f -> lp2bp_zpk_dyn f (Some wo) (Some bw) = Panic) /\
  (proper f -> bw <> 0 ->
   exists f', lp2bp_zpk_dyn f (Some wo) (Some bw) = Ok f' /\
     length (zk_z f') = (length (zk_p f) + length (zk_z f))%nat /\ length (zk_p f') = (2 * length (zk_p f))%nat /\
     (forall s, s <> C0 -> ~ In ((s * s + RtoC (wo * wo)%R) / (s * RtoC bw))%C (zk_p f) ->
        H f' s = H f ((s * s + RtoC (wo * wo)%R) / (s * RtoC bw))%C) /\
     (real_filter f -> real_filter f') /\ (wo <> 0 -> 0 < bw -> stable_analog f -> stable_analog f')) /\
  lp2bp_zpk_dyn f None None = lp2bp_zpk_dyn f (Some 1) (Some 1).
Proof.
  split; [intros Hn; unfold lp2bp_zpk_dyn; rewrite relative_degree_gt by (unfold proper in Hn; lia); reflexivity|].
  split; [|reflexivity]. intros Hpr Hb.
  assert (Ht : exists f', lp2bp_zpk_dyn f (Some wo) (Some bw) = Ok f') by (unfold lp2bp_zpk_dyn; rewrite (relative_degree_le _ _ Hpr); eexists; reflexivity).
  destruct Ht as [f' E']. exists f'. split; [exact E'|].
  destruct (lp2bp_eq f wo bw f' E') as [_ [Ez [Ep Ek]]]. unfold proper in Hpr.
  split; [rewrite Ez, !app_length, !map_length, repeat_length; lia|]. split; [rewrite Ep, app_length, !map_length; lia|].
  split; [intros s Hs Hn; apply (lp2bp_H f wo bw); assumption|]. split.
  - intros [Rz Rp]. split; [rewrite Ez|rewrite Ep].
    + apply conj_closed_app; [|apply conj_closed_repeat; reflexivity]. apply quad_conj_closed, conj_closed_map; [|exact Rz]. intros r. apply scale_conj.
    + apply quad_conj_closed, conj_closed_map; [|exact Rp]. intros r. apply scale_conj.
  - intros Hw H0 Hs. unfold stable_analog. rewrite Ep. apply quad_Forall; [exact Hw|]. revert Hs. apply Forall_map_in. intros r. apply scale_stable. lra.
Qed.
Print Assumptions C50_lp2bp.

(** C51: filters without (finite) zeros. *)
Theorem C51_lp2bs_partial (f : @ZpkFormatFilter R) wo bw :
  (~ proper f -> lp2bs_zpk_dyn f (Some wo) (Some bw) = Panic) /\
  (zk_z f = [] -> conj_closed (zk_p f) -> ~ In C0 (zk_p f) ->
   exists f', lp2bs_zpk_dyn f (Some wo) (Some bw) = Ok f' /\
     length (zk_z f') = (2 * length (zk_p f))%nat /\ length (zk_p f') = (2 * length (zk_p f))%nat /\
     (forall s, (s * s + RtoC (wo * wo)%R)%C <> C0 -> ~ In (s * RtoC bw / (s * s + RtoC (wo * wo)%R))%C (zk_p f) ->
        H f' s = H f (s * RtoC bw / (s * s + RtoC (wo * wo)%R))%C) /\
     real_filter f' /\ (wo <> 0 -> 0 < bw -> stable_analog f -> stable_analog f')) /\
  lp2bs_zpk_dyn f None None = lp2bs_zpk_dyn f (Some 1) (Some 1).
Proof.
  split; [intros Hn; unfold lp2bs_zpk_dyn; rewrite relative_degree_gt by (unfold proper in Hn; lia); reflexivity|].
  split; [|reflexivity]. intros Z0 Hc H0. destruct (lp2bs_eq f wo bw Z0 H0 Hc) as [f' [E' [Ez [Ep Ek]]]]. exists f'. split; [exact E'|].
  split; [rewrite Ez, app_length, !repeat_length; lia|]. split; [rewrite Ep, app_length, !map_length; lia|].
  split; [intros s Hs Hn; apply (lp2bs_H f wo bw); assumption|]. split.
  - split; [rewrite Ez; apply conj_closed_pm|rewrite Ep; apply quad_conj_closed, conj_closed_map; [intros r; apply inv_conj|assumption]].
  - intros Hw Hb Hs. unfold stable_analog. rewrite Ep. apply quad_Forall; [exact Hw|]. revert Hs. apply Forall_map_in. intros r. apply inv_stable. lra.
Qed.
Print Assumptions C51_lp2bs_partial.

Theorem C51_lp2bs_refuted : exists (f f' : @ZpkFormatFilter R) wo bw s,
  real_filter f /\ proper f /\ ~ In C0 (zk_z f) /\ ~ In C0 (zk_p f) /\ 0 < wo /\ 0 < bw /\
  (s * s + RtoC (wo * wo)%R)%C <> C0 /\ ~ In (s * RtoC bw / (s * s + RtoC (wo * wo)%R))%C (zk_p f) /\
  lp2bs_zpk_dyn f (Some wo) (Some bw) = Ok f' /\ H f' s <> H f (s * RtoC bw / (s * s + RtoC (wo * wo)%R))%C.
Proof.
  set (f := mkZpk [RtoC (-1)] [RtoC (-1)] 1). exists f.
  destruct (lp2bs_zpk_dyn f (Some 1) (Some 1)) as [f'| | |] eqn:E'; try discriminate E'.
  exists f', 1, 1, C0.
  assert (Hc : conj_closed [RtoC (-1)]) by (unfold conj_closed; cbn [map]; rewrite cconj_RtoC; apply Permutation_refl).
  assert (Hn : ~ In C0 [RtoC (-1)]) by (intros [Q|[]]; apply (f_equal fst) in Q; cbn in Q; lra).
  split; [split; exact Hc|]. split; [unfold proper; cbn; lia|]. split; [exact Hn|]. split; [exact Hn|]. split; [lra|]. split; [lra|].
  split; [intros Q; apply (f_equal fst) in Q; cbn in Q; lra|].
  split; [intros [Q|[]]; apply (f_equal fst) in Q; cbn in Q; field_simplify in Q; lra|].
  split; [exact E'|]. intros Q.
  unfold lp2bs_zpk_dyn in E'. rewrite relative_degree_le in E' by (cbn; lia). cbn [bind unwrap_or zk_z zk_p zk_k f map] in E'.
  cbn [fst snd map app] in E'.
  match type of E' with context [csub ?a (csqrt ?u)] => set (p0 := a) in E' end.
  match type of E' with context [csub p0 (csqrt ?u)] => set (q := csqrt u) in E'; assert (Hq : (q * q = u)%C) by apply csqrt_sq end.
  match type of E' with context [csqrt ?u] => set (r := csqrt u) in E'; assert (Hr : (r * r = u)%C) by apply csqrt_sq end.
  assert (Hp0 : p0 = RtoC (-1 / 2)) by (unfold p0; apply C_ext; cbn; field).
  assert (Hq' : (q * q = RtoC (-3 / 4)%R)%C) by (rewrite Hq, Hp0; apply C_ext; cbn; field).
  assert (Hr' : (r * r = RtoC (-1))%C) by (rewrite Hr; apply C_ext; cbn; field).
  clearbody p0 q r. clear Hq Hr. subst p0.
  assert (Hi : cim r * cim r = 1).
  { pose proof (f_equal fst Hr') as A1. pose proof (f_equal snd Hr') as A2. cbn in A1, A2. unfold cim. destruct r as [a b]. cbn in *.
    assert (A3 : a * b = 0) by lra. apply Rmult_integral in A3. destruct A3; subst; nra. }
  assert (Eh : H f' C0 = RtoC (-1)).
  { unfold H. injection E' as <-. cbn [zk_z zk_p zk_k repeat length Nat.sub app root_product fold_right].
    match goal with |- context [cmul (csub C0 (cadd ?P q)) ?rest] => replace (cmul (csub C0 (cadd P q)) rest) with C1 end.
    2:{ transitivity (RtoC (1 / 4)%R - q * q)%C; [rewrite Hq'; apply C_ext; cbn; field|]. apply C_ext; cbn; field. }
    apply C_ext; cbn; field_simplify; nra. }
  replace (C0 * RtoC 1 / (C0 * C0 + RtoC (1 * 1)%R))%C with C0 in Q by (apply C_ext; cbn; field).
  replace (H f C0) with C1 in Q by (apply C_ext; cbn; field).
  rewrite Eh in Q. apply (f_equal fst) in Q. cbn in Q. lra.
Qed.
Print Assumptions C51_lp2bs_refuted.

(** C53 *)
Theorem C53_cheb1ap (n : nat) (rp : R) : 0 < rp ->
  let f := cheb1ap_dyn n rp in
  zk_z f = [] /\ length (zk_p f) = n /\ stable_analog f /\ conj_closed (zk_p f) /\
  forall w, gain_sqr f w = 1 / (1 + (Rpower 10 (rp / 10) - 1) * (chebT n w) ^ 2).
Proof.
  intros Hr f. unfold f, gain_sqr. destruct n as [|n].
  - split; [reflexivity|]. split; [reflexivity|]. split; [constructor|]. split; [apply conj_closed_nil|].
    intros w. rewrite cheb1_order0. cbn [chebT pow]. rewrite !Rmult_1_r. reflexivity.
  - rewrite cheb1ap_eq by lia. unfold stable_analog. cbn [zk_z zk_p]. split; [reflexivity|]. split; [rewrite map_length, seq_length; reflexivity|].
    assert (He : 0 < eps1 rp) by (apply eps1_pos; exact Hr). split; [|split].
    + apply Forall_forall. intros p Hp. apply in_map_iff in Hp. destruct Hp as [k [<- Hk]]. apply in_seq in Hk. apply cp_stable; [lia|exact He|lia].
    + apply cp_closed; lia.
    + intros w. rewrite cheb1_mag by (assumption || lia). cbn [pow]. rewrite Rmult_1_r. reflexivity.
Qed.
Print Assumptions C53_cheb1ap.

(** C54.  At frequency zero the value is 1; elsewhere the Chebyshev II response. *)
Theorem C54_cheb2ap (n : nat) (rs : R) : (0 < n)%nat -> 0 < rs ->
  let f := cheb2ap_dyn n rs in
  let eps2 := 1 / (Rpower 10 (rs / 10) - 1) in
  length (zk_p f) = n /\ stable_analog f /\ conj_closed (zk_p f) /\ conj_closed (zk_z f) /\
  Forall (fun z => cre z = 0) (zk_z f) /\
  H f C0 = C1 /\
  (forall w, w <> 0 -> chebT n (1 / w) <> 0 -> gain_sqr f w = 1 / (1 + 1 / (eps2 * (chebT n (1 / w)) ^ 2))) /\
  (forall w, w <> 0 -> chebT n (1 / w) = 0 -> gain_sqr f w = 0).
Proof.
  intros Hn Hr f e. unfold f, gain_sqr. rewrite cheb2ap_eq by assumption. unfold stable_analog. cbn [zk_z zk_p].
  split; [rewrite !map_length, seq_length; reflexivity|].
  split; [apply P2_stable; assumption|]. split; [apply P2_closed; assumption|]. split; [apply Z2_closed; assumption|].
  split.
  { apply Forall_forall. intros z Hz. apply in_map_iff in Hz. destruct Hz as [x [<- _]]. reflexivity. }
  split; [apply cheb2_dc; assumption|].
  pose proof (gt2 rs Hr) as G.
  split; intros w Hw HT; rewrite cheb2_mag by assumption.
  - unfold e. set (T := chebT n (1 / w)) in *. cbn [pow]. assert (0 < T * T) by nra. field. repeat split; try lra.
  - rewrite HT. field. lra.
Qed.
Print Assumptions C54_cheb2ap.
Example C54_zero_order : @cheb2ap_dyn R RNum RTrans 0 1 = mkZpk [] [] 1.
Proof. reflexivity. Qed.
