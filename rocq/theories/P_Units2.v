(** The statistics under a change of unit by a power of two. *)
From Coq Require Import Reals ZArith QArith SpecFloat List Lia Lra Bool Arith.
From Flocq Require Import Core BinarySingleNaN.
From Verif Require Import Base Num M_Stats S_Float P_Float P_FloatStats P_FloatCplx S_Mirror P_Mirror P_Order S_Units P_Units P_Ext.
Import ListNotations.
Local Open Scope R_scope.

Section Units2.
Variables (prec emax : Z) (szero : bool).
Hypothesis PP : (1 < prec < emax)%Z.
Local Instance NU2 : Num spec_float := SFNum prec emax szero.
Let Hp : Prec_gt_0 prec. Proof. unfold Prec_gt_0; lia. Qed.
Let He : Prec_lt_emax prec emax. Proof. unfold Prec_lt_emax; lia. Qed.
Notation emin := (SpecFloat.emin prec emax).
Notation fin := (finite prec emax).
Notation b2 := (bpow radix2).
Notation R' := (Rk prec emax).

(** ** Signs *)
Definition nn (v : spec_float) : Prop := match v with S754_infinity s | S754_finite s _ _ => s = false | _ => True end.
Lemma nn_val v : nn v -> 0 <= fval v.
Proof. destruct v as [s|s| |s m e]; cbn; intros H; try lra. subst s. rewrite Rmult_1_l. apply Rmult_le_pos; [apply (IZR_le 0); lia|]. apply powerRZ_le. lra. Qed.
Lemma nn_add u v : nn u -> nn v -> nn (SFadd prec emax u v).
Proof.
  destruct u as [s|s| |s m e], v as [t|t| |t n g]; cbn [nn]; intros; subst; cbn [SFadd Bool.eqb]; try reflexivity; try exact I.
  - destruct (Bool.eqb s t); exact I.
  - pose proof (norm_plus prec emax (cond_Zopp false (Zpos (fst (shl_align m e (Z.min e g)))) + cond_Zopp false (Zpos (fst (shl_align n g (Z.min e g))))) (Z.min e g) ltac:(cbn; lia)) as Q.
    match goal with |- context [SpecFloat.binary_normalize ?a ?b ?c ?d ?e] => destruct (SpecFloat.binary_normalize a b c d e) end; cbn in *; try exact I; exact Q.
Qed.
Lemma nn_square v : nn (SFmul prec emax v v).
Proof. pose proof (square_plus prec emax v) as Q. destruct (SFmul prec emax v v); cbn in *; try exact I; exact Q. Qed.
Lemma nn_sum l a : Forall nn l -> nn a -> nn (fold_left (SFadd prec emax) l a).
Proof. intros H. revert a. induction H as [|v l Hv H IH]; intros a Ha; cbn [fold_left]; [exact Ha|]. apply IH, nn_add; assumption. Qed.
Lemma nn_div u n : nn u -> (0 < n)%nat -> nn (SFdiv prec emax u (SpecFloat.binary_normalize prec emax (Z.of_nat n) 0 false)).
Proof.
  intros H Hn. pose proof (norm_plus prec emax (Z.of_nat n) 0 ltac:(lia)) as Q. set (d := SpecFloat.binary_normalize _ _ _ _ _) in *.
  destruct u as [s|s| |s m e], d as [t|t| |t k g]; cbn [nn plus] in *; subst; cbn [SFdiv xorb]; try reflexivity; try exact I.
  destruct (SFdiv_core_binary _ _ _ _ _ _) as [[mz ez] lz]. pose proof (aux_plus prec emax mz ez lz) as A. cbn [xorb].
  destruct (SpecFloat.binary_round_aux prec emax false mz ez lz); cbn in *; try exact I; exact A.
Qed.

(** ** Quotients of equally scaled numbers *)
Lemma same_of_val u v : fin u -> fin v -> fval u = fval v -> same_number u v.
Proof.
  intros Fu Fv E. destruct (finite_B prec emax u Fu) as [a [-> [Fa Va]]]. destruct (finite_B prec emax v Fv) as [b [-> [Fb Vb]]]. rewrite Va, Vb in E.
  destruct a as [s|s| |s m e B]; try discriminate; destruct b as [t|t| |t n g C]; try discriminate; try exact I.
  - exfalso. symmetry in E. cbn in E. apply eq_0_F2R in E. destruct t; discriminate.
  - exfalso. cbn in E. apply eq_0_F2R in E. destruct s; discriminate.
  - apply B2R_inj in E; try reflexivity. rewrite E. apply signed_refl.
Qed.
Lemma sign_val s m e t n g k : fval (S754_finite t n g) = fval (S754_finite s m e) * b2 k -> t = s.
Proof.
  cbn [fval]. assert (A : 0 < IZR (Zpos m) * powerRZ 2 e) by (apply Rmult_lt_0_compat; [apply (IZR_lt 0); lia|apply powerRZ_lt; lra]).
  assert (B : 0 < IZR (Zpos n) * powerRZ 2 g) by (apply Rmult_lt_0_compat; [apply (IZR_lt 0); lia|apply powerRZ_lt; lra]).
  pose proof (bpow_gt_0 radix2 k) as K. assert (C : 0 < IZR (Zpos m) * powerRZ 2 e * b2 k) by (apply Rmult_lt_0_compat; assumption).
  destruct s, t; intros E; try reflexivity; exfalso; rewrite !Rmult_assoc in *; lra.
Qed.
Lemma div_same k u v u' v' : fin u -> fin v -> fin u' -> fin v' -> fval u' = fval u * b2 k -> fval v' = fval v * b2 k -> fval v <> 0 ->
  same_number (SFdiv prec emax u v) (SFdiv prec emax u' v').
Proof.
  intros Fu Fv Fu' Fv' Eu Ev N. pose proof (bpow_gt_0 radix2 k) as K.
  assert (Q : fval u' / fval v' = fval u / fval v) by (rewrite Eu, Ev; field; split; lra).
  assert (N' : fval v' <> 0) by (rewrite Ev; intros Z; apply Rmult_integral in Z; destruct Z; lra).
  destruct (Rle_lt_dec (Rabs (fval u / fval v)) (fmax prec emax)) as [L|L].
  - destruct (fdiv_ok prec emax Hp He u v Fu Fv N L) as [F1 V1]. destruct (fdiv_ok prec emax Hp He u' v' Fu' Fv' N') as [F2 V2]; [rewrite Q; exact L|].
    apply same_of_val; [exact F1|exact F2|]. rewrite V1, V2, Q. reflexivity.
  - assert (Nu : fval u <> 0). { intros Z. rewrite Z in L. unfold Rdiv in L. rewrite Rmult_0_l, Rabs_R0 in L. pose proof (FM4 prec emax PP). lra. }
    assert (Nu' : fval u' <> 0) by (rewrite Eu; intros Z; apply Rmult_integral in Z; destruct Z; lra).
    destruct (finite_B prec emax u Fu) as [a [Ea [Fa Va]]]. destruct (finite_B prec emax v Fv) as [b [Eb [Fb Vb]]]. destruct (finite_B prec emax u' Fu') as [a' [Ea' [Fa' Va']]]. destruct (finite_B prec emax v' Fv') as [b' [Eb' [Fb' Vb']]].
    assert (Sa : Bsign a' = Bsign a).
    { subst u u'. destruct a as [s|s| |s m e B]; try discriminate; [cbn in Nu; lra|]. destruct a' as [t|t| |t n g C]; try discriminate; [cbn in Nu'; lra|]. cbn [B2SF] in Eu. apply sign_val in Eu. exact Eu. }
    assert (Sb : Bsign b' = Bsign b).
    { subst v v'. destruct b as [s|s| |s m e B]; try discriminate; [cbn in N; lra|]. destruct b' as [t|t| |t n g C]; try discriminate; [cbn in N'; lra|]. cbn [B2SF] in Ev. apply sign_val in Ev. exact Ev. }
    subst u v u' v'. rewrite !(div_equiv prec emax Hp He).
    pose proof (Bdiv_correct prec emax Hp He mode_NE a b) as C. rewrite <- Vb in C. specialize (C N). pose proof (Bdiv_correct prec emax Hp He mode_NE a' b') as C'. rewrite <- Vb' in C'. specialize (C' N').
    rewrite <- Va' in C'. rewrite <- Va in C. rewrite Q in C'. cbn [B2R] in *. destruct (Rlt_bool _ _) eqn:E.
    + destruct C as [C1 [C2 _]], C' as [C1' [C2' _]]. rewrite Fa in C2. rewrite Fa' in C2'. destruct (B_finite prec emax _ C2) as [D1 D2]. destruct (B_finite prec emax _ C2') as [D1' D2'].
      apply same_of_val; [exact D1|exact D1'|]. rewrite D2, D2', C1, C1'. reflexivity.
    + rewrite C, C', Sa, Sb. apply signed_refl.
Qed.

(** ** The statistics *)
Lemma add_Rk k l h u v u' v' : R' k l (b2 h) u u' -> R' k l (b2 h) v v' -> (2 - emax <= l - prec + 1)%Z -> (emin <= h)%Z -> (h + 1 < emax)%Z ->
  R' k (l - prec + 1) (b2 (h + 1)) (SFadd prec emax u v) (SFadd prec emax u' v').
Proof.
  intros (A1 & A2 & A3 & A4 & A5 & A6 & A7) B L H1 H2.
  apply (sum_Rk prec emax PP k l h [v] [v'] ltac:(constructor; [exact B|constructor]) L H1 1%Z 1%Z u u'); try lia; try assumption; try (cbn; lia); try lra.
  - apply (big_grid prec emax); [apply (finite_format prec emax), A1|lia|exact A4].
  - apply (big_grid prec emax); [apply (finite_format prec emax), A2|lia|exact A5].
Qed.
Lemma mean_Rk k l h c x y : Forall2 (R' k l (b2 h)) x y -> x <> [] -> (Z.of_nat (length x) <= 2 ^ c)%Z -> (0 <= c <= prec)%Z -> (2 - emax <= l - prec + 1 - c)%Z -> (emin <= h)%Z -> (h + c < emax)%Z ->
  R' k (l - prec + 1 - c) (b2 (h + c)) (fst (mean x)) (fst (mean y)).
Proof.
  intros H Nx Hn Hc L H1 H2. rewrite !(mean_eq_fold prec emax szero). pose proof (f2_length _ _ _ H) as Le. destruct x as [|u x]; [congruence|]. destruct y as [|v y]; [inversion H|]. cbn [fst]. rewrite Le.
  apply (div_Rk prec emax PP k (l - prec + 1) (h + c)); try lia.
  - apply (nsum_Rk prec emax PP); try assumption; lia.
  - cbn [length] in *. lia.
Qed.
Lemma sq_list k l h x y (f g : spec_float -> spec_float) : Forall2 (fun u v => R' k l (b2 h) (f u) (g v)) x y -> (2 - emax <= l + l)%Z -> (emin <= h + h < emax)%Z ->
  Forall2 (R' (k + k) (l + l) (b2 (h + h))) (map (fun u => SFmul prec emax (f u) (f u)) x) (map (fun v => SFmul prec emax (g v) (g v)) y).
Proof. intros H L U. apply (map_rel _ _ _ _ _ _ H). intros u v Huv. apply (mul_Rk prec emax PP); assumption. Qed.

Variables c lo hi k : Z.
Hypothesis RF : range_fits prec emax c lo hi.
Variables x y : list spec_float.
Hypothesis Hn : (Z.of_nat (length x) <= 2 ^ c)%Z.
Hypothesis Hxy : Forall2 (times_power prec emax k) x y.
Hypothesis Ox : Forall (ordinary prec emax lo hi) x.
Hypothesis Oy : Forall (ordinary prec emax lo hi) y.
Lemma start : Forall2 (R' k lo (b2 hi)) x y.
Proof.
  clear Hn. revert Ox Oy. induction Hxy as [|u v x' y' Huv H IH]; intros A B; constructor.
  - inversion A as [|? ? A1 ?]; inversion B as [|? ? B1 ?]; subst. destruct Huv as (U1 & U2 & U3). destruct A1 as (_ & A1 & A2). destruct B1 as (_ & B1 & B2).
    unfold Rk, big. rewrite !bpow_powerRZ. tauto.
  - inversion A; inversion B; subst. auto.
Qed.
Let E1 : (emin <= hi)%Z. Proof. destruct RF as (A & B & C & D & E). unfold SpecFloat.emin. lia. Qed.
Lemma len_y : length y = length x.
Proof. apply (f2_length _ _ _ Hxy). Qed.
Ltac rf := destruct RF as (? & ? & ? & ? & ?); unfold SpecFloat.emin in *; lia.
Lemma mean_units : x <> [] -> R' k (lo - prec + 1 - c) (b2 (hi + c)) (fst (mean x)) (fst (mean y)).
Proof. intros N. apply mean_Rk; try assumption; try rf. apply start. Qed.
Lemma devs : x <> [] -> Forall2 (fun u v => R' k (lo - prec + 1 - c) (b2 (hi + c + 1)) (SFsub prec emax u (fst (mean x))) (SFsub prec emax v (fst (mean y)))) x y.
Proof.
  intros N. pose proof (mean_units N) as M. pose proof start as St. revert M. generalize (fst (mean x)) (fst (mean y)). intros m m' M.
  clear - St M PP RF E1. induction St as [|u v x' y' Huv H IH]; constructor; [|exact IH].
  apply (sub_Rk prec emax PP k lo); try rf; try assumption. apply (Rk_weaken prec emax k lo lo (b2 hi)); [lia| |exact Huv]. apply bpow_le. rf.
Qed.
Definition lv : Z := ((lo - prec + 1 - c) + (lo - prec + 1 - c) - prec + 1 - c)%Z.
Definition hv : Z := ((hi + c + 1) + (hi + c + 1) + c)%Z.
Lemma variance_eq l : l <> [] -> fst (variance l) = SFdiv prec emax (fold_left (SFadd prec emax) (map (fun u => SFmul prec emax (SFsub prec emax u (fst (mean l))) (SFsub prec emax u (fst (mean l)))) l) (S754_zero szero)) (SpecFloat.binary_normalize prec emax (Z.of_nat (length l)) 0 false) /\ snd (variance l) = length l.
Proof.
  intros N. unfold variance. pose proof (mean_snd prec emax szero l) as S. destruct (mean l) as [a n] eqn:E. cbn [snd fst] in S |- *. subst n. cbv zeta. destruct l as [|u l]; [congruence|]. cbn [length Nat.ltb Nat.leb]. split; reflexivity.
Qed.
Lemma variance_units : x <> [] -> R' (k + k) lv (b2 hv) (fst (variance x)) (fst (variance y)) /\ 0 <= fval (fst (variance x)) /\ 0 <= fval (fst (variance y)).
Proof.
  intros N. assert (Ny : y <> []) by (intros Z; pose proof len_y as L; rewrite Z in L; destruct x; [congruence|discriminate]).
  destruct (variance_eq x N) as [-> _]. destruct (variance_eq y Ny) as [-> _]. rewrite len_y.
  assert (L0 : (0 < length x)%nat) by (destruct x; [congruence|cbn; lia]).
  assert (NN : forall m l, Forall nn (map (fun u => SFmul prec emax (SFsub prec emax u m) (SFsub prec emax u m)) l)).
  { intros m l. apply Forall_forall. intros v I. apply in_map_iff in I. destruct I as [u [<- _]]. apply nn_square. }
  split; [|split].
  - unfold lv, hv. apply (div_Rk prec emax PP _ _ _ _ _ (length x) c); try lia; try rf.
    apply (nsum_Rk prec emax PP); try rf.
    + apply (sq_list k (lo - prec + 1 - c) (hi + c + 1) x y (fun u => SFsub prec emax u (fst (mean x))) (fun v => SFsub prec emax v (fst (mean y)))); try rf. apply devs, N.
    + rewrite map_length. exact Hn.
  - apply nn_val, nn_div; [|exact L0]. apply nn_sum; [apply NN|exact I].
  - apply nn_val, nn_div; [|exact L0]. apply nn_sum; [apply NN|exact I].
Qed.
Lemma stdev_eq l : l <> [] -> fst (stdev l) = SFsqrt prec emax (fst (variance l)).
Proof. intros N. destruct (variance_eq l N) as [_ S]. unfold stdev. destruct (variance l) as [v n]. cbn [snd fst] in *. subst n. destruct l; [congruence|reflexivity]. Qed.
Lemma sqrt_units l h u v : R' (k + k) l (b2 h) u v -> 0 <= fval u -> 0 <= fval v -> (2 - emax <= l)%Z -> (l <= h)%Z -> (h + 2 <= emax + prec)%Z -> exists l' h', (2 - emax <= l')%Z /\ R' k l' (b2 h') (SFsqrt prec emax u) (SFsqrt prec emax v).
Proof.
  intros H P Q A B C. exists (l / 2)%Z, (h / 2 + 1)%Z. pose proof (Z.div_mod l 2 ltac:(lia)) as D1. pose proof (Z.div_mod h 2 ltac:(lia)) as D2. pose proof (Z.mod_pos_bound l 2 ltac:(lia)). pose proof (Z.mod_pos_bound h 2 ltac:(lia)).
  assert (K : (2 - emax <= l / 2)%Z) by lia. split; [exact K|]. apply (sqrt_Rk prec emax PP); try assumption.
  - replace (2 * k)%Z with (k + k)%Z by ring. apply (Rk_weaken prec emax (k + k) l _ (b2 h)); [lia|apply bpow_le; lia|exact H].
  - unfold SpecFloat.emin. lia.
Qed.
Lemma stdev_units : x <> [] -> exists l' h', R' k l' (b2 h') (fst (stdev x)) (fst (stdev y)).
Proof.
  intros N. assert (Ny : y <> []) by (intros Z; pose proof len_y as L; rewrite Z in L; destruct x; [congruence|discriminate]).
  rewrite (stdev_eq x N), (stdev_eq y Ny). destruct (variance_units N) as [A [B C]]. destruct (sqrt_units lv hv _ _ A B C) as (l' & h' & _ & H); [unfold lv; rf|unfold lv, hv; rf|unfold hv; rf|]. exists l', h'. exact H.
Qed.
Lemma zscore_units : fval (fst (stdev x)) <> 0 -> Forall2 same_number (zscore x) (zscore y).
Proof.
  intros Z. assert (N : x <> []) by (intros ->; cbn in Z; lra). destruct (stdev_units N) as (l' & h' & Sd). unfold zscore. cbv zeta. apply (map_rel _ _ _ _ _ _ (devs N)). intros u v (A1 & A2 & A3 & _). destruct Sd as (B1 & B2 & B3 & _).
  apply (div_same k); assumption.
Qed.
Lemma zip_len {A B} (l : list A) (m : list B) : (length (zip l m) <= length l)%nat.
Proof. revert m. induction l as [|a l IH]; intros [|b m]; cbn; try lia. pose proof (IH m). lia. Qed.
Lemma autocorr_units j : fval (fst (variance x)) <> 0 -> same_number (autocorr x j) (autocorr y j).
Proof.
  intros Z. assert (N : x <> []) by (intros ->; cbn in Z; lra). destruct (variance_units N) as [V _].
  pose proof (mean_snd prec emax szero x) as Sx. pose proof (mean_snd prec emax szero y) as Sy.
  assert (D : forall u v, In (u, v) (combine x y) -> True) by trivial. clear D.
  unfold autocorr. pose proof (devs N) as D. revert V Z D Sx Sy. destruct (mean x) as [m n], (mean y) as [m' n'], (variance x) as [vx ?], (variance y) as [vy ?]. cbn [fst snd]. intros V Z D -> ->.
  rewrite len_y. assert (L0 : (0 < length x)%nat) by (destruct x; [congruence|cbn; lia]).
  assert (Q : R' (k + k) lv (b2 hv) (SFdiv prec emax (fold_left (SFadd prec emax) (map (fun p : spec_float * spec_float => SFmul prec emax (SFsub prec emax (fst p) m) (SFsub prec emax (snd p) m)) (zip x (skipn j x))) (S754_zero szero)) (SpecFloat.binary_normalize prec emax (Z.of_nat (length x)) 0 false))
     (SFdiv prec emax (fold_left (SFadd prec emax) (map (fun p : spec_float * spec_float => SFmul prec emax (SFsub prec emax (fst p) m') (SFsub prec emax (snd p) m')) (zip y (skipn j y))) (S754_zero szero)) (SpecFloat.binary_normalize prec emax (Z.of_nat (length x)) 0 false))).
  { unfold lv, hv. apply (div_Rk prec emax PP _ _ _ _ _ (length x) c); try lia; try rf. apply (nsum_Rk prec emax PP); try rf.
    - apply (map_rel _ _ _ _ _ _ (zip_rel _ _ _ _ _ D (skipn_rel _ j _ _ D))). intros [p1 p2] [q1 q2] [Q1 Q2]. cbn [fst snd] in *. apply (mul_Rk prec emax PP); try assumption; rf.
    - rewrite map_length. pose proof (zip_len x (skipn j x)). lia. }
  destruct Q as (A1 & A2 & A3 & _). destruct V as (B1 & B2 & B3 & _). exact (div_same (k + k) _ _ _ _ A1 B1 A2 B2 A3 B3 Z).
Qed.
(** Differences. *)
Lemma diff_Rk u v u' v' : R' k lo (b2 hi) u v -> R' k lo (b2 hi) u' v' -> R' k (lo - prec) (b2 (hi + 1)) (SFsub prec emax u u') (SFsub prec emax v v').
Proof. intros A B. apply (sub_Rk prec emax PP k lo); try rf; try assumption. apply (Rk_weaken prec emax k lo _ (b2 hi)); [rf|apply Rle_refl|exact B]. Qed.
Lemma lag_diff_units : Forall2 (R' k (lo - prec) (b2 (hi + 1))) (lag_diff x) (lag_diff y).
Proof.
  unfold lag_diff. apply (map_rel _ _ _ _ _ _ (zip_rel _ _ _ _ _ start (skipn_rel _ 1 _ _ start))). intros [p1 p2] [q1 q2] [Q1 Q2]. cbn [fst snd] in *. apply diff_Rk; assumption.
Qed.
Lemma windows_rel' (R : spec_float -> spec_float -> Prop) l l' : Forall2 R l l' -> Forall2 (pr2 R) (tuple_windows l) (tuple_windows l').
Proof. intros H. induction H as [|u v l l' Hx H IH]; [constructor|]. destruct H; cbn; constructor; [split; assumption|exact IH]. Qed.
Lemma windows_len (l : list spec_float) : (length (tuple_windows l) <= length l)%nat.
Proof. induction l as [|u l IH]; [reflexivity|]. destruct l; cbn in *; lia. Qed.
Lemma nn_mean l : Forall nn l -> nn (fst (mean l)).
Proof. intros H. rewrite (mean_eq_fold prec emax szero). destruct l as [|u l]; [exact I|]. cbn [fst]. apply nn_div; [|cbn; lia]. apply nn_sum; [exact H|exact I]. Qed.
Lemma rmssd_units : exists l' h', R' k l' (b2 h') (rmssd x) (rmssd y).
Proof.
  unfold rmssd. cbv zeta.
  set (sx := map (fun p : spec_float * spec_float => powi2 (nsub (snd p) (fst p))) (tuple_windows x)). set (sy := map (fun p : spec_float * spec_float => powi2 (nsub (snd p) (fst p))) (tuple_windows y)).
  assert (S : Forall2 (R' (k + k) (lo - prec + (lo - prec)) (b2 (hi + 1 + (hi + 1)))) sx sy).
  { apply (map_rel _ _ _ _ _ _ (windows_rel' _ _ _ start)). intros [p1 p2] [q1 q2] [Q1 Q2]. cbn [fst snd] in *. pose proof (diff_Rk _ _ _ _ Q2 Q1) as D. apply (mul_Rk prec emax PP); try rf; exact D. }
  assert (NN : forall l, Forall nn (map (fun p : spec_float * spec_float => powi2 (nsub (snd p) (fst p))) l)).
  { intros l. apply Forall_forall. intros v I. apply in_map_iff in I. destruct I as [u [<- _]]. apply nn_square. }
  assert (P : 0 <= fval (fst (mean sx)) /\ 0 <= fval (fst (mean sy))) by (split; apply nn_val, nn_mean, NN). destruct P as [P1 P2].
  assert (M : exists l h, (2 - emax <= l)%Z /\ (l <= h)%Z /\ (h + 2 <= emax + prec)%Z /\ R' (k + k) l (b2 h) (fst (mean sx)) (fst (mean sy))).
  { destruct sx as [|s0 sx'] eqn:Es.
    - inversion S; subst. exists 0%Z, 0%Z. split; [lia|]. split; [lia|]. split; [lia|]. cbn. unfold Rk, big. cbn [fval]. rewrite Rabs_R0. pose proof (bpow_ge_0 radix2 0). repeat split; try ring; try (left; reflexivity); lra.
    - rewrite <- Es in *. exists (lo - prec + (lo - prec) - prec + 1 - c)%Z, (hi + 1 + (hi + 1) + c)%Z. split; [rf|]. split; [rf|]. split; [rf|]. apply (mean_Rk (k + k) (lo - prec + (lo - prec)) (hi + 1 + (hi + 1)) c); try exact S; try rf; try congruence.
      unfold sx. rewrite map_length. pose proof (windows_len x). lia. }
  destruct M as (l & h & L1 & L2 & L3 & M). destruct (sqrt_units l h _ _ M P1 P2 L1 L2 L3) as (l' & h' & _ & Q). exists l', h'.
  destruct (mean sx), (mean sy). exact Q.
Qed.
(** Root mean square. *)
Lemma chunks_rel' (R : spec_float -> spec_float -> Prop) n l l' : (length l <= n)%nat -> Forall2 R l l' -> Forall2 (Forall2 R) (chunks4 l) (chunks4 l') /\ Forall2 R (rem4 l) (rem4 l').
Proof.
  revert l l'. induction n as [|n IH]; intros l l' Ln H.
  - destruct H; [split; constructor|cbn in Ln; lia].
  - destruct H as [|x1 y1 l l' H1 H]; [split; constructor|]. destruct H as [|x2 y2 l l' H2 H]; [split; repeat constructor; assumption|].
    destruct H as [|x3 y3 l l' H3 H]; [split; repeat constructor; assumption|]. destruct H as [|x4 y4 l l' H4 H]; [split; repeat constructor; assumption|].
    cbn [chunks4 rem4]. destruct (IH l l' ltac:(cbn in Ln; lia) H) as [Q1 Q2]. split; [|exact Q2]. constructor; [repeat constructor; assumption|exact Q1].
Qed.
Lemma chunks_len n (l : list spec_float) : (length l <= n)%nat -> (length (chunks4 l) <= length l)%nat /\ (length (rem4 l) <= 3)%nat /\ Forall (fun q => length q = 4%nat) (chunks4 l).
Proof.
  revert l. induction n as [|n IH]; intros l Ln; [destruct l; [cbn; split; [lia|split; [lia|constructor]]|cbn in Ln; lia]|].
  destruct l as [|a1 [|a2 [|a3 [|a4 l]]]]; try (cbn; split; [lia|split; [lia|constructor]]). cbn [chunks4 rem4 length]. destruct (IH l ltac:(cbn in Ln; lia)) as (A & B & C). split; [lia|]. split; [exact B|]. constructor; [reflexivity|exact C].
Qed.
Lemma rms_units : (4 <= 2 ^ c)%Z -> x <> [] -> exists l' h', R' k l' (b2 h') (rms_fast32 x) (rms_fast32 y).
Proof.
  intros C4 N. assert (C2 : (2 <= c)%Z). { destruct (Z_lt_le_dec c 2); [|assumption]. exfalso. assert (c <= 1)%Z by lia. destruct RF as (_ & ? & _). pose proof (Z.pow_le_mono_r 2 c 1 ltac:(lia) ltac:(lia)) as Q. change (2 ^ 1)%Z with 2%Z in Q. lia. }
  destruct (chunks_rel' _ _ _ _ (le_n _) start) as [Q1 Q2]. destruct (chunks_len _ x (le_n _)) as (L1 & L2 & L3). unfold rms_fast32. cbv zeta. rewrite len_y.
  assert (L0 : (0 < length x)%nat) by (destruct x; [congruence|cbn; lia]).
  set (sq := fun u : spec_float => SFmul prec emax u u).
  assert (Sr : R' (k + k) (lo + lo - prec + 1) (b2 (hi + hi + 2)) (fold_left (SFadd prec emax) (map sq (rem4 x)) (S754_zero szero)) (fold_left (SFadd prec emax) (map sq (rem4 y)) (S754_zero szero))).
  { apply (nsum_Rk prec emax PP); try rf; [|rewrite map_length; change (2 ^ 2)%Z with 4%Z; lia]. apply (sq_list k lo hi _ _ (fun u => u) (fun u => u)); try rf. exact Q2. }
  assert (Sc : Forall2 (R' (k + k) (lo + lo - prec + 1) (b2 (hi + hi + 2))) (map (fun q => fold_left (SFadd prec emax) (map sq q) (S754_zero szero)) (chunks4 x)) (map (fun q => fold_left (SFadd prec emax) (map sq q) (S754_zero szero)) (chunks4 y))).
  { clear L1 L2 Sr. revert L3. induction Q1 as [|p q cx cy Hpq H IH]; intros L3; cbn [map]; constructor; [|apply IH; inversion L3; assumption].
    apply (nsum_Rk prec emax PP); try rf; [|rewrite map_length; inversion L3 as [|? ? E]; subst; rewrite E; cbn; lia]. apply (sq_list k lo hi _ _ (fun u => u) (fun u => u)); try rf. exact Hpq. }
  assert (Ss : R' (k + k) (lo + lo - prec + 1 - prec + 1) (b2 (hi + hi + 2 + c)) (fold_left (SFadd prec emax) (map (fun q => fold_left (SFadd prec emax) (map sq q) (S754_zero szero)) (chunks4 x)) (S754_zero szero)) (fold_left (SFadd prec emax) (map (fun q => fold_left (SFadd prec emax) (map sq q) (S754_zero szero)) (chunks4 y)) (S754_zero szero))).
  { apply (nsum_Rk prec emax PP); try rf; [exact Sc|]. rewrite map_length. lia. }
  assert (Sr' : R' (k + k) (lo + lo - prec + 1 - prec + 1) (b2 (hi + hi + 2 + c)) (fold_left (SFadd prec emax) (map sq (rem4 x)) (S754_zero szero)) (fold_left (SFadd prec emax) (map sq (rem4 y)) (S754_zero szero))).
  { apply (Rk_weaken prec emax (k + k) (lo + lo - prec + 1) _ (b2 (hi + hi + 2))); [rf|apply bpow_le; rf|exact Sr]. }
  pose proof (add_Rk _ _ _ _ _ _ _ Sr' Ss ltac:(rf) ltac:(rf) ltac:(rf)) as A.
  pose proof (div_Rk prec emax PP _ _ _ _ _ (length x) c A ltac:(lia) ltac:(rf) ltac:(rf) ltac:(rf)) as D.
  assert (NN : forall l, Forall nn (map sq l)) by (intros l; apply Forall_forall; intros v I; apply in_map_iff in I; destruct I as [u [<- _]]; apply nn_square).
  assert (NNs : forall l, nn (fold_left (SFadd prec emax) (map sq l) (S754_zero szero))) by (intros l; apply nn_sum; [apply NN|exact I]).
  assert (NNc : forall l, Forall nn (map (fun q => fold_left (SFadd prec emax) (map sq q) (S754_zero szero)) l)) by (intros l; apply Forall_forall; intros v I; apply in_map_iff in I; destruct I as [u [<- _]]; apply NNs).
  destruct (sqrt_units _ _ _ _ D) as (l' & h' & _ & Q); try rf.
  - apply nn_val, nn_div; [|exact L0]. apply nn_add; [apply NNs|]. apply nn_sum; [apply NNc|exact I].
  - apply nn_val, nn_div; [|exact L0]. apply nn_add; [apply NNs|]. apply nn_sum; [apply NNc|exact I].
  - exists l', h'. exact Q.
Qed.
(** Medians. *)
Lemma filter_rel (R : spec_float -> spec_float -> Prop) (P Q : spec_float -> bool) l l' : Forall2 R l l' -> (forall a b, R a b -> Q b = P a) -> Forall2 R (filter P l) (filter Q l').
Proof. intros H E. induction H as [|u v l l' Hx H IH]; cbn [filter]; [constructor|]. rewrite (E u v Hx). destruct (P u); [constructor; assumption|exact IH]. Qed.
Lemma quickselect_rel (R : spec_float -> spec_float -> Prop) fuel l l' j : (forall a b a' b', R a b -> R a' b' -> SFltb b b' = SFltb a a') -> Forall2 R l l' ->
  same_outcome R (quickselect SFltb fuel l j) (quickselect SFltb fuel l' j).
Proof.
  intros HR. revert l l' j. induction fuel as [|fuel IH]; intros l l' j H; [exact I|]. cbn [quickselect]. rewrite (f2_length _ _ _ H).
  destruct (Nat.eqb (length l) 1).
  { unfold index. pose proof (nth_error_rel _ l l' 0 H) as Q. destruct (nth_error l 0), (nth_error l' 0); try contradiction; cbn; auto. }
  pose proof (nth_error_rel _ l l' (length l / 2) H) as Q. destruct (nth_error l (length l / 2)) as [p|], (nth_error l' (length l / 2)) as [p'|]; try contradiction; cbn [unwrap bind]; [|exact I].
  assert (F1 : Forall2 R (filter (fun z => SFltb z p) l) (filter (fun z => SFltb z p') l')) by (apply (filter_rel R); [exact H|]; intros a b Hab; apply HR; assumption).
  assert (F2 : Forall2 R (filter (fun z => SFltb p z) l) (filter (fun z => SFltb p' z) l')) by (apply (filter_rel R); [exact H|]; intros a b Hab; apply HR; assumption).
  rewrite (f2_length _ _ _ F1), (f2_length _ _ _ F2).
  destruct (usub (length l) _) as [p0| | |]; cbn [bind]; try exact I. destruct (usub p0 _) as [pv| | |]; cbn [bind]; try exact I.
  destruct (Nat.ltb j _); [apply IH, F1|]. destruct (Nat.ltb j _); [exact Q|]. destruct (usub j _) as [k0| | |]; cbn [bind]; try exact I. destruct (usub k0 pv) as [k1| | |]; cbn [bind]; try exact I. apply IH, F2.
Qed.
Lemma ltb_Rk l h a b a' b' : R' k l h a b -> R' k l h a' b' -> SFltb b b' = SFltb a a'.
Proof.
  intros (A1 & A2 & A3 & _) (B1 & B2 & B3 & _). rewrite (lt_val prec emax b b' A2 B2), (lt_val prec emax a a' A1 B1), A3, B3. pose proof (bpow_gt_0 radix2 k) as K. unfold Rltb.
  destruct (Rlt_dec (fval a) (fval a')) as [L|L]; destruct (Rlt_dec (fval a * b2 k) (fval a' * b2 k)) as [M|M]; try reflexivity; exfalso.
  - apply M. apply Rmult_lt_compat_r; assumption.
  - apply L. apply Rmult_lt_reg_r with (b2 k); assumption.
Qed.
Lemma median_Rk l h z w : Forall2 (R' k l (b2 h)) z w -> (2 - emax <= l - prec)%Z -> (emin <= h)%Z -> (h + 1 < emax)%Z ->
  exists m m', median z = Ok (m, length z) /\ median w = Ok (m', length z) /\ R' k (l - prec) (b2 (h + 1)) m m'.
Proof.
  intros H L H1 H2. assert (U : R' k l (b2 h) (S754_zero false) (S754_zero false)).
  { unfold Rk, big. cbn [fval]. rewrite Rabs_R0. pose proof (bpow_ge_0 radix2 h). repeat split; try ring; try (left; reflexivity); assumption. }
  assert (We : forall a b, R' k l (b2 h) a b -> R' k (l - prec) (b2 (h + 1)) a b) by (intros a b Q; apply (Rk_weaken prec emax k l _ (b2 h)); [lia|apply bpow_le; lia|exact Q]).
  unfold median, median_gen. rewrite (f2_length _ _ _ H). set (n := length z).
  destruct (Nat.eqb_spec n 0) as [N0|N0]; [exists (S754_zero false), (S754_zero false); rewrite N0; split; [reflexivity|]; split; [reflexivity|]; apply We, U|].
  destruct (Nat.eqb_spec n 1) as [N1|N1].
  { unfold index. pose proof (nth_error_rel _ z w 0 H) as Q. destruct (nth_error z 0) as [a|] eqn:Ea, (nth_error w 0) as [b|]; try contradiction; [|apply nth_error_None in Ea; unfold n in *; lia].
    cbn [unwrap bind]. exists a, b. rewrite N1. split; [reflexivity|]. split; [reflexivity|]. apply We, Q. }
  assert (Hd : n = (2 * (n / 2) + n mod 2)%nat) by (apply Nat.div_mod; discriminate). pose proof (Nat.mod_upper_bound n 2 ltac:(discriminate)) as Hm.
  assert (Qs : forall j, (j < n)%nat -> exists a b, quickselect SFltb n z j = Ok a /\ quickselect SFltb n w j = Ok b /\ R' k l (b2 h) a b).
  { intros j Hj. pose proof (quickselect_rel _ n z w j (ltb_Rk l (b2 h)) H) as Q. destruct (quickselect_defined n z j ltac:(fold n; lia)) as [a Ea]. rewrite Ea in *. destruct (quickselect SFltb n w j) as [b| | |]; try contradiction. exists a, b. auto. }
  cbn [nltb NU2 SFNum].
  destruct (Nat.eqb_spec (n mod 2) 1) as [M1|M1].
  - destruct (Qs (n / 2)%nat ltac:(lia)) as (a & b & -> & -> & Q). cbn [bind]. exists a, b. split; [reflexivity|]. split; [reflexivity|]. apply We, Q.
  - rewrite (usub_ok (n / 2) 1) by lia. cbn [bind]. destruct (Qs (n / 2 - 1)%nat ltac:(lia)) as (a & b & -> & -> & Q1). destruct (Qs (n / 2)%nat ltac:(lia)) as (a' & b' & -> & -> & Q2). cbn [bind].
    eexists _, _. split; [reflexivity|]. split; [reflexivity|].
    pose proof (add_Rk _ _ _ _ _ _ _ Q1 Q2 ltac:(lia) H1 H2) as A.
    pose proof (div_Rk prec emax PP _ _ _ _ _ 2 1 A ltac:(cbn; lia) ltac:(lia) ltac:(lia) ltac:(unfold SpecFloat.emin in *; lia)) as D. replace (l - prec + 1 - 1)%Z with (l - prec)%Z in D by ring. exact D.
Qed.
Lemma median_units : exists m m', median x = Ok (m, length x) /\ median y = Ok (m', length x) /\ R' k (lo - prec) (b2 (hi + 1)) m m'.
Proof. apply median_Rk; [apply start|rf|rf|rf]. Qed.
Lemma abs_Rk l h a b : R' k l h a b -> R' k l h (SFabs a) (SFabs b).
Proof.
  assert (Av : forall v, fin v -> fin (SFabs v) /\ fval (SFabs v) = Rabs (fval v)).
  { intros v F. split; [destruct F as [V F]; split; destruct v as [s|s| |s m e]; try exact V; try exact F; contradiction|].
    destruct v as [s|s| |s m e]; cbn [SFabs fval]; try (rewrite Rabs_R0; reflexivity). rewrite !Rabs_mult. rewrite (Rabs_pos_eq (IZR (Zpos m))) by (apply (IZR_le 0); lia). rewrite (Rabs_pos_eq (powerRZ 2 e)) by (apply powerRZ_le; lra). destruct s; [rewrite Rabs_left by lra|rewrite Rabs_pos_eq by lra]; ring. }
  intros (A1 & A2 & A3 & A4 & A5 & A6 & A7). destruct (Av a A1) as [F1 V1]. destruct (Av b A2) as [F2 V2]. unfold Rk. rewrite V1, V2. split; [exact F1|]. split; [exact F2|]. split; [rewrite A3; apply abs_mul_b2|].
  unfold big in *. rewrite !Rabs_Rabsolu. split; [destruct A4 as [->|A4]; [left; apply Rabs_R0|right; exact A4]|]. split; [destruct A5 as [->|A5]; [left; apply Rabs_R0|right; exact A5]|]. split; assumption.
Qed.
Lemma med_devs m m' : R' k (lo - prec) (b2 (hi + 1)) m m' -> Forall2 (fun u v => R' k (lo - prec) (b2 (hi + 2)) (SFsub prec emax u m) (SFsub prec emax v m')) x y.
Proof.
  intros M. pose proof start as St. clear - St M PP RF E1. induction St as [|u v x' y' Huv H IH]; constructor; [|exact IH].
  replace (hi + 2)%Z with (hi + 1 + 1)%Z by ring. apply (sub_Rk prec emax PP k lo); try rf; try assumption. apply (Rk_weaken prec emax k lo lo (b2 hi)); [lia| |exact Huv]. apply bpow_le. lia.
Qed.
Lemma mad_units : exists m m', median_abs_deviation x = Ok (m, length x) /\ median_abs_deviation y = Ok (m', length x) /\ R' k (lo - prec - prec) (b2 (hi + 3)) m m'.
Proof.
  destruct median_units as (m & m' & A & B & C). unfold median_abs_deviation. rewrite A, B. cbn [bind].
  assert (D : Forall2 (R' k (lo - prec) (b2 (hi + 2))) (map (fun u => SFabs (SFsub prec emax u m)) x) (map (fun u => SFabs (SFsub prec emax u m')) y)).
  { apply (map_rel _ _ _ _ _ _ (med_devs m m' C)). intros u v Q. apply abs_Rk, Q. }
  destruct (median_Rk _ _ _ _ D ltac:(rf) ltac:(rf) ltac:(rf)) as (d & d' & D1 & D2 & D3). exists d, d'. rewrite map_length in *. replace (hi + 2 + 1)%Z with (hi + 3)%Z in D3 by ring. split; [exact D1|]. split; [exact D2|exact D3].
Qed.
Lemma mod_zscore_units : ordinary prec emax (-1) 0 (nofQ (6745 # 10000)%Q) -> (forall d n, median_abs_deviation x = Ok (d, n) -> fval d <> 0) ->
  exists z w, mod_zscore x = Ok z /\ mod_zscore y = Ok w /\ Forall2 same_number z w.
Proof.
  intros Oq Nz. destruct median_units as (m & m' & A & B & C). destruct mad_units as (d & d' & D1 & D2 & D3). specialize (Nz d _ D1). unfold mod_zscore. rewrite A, B. cbn [bind]. rewrite D1, D2. cbn [bind].
  eexists _, _. split; [reflexivity|]. split; [reflexivity|]. apply (map_rel _ _ _ _ _ _ (med_devs m m' C)). intros u v Q.
  assert (Rq : R' 0 (-1) (b2 0) (nofQ (6745 # 10000)%Q) (nofQ (6745 # 10000)%Q)).
  { destruct Oq as (F & G & H). unfold Rk, big. rewrite !bpow_powerRZ. change (powerRZ 2 0) with 1. rewrite Rmult_1_r. tauto. }
  pose proof (mul_Rk prec emax PP _ _ _ _ _ _ _ _ _ _ Q Rq ltac:(rf) ltac:(rf)) as M. rewrite Z.add_0_r in M. destruct M as (A1 & A2 & A3 & _). destruct D3 as (B1 & B2 & B3 & _). exact (div_same k _ _ _ _ A1 B1 A2 B2 A3 B3 Nz).
Qed.
End Units2.
