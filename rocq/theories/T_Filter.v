(** Property theorems for linalg/companion.rs and signal/filter (C22-C34, C61). *)
From Coq Require Import List Arith ZArith Bool Lia Reals Lra Field_theory.
From Verif Require Import Base Num M_Linalg S_Linalg M_Stats M_Filter S_Filter S_Stats
  P_Stats P_Linalg P_Sosfilt P_Ext P_Filtfilt P_Zi P_Transfer.
Import ListNotations.

(** ** C22: the companion matrix has the polynomial's roots as eigenvalues. *)
Theorem C22_companion_eigen :
  forall F (NF : Num F), is_field F -> forall (a : list F) m,
  2 <= m -> length a = m -> nth 0 a nzero <> nzero ->
  exists M, companion_dyn a m = Ok M /\ nrows M = m - 1 /\ ncols M = m - 1 /\
  forall r, is_eigenvalue M r <-> poly_eval a r = nzero.
Proof.
  intros F NF FT a m Hm Hl H0.
  destruct (companion_eigen FT a m nzero Hm Hl H0) as (M & E & R & C & _).
  exists M. repeat (split; [assumption|]). intros r.
  destruct (companion_eigen FT a m r Hm Hl H0) as (M' & E' & _ & _ & I).
  rewrite E in E'. injection E' as <-. exact I.
Qed.
Print Assumptions C22_companion_eigen.
Theorem C22_real_field : is_field R.
Proof.
  assert (E : field_theory 0%R 1%R Rplus Rmult Rminus Ropp Rdiv Rinv eq) by (pose proof Rfield as H; exact H).
  destruct E. constructor; cbn; try assumption.
  - intros p q. unfold Rdiv. rewrite Rmult_1_l. reflexivity.
  - intros p H. unfold Rdiv. rewrite Rmult_1_l. apply Rinv_l. exact H.
Qed.
(** x^2 - 3x + 2: the companion matrix [[3, -2], [1, 0]] has eigenvalue 2. *)
Example C22_ex : exists M, companion_dyn [1; -3; 2]%R 3 = Ok M /\ is_eigenvalue M 2%R.
Proof.
  destruct (C22_companion_eigen R _ C22_real_field [1; -3; 2]%R 3 ltac:(lia) eq_refl ltac:(cbn; lra)) as (M & E & _ & _ & I).
  exists M. split; [exact E|]. apply I. cbn. lra.
Qed.

(** ** C23: unchecked writes of companion_dyn. *)
(** Exactly when it panics, when it writes out of bounds, and when it is safe. *)
Theorem C23_companion_memory_partial :
  forall F (NF : Num F) (a : list F) m,
  (companion_dyn a m = Panic <-> a = [] \/ m < 2) /\
  (companion_dyn a m = UB <-> a <> [] /\ 2 <= m < length a) /\
  ((exists M, companion_dyn a m = Ok M) <-> a <> [] /\ 2 <= m /\ length a <= m).
Proof.
  intros F NF a m.
  assert (T : (a = [] \/ m < 2) \/ (a <> [] /\ 2 <= m < length a) \/ (a <> [] /\ 2 <= m /\ length a <= m)).
  { destruct a as [|x a]; [auto|]. assert (x :: a <> []) by discriminate.
    destruct (Nat.lt_ge_cases m 2); [auto|]. destruct (Nat.lt_ge_cases m (length (x :: a))); auto 6. }
  assert (P : a = [] \/ m < 2 -> companion_dyn a m = Panic).
  { intros [->|H]; [apply companion_panic_empty|apply companion_panic_small; exact H]. }
  assert (U : a <> [] /\ 2 <= m < length a -> companion_dyn a m = UB).
  { intros [_ H]. apply companion_ub; lia. }
  assert (O : a <> [] /\ 2 <= m /\ length a <= m -> exists M, companion_dyn a m = Ok M).
  { intros (H1 & H2 & H3). destruct a as [|x rest]; [congruence|]. cbn in H3.
    destruct (companion_ok x rest m H2 ltac:(lia)) as (M & E & _). exists M. exact E. }
  split; [|split]; split; auto; intros E;
    destruct T as [T|[T|T]]; auto; exfalso;
    try (rewrite (P T) in E); try (rewrite (U T) in E);
    try (destruct (O T) as (? & E'); rewrite E' in E);
    try discriminate; destruct E; discriminate.
Qed.
Print Assumptions C23_companion_memory_partial.
(** False as stated: a reachable call writes outside the matrix. *)
Theorem C23_companion_memory_refuted :
  exists (a : list R) m, companion_dyn a m = UB.
Proof. exists [1; 2; 3]%R, 2. reflexivity. Qed.
Print Assumptions C23_companion_memory_refuted.
Example C23_ex : exists M, companion_dyn [2; 4; 6]%R 3 = Ok M.
Proof. apply C23_companion_memory_partial. split; [discriminate|]. cbn. lia. Qed.

(** ** C24: resuming.  Any number type, bit for bit. *)
Theorem C24_sosfilt_resume :
  forall F (NF : Num F) (x y : list F) (sos : list (Sos F)),
  exists ox s1 oy s2,
    sosfilt_dyn x sos = Ok (ox, s1) /\ sosfilt_dyn y s1 = Ok (oy, s2) /\
    sosfilt_dyn (x ++ y) sos = Ok (ox ++ oy, s2) /\
    length ox = length x /\ length oy = length y /\
    same_coefs s1 sos /\ same_coefs s2 sos.
Proof.
  intros F NF x y sos.
  exists (fst (filt x sos)), (snd (filt x sos)),
    (fst (filt y (snd (filt x sos)))), (snd (filt y (snd (filt x sos)))).
  rewrite !sosfilt_dyn_pure, filt_app, !filt_length_out.
  split; [f_equal; apply surjective_pairing|]. split; [f_equal; apply surjective_pairing|].
  split; [reflexivity|]. split; [reflexivity|]. split; [reflexivity|].
  pose proof (filt_coefs x sos) as C1. pose proof (filt_coefs y (snd (filt x sos))) as C2.
  unfold same_coefs in *. split; congruence.
Qed.
Print Assumptions C24_sosfilt_resume.
(** Any split of the signal into blocks. *)
Fixpoint run_blocks {F} {NF : Num F} (blocks : list (list F)) (sos : list (Sos F))
  : res (list F * list (Sos F)) :=
  match blocks with
  | [] => Ok ([], sos)
  | b :: bs => let! (o, s) := sosfilt_dyn b sos in
               let! (os, s') := run_blocks bs s in Ok (o ++ os, s')
  end.
Theorem C24_sosfilt_blocks :
  forall F (NF : Num F) (blocks : list (list F)) (sos : list (Sos F)),
  run_blocks blocks sos = sosfilt_dyn (concat blocks) sos.
Proof.
  intros F NF blocks. induction blocks as [|b bs IH]; intros sos.
  - cbn [run_blocks concat]. rewrite sosfilt_dyn_pure. reflexivity.
  - cbn [run_blocks concat]. rewrite sosfilt_dyn_pure, (surjective_pairing (filt b sos)). cbn [bind].
    rewrite IH, !sosfilt_dyn_pure, filt_app.
    rewrite (surjective_pairing (filt (concat bs) _)) at 1. reflexivity.
Qed.
Print Assumptions C24_sosfilt_blocks.

(** ** C25: all entry points agree. *)
(** Repeated [sosfilt_item]. *)
Fixpoint items {F} {NF : Num F} (y : list F) (sos : list (Sos F)) : list F * list (Sos F) :=
  match y with
  | [] => ([], sos)
  | x :: y' => let r := items y' (snd (sosfilt_item x sos)) in (fst (sosfilt_item x sos) :: fst r, snd r)
  end.
Theorem C25_sosfilt_variants :
  forall F (NF : Num F) (y z : list F) (sos : list (Sos F)),
  sosfilt_dyn y sos = Ok (items y sos) /\
  sosfilt_st y sos = Ok (items y sos) /\
  (length y = length z -> sosfilt_fast32_st y sos z = Ok (items y sos)) /\
  (length y <> length z -> sosfilt_fast32_st y sos z = Panic).
Proof.
  intros F NF y z sos.
  assert (E : forall y sos, items y sos = filt y sos).
  { clear. induction y as [|x y IH]; intros sos; [reflexivity|]. cbn [items filt]. rewrite IH.
    destruct (sosfilt_item x sos) as [o s]. cbn [fst snd]. destruct (filt y s). reflexivity. }
  rewrite E, sosfilt_dyn_pure, sosfilt_st_pure. unfold sosfilt_fast32_st. rewrite sosfilt32_eq, map_id.
  repeat (split; [reflexivity|]).
  split; intros H; destruct (Nat.eqb_spec (length y) (length z)); congruence.
Qed.
Print Assumptions C25_sosfilt_variants.
Theorem C25_sosfilt_integer_variant :
  forall F (NF : Num F) I (conv : I -> F) (y : list I) (z : list F) (sos : list (Sos F)),
  (length y = length z -> sosfilt_ifast32_st conv y sos z = sosfilt_dyn (map conv y) sos) /\
  (length y <> length z -> sosfilt_ifast32_st conv y sos z = Panic).
Proof.
  intros F NF I conv y z sos. unfold sosfilt_ifast32_st. rewrite sosfilt32_eq, sosfilt_dyn_pure.
  split; intros H; destruct (Nat.eqb_spec (length y) (length z)); congruence.
Qed.
Print Assumptions C25_sosfilt_integer_variant.
(** Two sections and eight samples: the tiled path is taken. *)
Example C25_ex :
  let s := @Sos_new _ F32Num (@nofZ _ F32Num 1) (@nofZ _ F32Num 2) (@nofZ _ F32Num 1)
             (@nofZ _ F32Num 1) (@nofZ _ F32Num (-1)) (@nofZ _ F32Num 3) in
  let y := map (@nofZ _ F32Num) [1; -2; 3; 4; 5; 0; 7; 8]%Z in
  @sosfilt_fast32_st _ F32Num y [s; s] y = @sosfilt_dyn _ F32Num y [s; s].
Proof. vm_compute. reflexivity. Qed.

(** ** C26: the difference equation. *)
Theorem C26_difference_equation_partial :
  forall (s : Sos R) (x : list R), zero_state s -> a0 s = 1%R ->
  exists y s', sosfilt_dyn x [s] = Ok (y, s') /\ difference_equation s x y /\
    forall z, difference_equation s x z -> z = y.
Proof.
  intros s x Z A. exists (fst (filt x [s])), (snd (filt x [s])).
  split; [rewrite sosfilt_dyn_pure; f_equal; apply surjective_pairing|].
  split; [apply diff_eq; assumption|]. intros z H.
  apply (diff_eq_unique s x); [rewrite A; lra|exact H|apply diff_eq; assumption].
Qed.
Print Assumptions C26_difference_equation_partial.
(** For a0 <> 1 the documented transfer function is not what is computed. *)
Theorem C26_difference_equation_refuted :
  exists (s : Sos R) (x y : list R) s', zero_state s /\ a0 s <> 0%R /\
    sosfilt_dyn x [s] = Ok (y, s') /\ ~ difference_equation s x y.
Proof.
  exists (mkSos 1 0 0 2 0 0 0 0)%R, [1]%R. eexists. eexists.
  split; [split; reflexivity|]. split; [cbn; lra|]. split; [reflexivity|].
  intros [_ H]. specialize (H 0 ltac:(cbn; lia)). cbn in H. lra.
Qed.
Print Assumptions C26_difference_equation_refuted.
Example C26_ex : zero_state (Sos_new 1 2 3 1 5 6)%R /\ a0 (Sos_new 1 2 3 1 5 6)%R = 1%R.
Proof. repeat split. Qed.

(** ** C27: cascade, linearity, shift invariance, causality. *)
Theorem C27_cascade :
  forall F (NF : Num F) (x : list F) (s1 s2 : list (Sos F)) o1 t1 o2 t2,
  sosfilt_dyn x s1 = Ok (o1, t1) -> sosfilt_dyn o1 s2 = Ok (o2, t2) ->
  sosfilt_dyn x (s1 ++ s2) = Ok (o2, t1 ++ t2).
Proof.
  intros F NF x s1 s2 o1 t1 o2 t2. rewrite !sosfilt_dyn_pure. intros H1 H2.
  injection H1 as H1. injection H2 as H2. rewrite filt_cascade, H1. cbn [fst snd]. rewrite H2. reflexivity.
Qed.
Print Assumptions C27_cascade.
Theorem C27_linear :
  forall (c d : R) (x y : list R) (s t : list (Sos R)) ox s' oy t',
  same_coefs s t -> length x = length y ->
  sosfilt_dyn x s = Ok (ox, s') -> sosfilt_dyn y t = Ok (oy, t') ->
  sosfilt_dyn (lincomb c d x y) (lincomb_state c d s t) = Ok (lincomb c d ox oy, lincomb_state c d s' t').
Proof.
  intros c d x y s t ox s' oy t' C L. rewrite !sosfilt_dyn_pure. intros H1 H2.
  injection H1 as H1. injection H2 as H2. rewrite filt_lin by assumption. rewrite H1, H2. reflexivity.
Qed.
Print Assumptions C27_linear.
Theorem C27_shift_invariant :
  forall (k : nat) (x : list R) (s : list (Sos R)) o s', Forall zero_state s ->
  sosfilt_dyn x s = Ok (o, s') ->
  sosfilt_dyn (repeat 0%R k ++ x) s = Ok (repeat 0%R k ++ o, s').
Proof.
  intros k x s o s' Z. rewrite !sosfilt_dyn_pure. intros H. injection H as H.
  rewrite filt_shift by exact Z. rewrite H. reflexivity.
Qed.
Print Assumptions C27_shift_invariant.
Theorem C27_causal :
  forall F (NF : Num F) (x y : list F) (s : list (Sos F)) ox s' oy t' i,
  firstn (S i) x = firstn (S i) y ->
  sosfilt_dyn x s = Ok (ox, s') -> sosfilt_dyn y s = Ok (oy, t') ->
  nth_error ox i = nth_error oy i.
Proof.
  intros F NF x y s ox s' oy t' i E. rewrite !sosfilt_dyn_pure. intros H1 H2.
  injection H1 as H1. injection H2 as H2. pose proof (filt_causal x y s (S i) E) as C.
  rewrite H1, H2 in C. cbn [fst] in C.
  assert (P : forall l : list F, nth_error l i = nth_error (firstn (S i) l) i).
  { intros l. rewrite ListUtil.nth_error_firstn by lia. reflexivity. }
  rewrite P, C, <- P. reflexivity.
Qed.
Print Assumptions C27_causal.
Example C27_ex : Forall zero_state [Sos_new 1 2 3 1 5 6; Sos_new 1 0 0 1 1 2]%R.
Proof. repeat constructor. Qed.

(** ** C28: lfilter_zi gives the steady state of the unit step. *)
Theorem C28_lfilter_zi :
  forall (b a : list R) m, length b = m -> length a = m -> 2 <= m ->
  nth 0 a 0%R <> 0%R -> Rsum a <> 0%R ->
  exists zi, lfilter_zi_dyn b a = Ok zi /\ length zi = m - 1 /\
    forall n, df2t_run b a zi (repeat 1%R n) = (repeat (Rsum b / Rsum a)%R n, zi).
Proof. exact lfilter_zi_run. Qed.
Print Assumptions C28_lfilter_zi.
(** Every other input is refused: different lengths, fewer than two coefficients, or a
    denominator that is zero throughout (in any arithmetic). *)
Theorem C28_refusals (F : Type) (NF : Num F) (b a : list F) :
  length b <> length a \/ length a < 2 \/ Forall (fun x => neqb x nzero = true) a ->
  lfilter_zi_dyn b a = Panic.
Proof.
  intros H. unfold lfilter_zi_dyn. destruct (Nat.eqb_spec (length b) (length a)) as [L|L]; [|reflexivity]. cbn [rassert bind].
  destruct (position (fun ai => negb (ai =? 0)%num) a) as [i|] eqn:Ep; [|reflexivity]. cbn [unwrap bind].
  destruct H as [H|[H|H]]; [contradiction| |].
  - destruct a as [|x [|y a]]; [discriminate Ep| |cbn in H; lia]. cbn [position] in Ep.
    destruct (negb (x =? 0)%num); [|discriminate Ep]. injection Ep as <-. cbn [skipn index nth_error bind].
    destruct b as [|y [|w b]]; try discriminate L. unfold index, unwrap; cbn [nth_error bind]. destruct (negb (x =? 1)%num); reflexivity.
  - exfalso. clear L. revert i Ep. induction H as [|x l Hx H IH]; intros i Ep; [discriminate Ep|]. cbn [position] in Ep.
    cbv beta in Hx. rewrite Hx in Ep. cbn [negb] in Ep. destruct (position _ l) as [j|] eqn:Ej; [|discriminate Ep]. exact (IH j eq_refl).
Qed.
Print Assumptions C28_refusals.
(** Leading zeros of the denominator are dropped, and the numerator is left as it is: the state is
    then that of the filter with the denominator moved to the front. *)
Theorem C28_leading_zeros (b a : list R) k : length b = k + length a -> 2 <= length b ->
  nth 0 a 0%R <> 0%R -> Rsum a <> 0%R ->
  let a' := a ++ repeat 0%R k in
  exists zi, lfilter_zi_dyn b (repeat 0%R k ++ a) = Ok zi /\ length zi = length b - 1 /\
    forall n, df2t_run b a' zi (repeat 1%R n) = (repeat (Rsum b / Rsum a)%R n, zi).
Proof.
  intros Lb Hm Ha0 Hs a'.
  assert (S0 : forall j, Rsum (repeat 0%R j) = 0%R) by (induction j as [|j IH]; [reflexivity|cbn [repeat]; rewrite Rsum_cons, IH; lra]).
  assert (Sa : Rsum a' = Rsum a) by (unfold a'; rewrite Rsum_app, S0; lra).
  destruct a as [|A0 a]; [contradiction Ha0; reflexivity|]. cbn [nth] in Ha0.
  assert (E0 : forall x : R, neqb x nzero = true <-> x = 0%R) by (intros x; change (neqb x nzero) with (Reqb x 0); unfold Reqb; destruct (Req_EM_T x 0); split; congruence || intuition).
  assert (Q0 : neqb A0 nzero = false) by (destruct (neqb A0 nzero) eqn:Q; [apply E0 in Q; contradiction|reflexivity]).
  destruct (lfilter_zi_run b a' (length b) eq_refl) as [zi [E [L Hr]]]; try assumption.
  { unfold a'. rewrite app_length, repeat_length. lia. } { rewrite Sa. exact Hs. }
  exists zi. split; [|split; [exact L|]].
  2:{ intros n. rewrite Hr, Sa. reflexivity. }
  rewrite <- E. unfold lfilter_zi_dyn.
  assert (Pk : forall j, position (fun ai => negb (ai =? 0)%num) (repeat 0%R j ++ A0 :: a) = Some j).
  { induction j as [|j IH]; cbn [repeat app position]; [rewrite Q0; reflexivity|]. rewrite (proj2 (E0 0%R) eq_refl). cbn [negb]. rewrite IH. reflexivity. }
  assert (P0 : position (fun ai => negb (ai =? 0)%num) a' = Some 0) by (unfold a'; cbn [app position]; rewrite Q0; reflexivity).
  assert (La' : length a' = length b) by (unfold a'; rewrite app_length, repeat_length; lia).
  rewrite (Pk k), P0, La', !app_length, repeat_length, <- Lb. cbn [unwrap bind].
  rewrite skipn_app, repeat_length, Nat.sub_diag, skipn_all2 by (rewrite repeat_length; lia). cbn [skipn app].
  change (index a' 0) with (Ok A0). change (index (A0 :: a) 0) with (Ok A0). cbn [bind].
  assert (Z0 : forall j, map (fun xi => (xi / A0)%num) (repeat 0%R j) = repeat 0%R j).
  { induction j as [|j IH]; [reflexivity|]. cbn [repeat map]. rewrite IH. f_equal. change (0 / A0 = 0)%R. field. exact Ha0. }
  destruct (negb (A0 =? 1)%num).
  - replace (map (fun xi => (xi / A0)%num) (A0 :: a) ++ repeat nzero (length b - length (map (fun xi => (xi / A0)%num) (A0 :: a))))
      with (map (fun xi => (xi / A0)%num) a' ++ repeat nzero (length b - length (map (fun xi => (xi / A0)%num) a'))); [reflexivity|].
    unfold a'. rewrite map_app, !app_length, !map_length, Z0, repeat_length.
    replace (length b - (length (A0 :: a) + k)) with 0 by lia. replace (length b - length (A0 :: a)) with k by lia. apply app_nil_r.
  - replace ((A0 :: a) ++ repeat nzero (length b - length (A0 :: a))) with (a' ++ repeat nzero (length b - length a')); [reflexivity|].
    rewrite La', Nat.sub_diag, app_nil_r. unfold a'. replace (length b - length (A0 :: a)) with k by lia. reflexivity.
Qed.
Print Assumptions C28_leading_zeros.
Example C28_ex : nth 0 [2; 1; 1]%R 0%R <> 0%R /\ Rsum [2; 1; 1]%R <> 0%R.
Proof. unfold Rsum. cbn. split; lra. Qed.

(** ** C29: sosfilt_zi gives the steady state of the cascade. *)
Theorem C29_sosfilt_zi :
  forall l : list (Sos R),
  Forall (fun s => a0 s = 1%R /\ (a0 s + a1 s + a2 s)%R <> 0%R) l ->
  exists l', sosfilt_zi_dyn l = Ok l' /\ same_coefs l' l /\
    forall c n, sosfilt_dyn (repeat c n) (with_delays_times c l') =
                Ok (repeat (c * dc_gains l)%R n, with_delays_times c l').
Proof. exact sosfilt_zi_steady. Qed.
Print Assumptions C29_sosfilt_zi.
Example C29_ex : Forall (fun s => a0 s = 1%R /\ (a0 s + a1 s + a2 s)%R <> 0%R)
  [Sos_new 1 2 3 1 5 6; Sos_new 1 0 0 1 1 2]%R.
Proof. repeat constructor; cbn; lra. Qed.

(** ** C30: odd_ext_dyn.  Any number type, bit for bit; an [Ok] result also says no
    unchecked access was out of bounds. *)
Theorem C30_odd_ext_rows :
  forall F (NF : Num F) (x : mat F) n, 1 <= n < nrows x ->
  exists m, odd_ext_dyn x n 0 = Ok m /\ nrows m = nrows x + 2 * n /\ ncols m = ncols x /\
  forall j, j < ncols x ->
    (forall i, i < nrows x -> ent m (n + i) j = ent x i j) /\
    (forall d, 1 <= d <= n ->
       ent m (n - d) j = nsub (nmul (nadd none none) (ent x 0 j)) (ent x d j) /\
       ent m (n + (nrows x - 1) + d) j =
         nsub (nmul (nadd none none) (ent x (nrows x - 1) j)) (ent x (nrows x - 1 - d) j)).
Proof.
  intros F NF x n H. destruct (odd_ext_rows x n H) as (m & E & R & C & M & L & Rt).
  exists m. repeat (split; [assumption|]). intros j Hj. split; [intros i Hi; apply M; assumption|].
  intros d Hd. split; [apply (L d j Hd Hj)|apply (Rt d j Hd Hj)].
Qed.
Print Assumptions C30_odd_ext_rows.
Theorem C30_odd_ext_cols :
  forall F (NF : Num F) (x : mat F) n, 1 <= n < ncols x ->
  exists m, odd_ext_dyn x n 1 = Ok m /\ nrows m = nrows x /\ ncols m = ncols x + 2 * n /\
  forall i, i < nrows x ->
    (forall j, j < ncols x -> ent m i (n + j) = ent x i j) /\
    (forall d, 1 <= d <= n ->
       ent m i (n - d) = nsub (nmul (nadd none none) (ent x i 0)) (ent x i d) /\
       ent m i (n + (ncols x - 1) + d) =
         nsub (nmul (nadd none none) (ent x i (ncols x - 1))) (ent x i (ncols x - 1 - d))).
Proof.
  intros F NF x n H. destruct (odd_ext_cols x n H) as (m & E & R & C & M & L & Rt).
  exists m. repeat (split; [assumption|]). intros i Hi. split; [intros j Hj; apply M; assumption|].
  intros d Hd. split; [apply (L i d Hd Hi)|apply (Rt i d Hd Hi)].
Qed.
Print Assumptions C30_odd_ext_cols.
Theorem C30_odd_ext_edge_cases :
  forall F (NF : Num F) (x : mat F) n axis,
  (n = 0 -> axis < 2 -> exists m, odd_ext_dyn x n axis = Ok m /\ nrows m = nrows x /\ ncols m = ncols x /\
     forall i j, i < nrows x -> j < ncols x -> ent m i j = ent x i j) /\
  (2 <= axis -> odd_ext_dyn x n axis = Panic) /\
  (1 <= n -> axis = 0 -> nrows x <= n -> odd_ext_dyn x n axis = Panic) /\
  (1 <= n -> axis = 1 -> ncols x <= n -> odd_ext_dyn x n axis = Panic).
Proof.
  intros F NF x n axis. split; [intros -> H; apply odd_ext_zero; exact H|].
  split; [apply odd_ext_panic_axis|]. split; intros; apply odd_ext_panic; auto.
Qed.
Print Assumptions C30_odd_ext_edge_cases.
Example C30_ex : 1 <= 2 < nrows (dvector [1; 2; 4]%R).
Proof. cbn. lia. Qed.

(** ** C31: pad. *)
Theorem C31_pad_partial :
  forall F (NF : Num F) (t : Pad) (padlen : option nat) (x : mat F) axis ntaps,
  let edge := match t with PadNone => 0 | _ => match padlen with Some p => p | None => 3 * ntaps end end in
  let dim := match axis with 0 => nrows x | _ => ncols x end in
  (2 <= axis \/ dim <= edge -> pad t padlen x axis ntaps = Panic) /\
  (axis < 2 -> edge < dim -> edge = 0 ->
     exists m, pad t padlen x axis ntaps = Ok (0, m) /\ nrows m = nrows x /\ ncols m = ncols x /\
     forall i j, i < nrows x -> j < ncols x -> ent m i j = ent x i j) /\
  (axis < 2 -> edge < dim -> t = PadOdd ->
     exists m, pad t padlen x axis ntaps = Ok (edge, m) /\ odd_ext_dyn x edge axis = Ok m) /\
  (axis < 2 -> edge < dim -> edge <> 0 -> t = PadEven \/ t = PadConstant ->
     pad t padlen x axis ntaps = Panic).
Proof.
  intros F NF t padlen x axis ntaps edge dim.
  assert (E : pad_edge t padlen ntaps = edge) by reflexivity.
  rewrite pad_unfold. cbn zeta. rewrite E. fold dim.
  split; [|split; [|split]].
  - intros [H|H].
    + destruct (Nat.ltb_spec axis 2); [lia|reflexivity].
    + destruct (Nat.ltb_spec edge dim); [lia|]. rewrite andb_false_r. reflexivity.
  - intros H1 H2 H3. destruct (Nat.ltb_spec axis 2); [|lia]. destruct (Nat.ltb_spec edge dim); [|lia].
    rewrite H3. cbn [andb Nat.eqb]. destruct (copy_list x) as (m & -> & Hm). exists m. split; [reflexivity|exact Hm].
  - intros H1 H2 H3. destruct (Nat.ltb_spec axis 2); [|lia]. destruct (Nat.ltb_spec edge dim); [|lia].
    cbn [andb]. subst t. destruct (Nat.eqb_spec edge 0) as [Z|Z].
    + rewrite Z in *. destruct (copy_list x) as (m & C & Hm). exists m. rewrite C. split; [reflexivity|].
      unfold odd_ext_dyn. destruct (Nat.ltb_spec axis 2); [|lia]. exact C.
    + destruct axis as [|[|axis]]; [| |lia].
      * destruct (odd_ext_rows x edge ltac:(lia)) as (m & -> & _). exists m. auto.
      * destruct (odd_ext_cols x edge ltac:(lia)) as (m & -> & _). exists m. auto.
  - intros H1 H2 H3 H4. destruct (Nat.ltb_spec axis 2); [|lia]. destruct (Nat.ltb_spec edge dim); [|lia].
    cbn [andb]. destruct (Nat.eqb_spec edge 0); [lia|]. destruct H4 as [->| ->]; reflexivity.
Qed.
Print Assumptions C31_pad_partial.
(** False as stated: [Even] and [Constant] padding panic whenever there is anything
    to pad, whatever the input. *)
Theorem C31_pad_refuted :
  forall F (NF : Num F) (x : mat F) p ntaps, 1 <= p < nrows x ->
  pad PadEven (Some p) x 0 ntaps = Panic /\ pad PadConstant (Some p) x 0 ntaps = Panic.
Proof.
  intros F NF x p ntaps H. split.
  - destruct (C31_pad_partial F NF PadEven (Some p) x 0 ntaps) as (_ & _ & _ & Q). apply Q; auto; lia.
  - destruct (C31_pad_partial F NF PadConstant (Some p) x 0 ntaps) as (_ & _ & _ & Q). apply Q; auto; lia.
Qed.
Print Assumptions C31_pad_refuted.
Example C31_ex : 1 <= 1 < nrows (dvector [1; 2; 4]%R).
Proof. cbn. lia. Qed.

(** ** C32: sosfiltfilt_dyn keeps the length and ignores the delay state. *)
(** [sosfilt_zi_dyn] is the only other source of panics: a section whose three
    denominator coefficients are all zero. *)
Definition nonzero_den {F} {NF : Num F} (s : Sos F) : Prop :=
  neqb (a0 s) nzero = false \/ neqb (a1 s) nzero = false \/ neqb (a2 s) nzero = false.
Theorem C32_sosfiltfilt_length :
  forall F (NF : Num F) (y : list F) (sos : list (Sos F)),
  Forall nonzero_den sos ->
  (3 * taps sos < length y -> exists z, sosfiltfilt_dyn y sos = Ok z /\ length z = length y) /\
  (length y <= 3 * taps sos -> sosfiltfilt_dyn y sos = Panic).
Proof.
  intros F NF y sos N. rewrite sosfiltfilt_eq. split; intros H.
  - destruct (Nat.leb_spec (length y) (3 * taps sos)); [lia|].
    pose proof (sosfilt_zi_loop_total sos none) as T.
    assert (A : forallb some_den sos = true).
    { apply forallb_forall. rewrite Forall_forall in N. intros s Hs. specialize (N s Hs). unfold some_den.
      destruct N as [->|[->| ->]]; cbn; rewrite ?orb_true_r; reflexivity. }
    rewrite A in T. destruct T as (l' & E & _). unfold sosfilt_zi_dyn. rewrite E. cbn [bind].
    eexists. split; [reflexivity|]. apply filtfilt_length.
  - destruct (Nat.leb_spec (length y) (3 * taps sos)); [reflexivity|lia].
Qed.
Print Assumptions C32_sosfiltfilt_length.
Theorem C32_sosfiltfilt_ignores_state :
  forall F (NF : Num F) (y : list F) (sos sos' : list (Sos F)),
  same_coefs sos sos' -> sosfiltfilt_dyn y sos = sosfiltfilt_dyn y sos'.
Proof. exact (fun F NF => @filtfilt_coefs F NF). Qed.
Print Assumptions C32_sosfiltfilt_ignores_state.
Example C32_ex : taps [Sos_new 1 2 1 1 (-1) 3; Sos_new 1 1 0 1 2 0]%R = 4.
Proof.
  unfold taps. cbn [length filter b2 a2 Sos_new neqb RNum nzero]. unfold Reqb.
  repeat match goal with |- context [Req_EM_T ?a ?b] => destruct (Req_EM_T a b); try lra end. reflexivity.
Qed.

(** ** C33: sosfiltfilt_dyn: DC gain and linearity. *)
Theorem C33_sosfiltfilt_constant :
  forall (l : list (Sos R)) (c : R) n,
  Forall (fun s => a0 s = 1%R /\ (a0 s + a1 s + a2 s)%R <> 0%R) l -> 3 * taps l < n ->
  sosfiltfilt_dyn (repeat c n) l = Ok (repeat (c * (dc_gains l * dc_gains l))%R n).
Proof. exact filtfilt_const. Qed.
Print Assumptions C33_sosfiltfilt_constant.
Theorem C33_sosfiltfilt_linear :
  forall (l : list (Sos R)) (c d : R) (x y zx zy : list R), length x = length y ->
  sosfiltfilt_dyn x l = Ok zx -> sosfiltfilt_dyn y l = Ok zy ->
  sosfiltfilt_dyn (lincomb c d x y) l = Ok (lincomb c d zx zy).
Proof.
  intros l c d x y zx zy H. rewrite !sosfiltfilt_eq. rewrite lincomb_length by exact H. rewrite <- H.
  destruct (length x <=? 3 * taps l); [discriminate|]. destruct (sosfilt_zi_dyn l) as [init| | |]; cbn [bind]; try discriminate.
  intros E1 E2. injection E1 as <-. injection E2 as <-. rewrite filtfilt_linear by exact H. reflexivity.
Qed.
Print Assumptions C33_sosfiltfilt_linear.
Example C33_ex : exists z, sosfiltfilt_dyn (repeat 2%R 100) [Sos_new 1 2 1 1 1 2]%R = Ok z.
Proof.
  eexists. apply C33_sosfiltfilt_constant; [repeat constructor; cbn; lra|].
  unfold taps. cbn [length]. apply Nat.lt_le_trans with 10; [|lia].
  apply Nat.le_lt_trans with 9; [|lia]. apply Nat.mul_le_mono_l with (p := 3) (m := 3). lia.
Qed.

(** ** C34: Sos::from_scipy_dyn. *)
Theorem C34_from_scipy :
  forall F (NF : Num F) n (v : list F),
  (length v = 6 * n ->
     exists l, from_scipy_dyn n v = Ok l /\ length l = n /\ concat (map coefs l) = v /\
       Forall (fun s => delays s = (nzero, nzero)) l) /\
  (length v <> 6 * n -> from_scipy_dyn n v = Panic).
Proof. intros F NF n v. split; [apply from_scipy_ok|apply from_scipy_panic]. Qed.
Print Assumptions C34_from_scipy.

(** ** C61: a cascade implements the product of its sections' transfer functions. *)
Theorem C61_cascade_transfer :
  forall (l : list (Sos R)) (x : list R), Forall zero_state l -> Forall (fun s => a0 s = 1%R) l ->
  exists y l', sosfilt_dyn x l = Ok (y, l') /\ length y = length x /\
  forall i, i < length x -> delay_poly (cascade_den l) y i = delay_poly (cascade_num l) x i.
Proof.
  intros l x Z A. exists (fst (filt x l)), (snd (filt x l)).
  split; [rewrite sosfilt_dyn_pure; f_equal; apply surjective_pairing|]. split; [apply filt_length_out|].
  apply cascade_transfer_poly; assumption.
Qed.
Print Assumptions C61_cascade_transfer.
Example C61_ex : Forall zero_state [Sos_new 1 2 3 1 5 6; Sos_new 1 0 0 1 1 2]%R /\
  Forall (fun s => a0 s = 1%R) [Sos_new 1 2 3 1 5 6; Sos_new 1 0 0 1 1 2]%R.
Proof. split; repeat constructor. Qed.
