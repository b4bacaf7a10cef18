(** C135: the odd extension and the companion matrix in floats: every computed entry is the nearest float. *)
From Coq Require Import Reals ZArith SpecFloat List Lia Lra.
From Flocq Require Import Core BinarySingleNaN.
From Verif Require Import Base Num M_Linalg M_Filter S_Float P_Float P_FloatStats P_Linalg S_Whole P_Whole T_Filter T_Whole T_Ratio.
Import ListNotations.
Local Open Scope R_scope.

Section Float.
Variables (prec emax : Z) (szero : bool).
Hypothesis PP : (1 < prec < emax)%Z.
Local Instance NQ : Num spec_float := SFNum prec emax szero.
Let Hp : Prec_gt_0 prec. Proof. unfold Prec_gt_0; lia. Qed.
Let He : Prec_lt_emax prec emax. Proof. unfold Prec_lt_emax; lia. Qed.
Notation fin := (finite prec emax).
Notation rnd := (round radix2 (FLT_exp (SpecFloat.emin prec emax) prec) ZnearestE).

Lemma nearest_of_rnd x v : fin x -> fval x = rnd v -> nearest_float prec emax v x.
Proof.
  intros F V. split; [exact F|]. intros f Ff. rewrite V. assert (Hp' : Prec_gt_0 prec) by exact Hp.
  apply (proj2 (round_N_pt radix2 (FLT_exp (SpecFloat.emin prec emax) prec) (fun z => negb (Z.even z)) v)). apply (finite_format prec emax). exact Ff.
Qed.
Lemma one_one : fin (nadd none none) /\ fval (nadd none none) = 2.
Proof.
  destruct (P_FloatStats.count_ok prec emax PP 1) as [F1 V1]; [pose proof (Z.pow_pos_nonneg 2 prec); lia|].
  assert (E1 : fval (@none _ NQ) = 1) by (etransitivity; [exact V1|cbn; ring]).
  pose proof (P_FloatStats.FM4 prec emax PP) as M.
  destruct (fadd_ok prec emax Hp He (@none _ NQ) (@none _ NQ) F1 F1) as [A B]; [rewrite E1, Rabs_pos_eq by lra; lra|].
  split; [exact A|]. etransitivity; [exact B|]. rewrite E1. replace (1 + 1) with 2 by ring. apply round_generic; [apply valid_rnd_N|].
  destruct (two_val prec emax szero PP) as [F2 V2]. rewrite <- V2. apply (finite_format prec emax). exact F2.
Qed.
Lemma twice t f : fin t -> fval t = 2 -> fin f -> Rabs (2 * fval f) <= fmax prec emax -> fin (SFmul prec emax t f) /\ fval (SFmul prec emax t f) = 2 * fval f.
Proof.
  intros Ft Vt Ff H. destruct (two_val prec emax szero PP) as [F2 V2]. destruct (double_ok prec emax szero PP f Ff H) as [A B].
  destruct (fmul_ok prec emax Hp He t f Ft Ff) as [C D]; [rewrite Vt; exact H|]. destruct (fmul_ok prec emax Hp He _ f F2 Ff) as [C' D']; [rewrite V2; exact H|].
  split; [exact C|]. rewrite D, Vt, <- V2, <- D', V2. exact B.
Qed.
Lemma ext_value f v : fin f -> fin v -> 3 * Rabs (fval f) <= fmax prec emax -> 3 * Rabs (fval v) <= fmax prec emax ->
  nearest_float prec emax (2 * fval f - fval v) (nsub (nmul (nadd none none) f) v).
Proof.
  intros Ff Fv H1 H2. destruct one_one as [F2 V2]. pose proof (Rabs_pos (fval f)).
  assert (A2 : Rabs (2 * fval f) = 2 * Rabs (fval f)) by (rewrite Rabs_mult, (Rabs_pos_eq 2) by lra; reflexivity).
  destruct (twice _ f F2 V2 Ff) as [D V]; [lra|].
  destruct (fsub_ok prec emax Hp He _ v D Fv) as [A B]; [rewrite V; unfold Rminus; eapply Rle_trans; [apply Rabs_triang|]; rewrite Rabs_Ropp; lra|].
  apply nearest_of_rnd; [exact A|]. etransitivity; [exact B|]. rewrite V. reflexivity.
Qed.

(** Along the rows. *)
Theorem C135_odd_ext_rows (x : mat spec_float) n : (1 <= n < nrows x)%nat ->
  (forall i j, (i < nrows x)%nat -> (j < ncols x)%nat -> fin (ent x i j) /\ 3 * Rabs (fval (ent x i j)) <= fmax prec emax) ->
  exists m, odd_ext_dyn x n 0 = Ok m /\ nrows m = (nrows x + 2 * n)%nat /\ ncols m = ncols x /\
  forall j, (j < ncols x)%nat ->
    (forall i, (i < nrows x)%nat -> ent m (n + i) j = ent x i j) /\
    (forall d, (1 <= d <= n)%nat ->
       nearest_float prec emax (2 * fval (ent x 0 j) - fval (ent x d j)) (ent m (n - d) j) /\
       nearest_float prec emax (2 * fval (ent x (nrows x - 1) j) - fval (ent x (nrows x - 1 - d) j)) (ent m (n + (nrows x - 1) + d) j)).
Proof.
  intros Hn H. destruct (C30_odd_ext_rows _ _ x n Hn) as (m & E & R & C & Q). exists m. split; [exact E|]. split; [exact R|]. split; [exact C|].
  intros j Hj. destruct (Q j Hj) as [Q1 Q2]. split; [exact Q1|]. intros d Hd. destruct (Q2 d Hd) as [-> ->].
  destruct (H 0%nat j ltac:(lia) Hj), (H d j ltac:(lia) Hj), (H (nrows x - 1)%nat j ltac:(lia) Hj), (H (nrows x - 1 - d)%nat j ltac:(lia) Hj).
  split; apply ext_value; assumption.
Qed.
(** Along the columns. *)
Theorem C135_odd_ext_cols (x : mat spec_float) n : (1 <= n < ncols x)%nat ->
  (forall i j, (i < nrows x)%nat -> (j < ncols x)%nat -> fin (ent x i j) /\ 3 * Rabs (fval (ent x i j)) <= fmax prec emax) ->
  exists m, odd_ext_dyn x n 1 = Ok m /\ nrows m = nrows x /\ ncols m = (ncols x + 2 * n)%nat /\
  forall i, (i < nrows x)%nat ->
    (forall j, (j < ncols x)%nat -> ent m i (n + j) = ent x i j) /\
    (forall d, (1 <= d <= n)%nat ->
       nearest_float prec emax (2 * fval (ent x i 0) - fval (ent x i d)) (ent m i (n - d)) /\
       nearest_float prec emax (2 * fval (ent x i (ncols x - 1)) - fval (ent x i (ncols x - 1 - d))) (ent m i (n + (ncols x - 1) + d))).
Proof.
  intros Hn H. destruct (C30_odd_ext_cols _ _ x n Hn) as (m & E & R & C & Q). exists m. split; [exact E|]. split; [exact R|]. split; [exact C|].
  intros i Hi. destruct (Q i Hi) as [Q1 Q2]. split; [exact Q1|]. intros d Hd. destruct (Q2 d Hd) as [-> ->].
  destruct (H i 0%nat Hi ltac:(lia)), (H i d Hi ltac:(lia)), (H i (ncols x - 1)%nat Hi ltac:(lia)), (H i (ncols x - 1 - d)%nat Hi ltac:(lia)).
  split; apply ext_value; assumption.
Qed.

(** Companion matrix of a0 x^(m-1) + ... : the first row is -a_(j+1)/a0, rounded once; below it ones under the diagonal, zeros elsewhere. *)
Theorem C135_companion (a : list spec_float) m : (2 <= m)%nat -> length a = m -> Forall fin a -> fval (nth 0 a nzero) <> 0 ->
  (forall j, (1 <= j < m)%nat -> Rabs (fval (nth j a nzero) / fval (nth 0 a nzero)) <= fmax prec emax) ->
  exists M, companion_dyn a m = Ok M /\ nrows M = (m - 1)%nat /\ ncols M = (m - 1)%nat /\
  (forall j, (j < m - 1)%nat -> nearest_float prec emax (- fval (nth (S j) a nzero) / fval (nth 0 a nzero)) (ent M 0 j)) /\
  (forall i j, (i < m - 2)%nat -> (j < m - 1)%nat -> fval (ent M (S i) j) = if Nat.eqb i j then 1 else 0).
Proof.
  intros Hm La Fa N0 HB. destruct a as [|a0 rest]; [cbn in La; lia|]. cbn [length] in La. cbn [nth] in N0, HB |- *. apply Forall_cons_iff in Fa. destruct Fa as [F0 Fr].
  destruct (companion_ok a0 rest m Hm ltac:(lia)) as (M & E & R & C & Q1 & Q2). exists M. split; [exact E|]. split; [exact R|]. split; [exact C|]. split.
  - intros j Hj. rewrite (Q1 j Hj). specialize (HB (S j) ltac:(lia)). cbn [nth] in HB.
    destruct (nth_error rest j) as [v|] eqn:Ev; [|apply nth_error_None in Ev; lia].
    rewrite (nth_error_nth rest j nzero Ev) in HB |- *. assert (Fv : fin v) by (rewrite Forall_forall in Fr; apply Fr; eapply nth_error_In; exact Ev).
    assert (Fo : fin (SFopp v) /\ fval (SFopp v) = - fval v).
    { destruct Fv as [A B]. destruct v as [s|s| |s mm e]; try contradiction; (split; [split; [exact A|exact I]|]); cbn [SFopp fval]; [ring|destruct s; cbn [negb]; ring]. }
    destruct Fo as [Fo Vo]. assert (Q : - fval v / fval a0 = - (fval v / fval a0)) by (field; exact N0).
    destruct (fdiv_ok prec emax Hp He (SFopp v) a0 Fo F0 N0) as [A B]; [rewrite Vo, Q, Rabs_Ropp; exact HB|].
    apply nearest_of_rnd; [exact A|]. etransitivity; [exact B|]. rewrite Vo. reflexivity.
  - intros i j Hi Hj. rewrite (Q2 i j Hi Hj). destruct (Nat.eqb i j); [|reflexivity].
    destruct (P_FloatStats.count_ok prec emax PP 1) as [F1 V1]; [pose proof (Z.pow_pos_nonneg 2 prec); lia|]. etransitivity; [exact V1|cbn; ring].
Qed.
End Float.
Print Assumptions C135_odd_ext_rows.
Print Assumptions C135_odd_ext_cols.
Print Assumptions C135_companion.

(** The column 1, 3, 2 in f64, extended by one or two on each side; and the polynomial x^2 + 3x + 2. *)
Definition col3 : mat spec_float := mkmat 3 1 (fun i _ => nth i [T_Whole.w1; T_Whole.w3; T_Whole.w2] T_Whole.w0).
Example C135_ex : (1 <= 2 < nrows col3)%nat /\
  (forall i j, (i < nrows col3)%nat -> (j < ncols col3)%nat -> finite 53 1024 (ent col3 i j) /\ 3 * Rabs (fval (ent col3 i j)) <= fmax 53 1024) /\
  Forall (finite 53 1024) [T_Whole.w1; T_Whole.w3; T_Whole.w2] /\ fval (nth 0 [T_Whole.w1; T_Whole.w3; T_Whole.w2] (@nzero _ F64Num)) <> 0 /\
  (forall j, (1 <= j < 3)%nat -> Rabs (fval (nth j [T_Whole.w1; T_Whole.w3; T_Whole.w2] (@nzero _ F64Num)) / fval (nth 0 [T_Whole.w1; T_Whole.w3; T_Whole.w2] (@nzero _ F64Num))) <= fmax 53 1024).
Proof.
  destruct T_Whole.w_vals as (E0 & E1 & Em & E3 & E2).
  assert (M : 1024 <= fmax 53 1024). { change 1024 with (bpow radix2 10). apply (P_Units.fmax_ge 53 1024 ltac:(lia)). lia. }
  assert (F1 : finite 53 1024 T_Whole.w1) by (split; [vm_compute; reflexivity|exact I]). assert (F2 : finite 53 1024 T_Whole.w2) by (split; [vm_compute; reflexivity|exact I]). assert (F3 : finite 53 1024 T_Whole.w3) by (split; [vm_compute; reflexivity|exact I]).
  split; [cbn; lia|]. split.
  { intros i j Hi Hj. cbn [nrows ncols col3] in Hi, Hj. destruct i as [|[|[|i]]]; [| | |lia]; cbn [ent col3 nth]; rewrite ?E1, ?E2, ?E3; (split; [assumption|]); rewrite Rabs_pos_eq by lra; lra. }
  split; [repeat (constructor; [assumption|]); constructor|]. cbn [nth]. rewrite E1. split; [lra|].
  intros j Hj. destruct j as [|[|[|j]]]; [lia| | |lia]; rewrite ?E2, ?E3, Rabs_pos_eq by lra; lra.
Qed.
(** The bound matters: the odd extension of two copies of the largest f64 is infinite, not that number. *)
Example C135_overflow_ex : let big := S754_finite false 9007199254740991 971 in
  match @odd_ext_dyn _ F64Num (mkmat 2 1 (fun _ _ => big)) 1 0 with Ok m => ent m 0 0 = S754_infinity false | _ => False end.
Proof. vm_compute. reflexivity. Qed.
