(** Rounding of Savitzky-Golay filtering at IEEE formats. *)
From Coq Require Import Reals ZArith QArith SpecFloat List Lia Lra Psatz Bool Factorial.
From Verif Require Import Base Num MachInt M_Linalg M_Savgol S_Stats S_Savgol S_Float RSum P_Stats P_Savgol P_Float P_FloatStats P_FloatStats2 P_Apx T_Savgol T_FloatFft T_FloatStats2.
Import ListNotations.
Local Open Scope R_scope.

(** The samples read for output [i], indices clamped to the ends. *)
Definition taps (y : list R) (w i : nat) : list R :=
  map (fun k => nth (Nat.min (length y - 1) (i + k - w / 2)) y 0) (seq 0 w).
(** Sum of |c_j v_k| over the taps; the j-th coefficient meets the tap w - 1 - j. *)
Definition fir_mass (c v : list R) : R := Rsum (map (fun k => Rabs (nth k v 0 * nth (length c - 1 - k) c 0)) (seq 0 (length c))).
Definition fir_sum (c v : list R) : R := Rsum (map (fun k => nth k v 0 * nth (length c - 1 - k) c 0) (seq 0 (length c))).
(** Rounding error of one output for the coefficients [c] on the taps [v]. *)
Definition fir_error (prec emax : Z) (c v : list R) : R :=
  (1 + uround prec) ^ (length c + 1) * (fir_mass c v + INR (length c) * ftiny prec emax) - fir_mass c v.

Lemma nth_fv k (l : list spec_float) d : fval d = 0 -> fval (nth k l d) = nth k (map fval l) 0.
Proof. intros E. rewrite <- E. symmetry. apply map_nth. Qed.
Lemma nth_fin prec emax k (l : list spec_float) : Forall (finite prec emax) l -> finite prec emax (nth k l (S754_zero false)).
Proof.
  intros H. destruct (Nat.lt_ge_cases k (length l)) as [L|L]; [rewrite Forall_forall in H; apply H, nth_In, L|].
  rewrite nth_overflow by exact L. split; [reflexivity|exact I].
Qed.

Lemma Rsum_diff_abs {T} (f g : T -> R) l : Rabs (Rsum (map f l) - Rsum (map g l)) <= Rsum (map (fun k => Rabs (f k - g k)) l).
Proof.
  induction l as [|a l IH]; [cbn; rewrite Rminus_diag_eq, Rabs_R0 by reflexivity; lra|]. cbn [map]. rewrite !Rsum_cons.
  replace (f a + Rsum (map f l) - (g a + Rsum (map g l))) with ((f a - g a) + (Rsum (map f l) - Rsum (map g l))) by ring.
  eapply Rle_trans; [apply Rabs_triang|]. lra.
Qed.
Lemma Rsum_nth l : Rsum (map (fun k => nth k l 0) (seq 0 (length l))) = Rsum l.
Proof.
  induction l as [|a l IH]; [reflexivity|]. cbn [length seq map nth]. rewrite !Rsum_cons. f_equal. rewrite <- IH, <- seq_shift, map_map. reflexivity.
Qed.

Lemma nth_abs k (l : list R) : nth k (map Rabs l) 0 = Rabs (nth k l 0).
Proof. rewrite <- (map_nth Rabs), Rabs_R0. reflexivity. Qed.

(** * C87 *)
(** Every output is the exact combination of the float coefficients with the samples, up to
    w + 1 roundings. *)
Theorem C87_savgol_rounding : forall prec emax szero lstsq md pw (y : list spec_float) w po der del c,
  (1 < prec < emax)%Z -> (w mod 2 = 1)%nat -> (po + 2 <= w)%nat ->
  @savgol_coeffs_dyn _ (SFNum prec emax szero) lstsq md pw w po der del = Ok c -> length c = w ->
  Forall (finite prec emax) c -> Forall (finite prec emax) y ->
  exists out, @savgol_filter_dyn _ (SFNum prec emax szero) lstsq md pw y w po der del = Ok out /\ length out = length y /\
  forall i, (i < length y)%nat ->
    let v := taps (map fval y) w i in
    (1 + uround prec) ^ (w + 1) * (fir_mass (map fval c) v + INR w * ftiny prec emax) <= fmax prec emax ->
    exists r, nth_error out i = Some r /\ finite prec emax r /\
      Rabs (fval r - fir_sum (map fval c) v) <= fir_error prec emax (map fval c) v.
Proof.
  intros prec emax sz lstsq md pw y w po der del c Hpe Hw Hpo Hc Lc Fc Fy.
  destruct (C35_savgol_fir _ (SFNum prec emax sz) lstsq md pw y w po der del c Hw Hpo Hc Lc) as (out & E & Lo & N).
  exists out. split; [exact E|]. split; [exact Lo|]. intros i Hi v HM. eexists. split; [exact (N i Hi)|].
  set (yk := fun k => nth (Nat.min (length y - 1) (i + k - w / 2)) y (S754_zero false)). set (ck := fun k => nth (w - 1 - k) c (S754_zero false)).
  assert (Vk : forall k, In k (seq 0 w) -> nth k v 0 = fval (yk k)).
  { intros k Hk. apply in_seq in Hk. unfold v, taps. rewrite (nth_map_seq' (fun k => nth (Nat.min (length (map fval y) - 1) (i + k - w / 2)) (map fval y) 0)) by lia.
    rewrite map_length. unfold yk. rewrite nth_fv by reflexivity. reflexivity. }
  assert (Ck : forall k, nth (length (map fval c) - 1 - k) (map fval c) 0 = fval (ck k)).
  { intros k. rewrite map_length, Lc. unfold ck. rewrite nth_fv by reflexivity. reflexivity. }
  assert (Sm : forall (h : R -> R), Rsum (map (fun k => h (nth k v 0 * nth (length (map fval c) - 1 - k) (map fval c) 0)) (seq 0 (length (map fval c)))) = Rsum (map (fun k => h (fval (yk k) * fval (ck k))) (seq 0 w))).
  { intros h. replace (seq 0 (length (map fval c))) with (seq 0 w) by (rewrite map_length, Lc; reflexivity). f_equal. apply map_ext_in. intros k Hk. rewrite (Vk k Hk), Ck. reflexivity. }
  unfold fir_error, fir_sum, fir_mass in *. rewrite (Sm Rabs) in *. rewrite (Sm (fun x => x)). rewrite map_length, Lc.
  set (A := fun k => Rabs (fval (yk k) * fval (ck k))) in *.
  pose proof (tn0 prec emax) as T0. pose proof (u_pos prec) as U.
  assert (SA : Rsum (map (fun k => A k + ftiny prec emax) (seq 0 w)) = Rsum (map A (seq 0 w)) + INR w * ftiny prec emax).
  { rewrite (Rsum_plus A (fun _ => ftiny prec emax)), Rsum_const, seq_length. reflexivity. }
  assert (A0 : forall k, 0 <= A k) by (intros; apply Rabs_pos).
  assert (Q : apx prec emax (1 + length (seq 0 w)) (@nsum _ (SFNum prec emax sz) (map (fun k => SFmul prec emax (yk k) (ck k)) (seq 0 w)))
    (Rsum (map (fun k => fval (yk k) * fval (ck k)) (seq 0 w))) (Rsum (map A (seq 0 w))) (Rsum (map (fun k => A k + ftiny prec emax) (seq 0 w)))).
  { apply (apx_sum prec emax Hpe sz (fun k => SFmul prec emax (yk k) (ck k)) (fun k => fval (yk k) * fval (ck k)) A (fun k => A k + ftiny prec emax)).
    - intros k Hk. unfold A. rewrite Rabs_mult. apply (apx_mul prec emax Hpe 0 0 (yk k) (ck k)); [apply apx_exact; [apply nth_fin, Fy|lra]|apply apx_exact; [apply nth_fin, Fc|lra]|].
      rewrite <- Rabs_mult. eapply Rle_trans; [|exact HM]. apply Rmult_le_compat.
      + apply pow_le. lra.
      + pose proof (Rabs_pos (fval (yk k) * fval (ck k))). lra.
      + apply (G_le prec). lia.
      + fold (A k). rewrite <- SA. clear - Hk A0 T0. induction (seq 0 w) as [|a l IH]; [destruct Hk|]. cbn [map]. rewrite Rsum_cons.
        assert (0 <= Rsum (map (fun k => A k + ftiny prec emax) l)) by (apply Rsum_nonneg; intros z Hz; apply in_map_iff in Hz as [t [<- _]]; pose proof (A0 t); lra).
        pose proof (A0 a). destruct Hk as [->|Hk]; [lra|specialize (IH Hk); lra].
    - rewrite SA, seq_length, Nat.add_comm. exact HM. }
  rewrite seq_length, (Nat.add_comm 1), SA in Q. destruct Q as [F [_ [_ Q]]]. split; [exact F|exact Q].
Qed.

(** Samples of a polynomial: the derivative comes out up to the rounding error, the error of
    the samples and the error of the coefficients. *)
Theorem C87_savgol_poly_rounding : forall prec emax szero lstsq md pw (y : list spec_float) w po der del c (C : list R) delta eps (p : list R) t0 step,
  (1 < prec < emax)%Z -> (w mod 2 = 1)%nat -> (po + 2 <= w)%nat -> (der <= po)%nat -> (length p <= po + 1)%nat -> step <> 0 ->
  @savgol_coeffs_dyn _ (SFNum prec emax szero) lstsq md pw w po (Some der) del = Ok c -> length c = w ->
  Forall (finite prec emax) c -> Forall (finite prec emax) y ->
  length C = w ->
  (forall m, (m <= po)%nat -> rsum w (fun j => position w j ^ m * nth j C 0) = if (m =? der)%nat then INR (fact der) / step ^ der else 0) ->
  (forall j, (j < w)%nat -> Rabs (nth j (map fval c) 0 - nth j C 0) <= delta) ->
  (forall i, (i < length y)%nat -> Rabs (nth i (map fval y) 0 - peval p (t0 + INR i * step)) <= eps) ->
  exists out, @savgol_filter_dyn _ (SFNum prec emax szero) lstsq md pw y w po (Some der) del = Ok out /\ length out = length y /\
  forall i, (w / 2 <= i)%nat -> (i + w / 2 < length y)%nat ->
    let v := taps (map fval y) w i in
    (1 + uround prec) ^ (w + 1) * (fir_mass (map fval c) v + INR w * ftiny prec emax) <= fmax prec emax ->
    exists r, nth_error out i = Some r /\ finite prec emax r /\
      Rabs (fval r - peval (pderivs der p) (t0 + INR i * step))
        <= fir_error prec emax (map fval c) v + delta * Rsum (map Rabs v) + eps * Rsum (map Rabs C).
Proof.
  intros prec emax sz lstsq md pw y w po der del c C delta eps p t0 step Hpe Hw Hpo Hd Lp Hs Hc Lc Fc Fy LC HC Dc Dy.
  destruct (C87_savgol_rounding prec emax sz lstsq md pw y w po (Some der) del c Hpe Hw Hpo Hc Lc Fc Fy) as (out & E & Lo & N).
  exists out. split; [exact E|]. split; [exact Lo|]. intros i Hi1 Hi2 v HM. destruct (N i ltac:(lia) HM) as (r & Er & Fr & Rr). fold v in Rr.
  exists r. split; [exact Er|]. split; [exact Fr|].
  (* the exact filter *)
  set (sol := fun (_ : mat R) (_ : list R) (_ : R) => Some C). set (n := length y).
  set (yr := map (fun i => peval p (t0 + INR i * step)) (seq 0 n)). set (pw1 := Z.of_nat (fact der + 1)).
  assert (SH : solver_handles sol w po der step).
  { intros A b e H. exists C. split; [reflexivity|]. pose proof H as (Nr & Nc & EA & Ly & Y). split; [rewrite LC, Nc; reflexivity|].
    intros j Hj. rewrite Nr in Hj. rewrite (solves_rsum w po der step A _ b H) by lia. rewrite Y by lia. apply HC. lia. }
  assert (PW : (Z.of_nat (fact der) <= imax (usize_t pw1))%Z).
  { unfold imax, usize_t. cbn [signed bits]. unfold pw1. pose proof (Zpow_facts.Zpower2_lt_lin (Z.of_nat (fact der + 1)) ltac:(lia)). lia. }
  destruct (C36_savgol_poly_partial sol Checked pw1 w po der step p t0 n SH ltac:(unfold pw1; lia) Hw Hpo Hd PW Hs Lp) as (outR & ER & LR & NR).
  destruct (C36_coeff_moments sol Checked pw1 w po der step SH ltac:(unfold pw1; lia) ltac:(lia) Hd PW) as (c' & Ec' & Lc' & _).
  destruct (C35_savgol_fir _ RNum sol Checked pw1 yr w po (Some der) (Some step) c' Hw Hpo Ec' Lc') as (outR' & ER' & _ & NR').
  unfold yr, n in ER'. fold n in ER'. rewrite ER in ER'. injection ER' as <-.
  assert (Cc : c' = C).
  { unfold savgol_coeffs_dyn in Ec'. destruct (Nat.leb w po); [discriminate|]. destruct (Nat.ltb_spec po der); [lia|].
    destruct (factorial Checked pw1 der) as [f| | |]; try discriminate. cbn [bind] in Ec'. destruct (set_index _ der _) as [b| | |]; try discriminate. cbn [bind] in Ec'.
    unfold sol, unwrap in Ec'. congruence. }
  subst c'. specialize (NR' i). unfold yr in NR' at 1. rewrite map_length, seq_length in NR'. specialize (NR' ltac:(unfold n; lia)).
  assert (ET : peval (pderivs der p) (t0 + INR i * step) = Rsum (map (fun k => nth (i + k - w / 2) yr 0 * nth (w - 1 - k) C 0) (seq 0 w))).
  { rewrite <- (NR i Hi1 Hi2), (nth_error_nth _ _ 0 NR'), nsum_Rsum. f_equal. apply map_ext_in. intros k Hk. apply in_seq in Hk. cbn [nmul RNum]. f_equal. unfold clamped. cbn [nzero RNum].
    f_equal. unfold yr. rewrite map_length, seq_length. unfold n in *. pose proof (Nat.div_mod w 2 ltac:(lia)). rewrite Nat.min_r by lia. reflexivity. }
  rewrite ET. set (ex := Rsum _) in *.
  set (ci := fun k => nth (w - 1 - k) (map fval c) 0). set (Ci := fun k => nth (w - 1 - k) C 0). set (yi := fun k => nth (i + k - w / 2) yr 0) in *.
  assert (D : Rabs (fir_sum (map fval c) v - ex) <= Rsum (map (fun k => delta * Rabs (nth k v 0) + eps * Rabs (Ci k)) (seq 0 w))).
  { unfold fir_sum. replace (seq 0 (length (map fval c))) with (seq 0 w) by (rewrite map_length, Lc; reflexivity). unfold ex.
    eapply Rle_trans; [apply Rsum_diff_abs|]. apply Rsum_le. intros k Hk. apply in_seq in Hk.
    replace (length (map fval c) - 1 - k)%nat with (w - 1 - k)%nat by (rewrite map_length, Lc; reflexivity). fold (ci k).
    change (nth (i + k - w / 2) yr 0 * nth (w - 1 - k) C 0) with (yi k * Ci k).
    replace (nth k v 0 * ci k - yi k * Ci k) with (nth k v 0 * (ci k - Ci k) + (nth k v 0 - yi k) * Ci k) by ring.
    eapply Rle_trans; [apply Rabs_triang|]. rewrite !Rabs_mult. apply Rplus_le_compat.
    - rewrite (Rmult_comm delta). apply Rmult_le_compat_l; [apply Rabs_pos|]. assert (Hk2 : (w - 1 - k < w)%nat) by lia. pose proof (Dc _ Hk2) as Q. exact Q.
    - apply Rmult_le_compat_r; [apply Rabs_pos|]. unfold v, taps, yi. pose proof (Nat.div_mod w 2 ltac:(lia)) as DM.
      rewrite (nth_map_seq' (fun k => nth (Nat.min (length (map fval y) - 1) (i + k - w / 2)) (map fval y) 0)) by lia.
      rewrite map_length, Nat.min_r by lia. unfold yr. rewrite (nth_map_seq' (fun i => peval p (t0 + INR i * step))) by (unfold n; lia). apply Dy. lia. }
  assert (SC : Rsum (map (fun k => Rabs (Ci k)) (seq 0 w)) = Rsum (map Rabs C)).
  { rewrite <- (Rsum_nth (map Rabs C)), map_length, LC, !Rsum_seq, (rsum_rev w (fun k => Rabs (Ci (0 + k)%nat))). apply rsum_ext. intros k Hk. unfold Ci.
    replace (w - 1 - (0 + (w - 1 - k)))%nat with k by lia. rewrite nth_abs. reflexivity. }
  assert (SV : Rsum (map (fun k => Rabs (nth k v 0)) (seq 0 w)) = Rsum (map Rabs v)).
  { rewrite <- (Rsum_nth (map Rabs v)), map_length. replace (length v) with w by (unfold v, taps; rewrite map_length, seq_length; reflexivity).
    f_equal. apply map_ext. intros k. rewrite nth_abs. reflexivity. }
  rewrite (Rsum_plus (fun k => delta * Rabs (nth k v 0)) (fun k => eps * Rabs (Ci k))), !Rsum_map_scale, SC, SV in D.
  replace (fval r - ex) with ((fval r - fir_sum (map fval c) v) + (fir_sum (map fval c) v - ex)) by ring. eapply Rle_trans; [apply Rabs_triang|]. lra.
Qed.

(** A solver returning one third in f64 three times, on the samples 1, 2, 3 of t + 1. *)
Definition f64_third : spec_float := S754_finite false 6004799503160661 (-54).
Definition third_f64 (_ : mat spec_float) (_ : list spec_float) (_ : spec_float) : option (list spec_float) := Some [f64_third; f64_third; f64_third].
Lemma third_val : Rabs (fval f64_third - 1 / 3) <= uround 53.
Proof.
  replace (fval f64_third) with (IZR 6004799503160661 / 2 ^ 54).
  2:{ unfold f64_third, fval. cbn [fval]. change (-54)%Z with (- Z.of_nat 54)%Z. rewrite powerRZ_neg', <- pow_powerRZ. unfold Rdiv. ring. }
  unfold uround. change 53%Z with (Z.of_nat 53). rewrite powerRZ_neg', <- pow_powerRZ. rewrite !(pow_IZR 2). cbn. apply Rabs_le. split; lra.
Qed.

Example C87_ex :
  @savgol_coeffs_dyn _ F64Num third_f64 Checked 64 3 1 (Some 0%nat) None = Ok [f64_third; f64_third; f64_third] /\
  Forall (finite 53 1024) [f64_third; f64_third; f64_third] /\ Forall (finite 53 1024) y3 /\
  (forall m, (m <= 1)%nat -> rsum 3 (fun j => position 3 j ^ m * nth j [1 / 3; 1 / 3; 1 / 3] 0) = if (m =? 0)%nat then INR (fact 0) / 1 ^ 0 else 0) /\
  (forall j, (j < 3)%nat -> Rabs (nth j (map fval [f64_third; f64_third; f64_third]) 0 - nth j [1 / 3; 1 / 3; 1 / 3] 0) <= uround 53) /\
  (forall i, (i < 3)%nat -> Rabs (nth i (map fval y3) 0 - peval [1; 1] (0 + INR i * 1)) <= 0) /\
  let v := taps (map fval y3) 3 1 in v = [1; 2; 3] /\
  (1 + uround 53) ^ 4 * (fir_mass (map fval [f64_third; f64_third; f64_third]) v + INR 3 * ftiny 53 1024) <= fmax 53 1024.
Proof.
  destruct f64_small as [U [T FB]]. pose proof third_val as TV. assert (VT : 0 <= fval f64_third <= 1) by (pose proof (Rle_abs (fval f64_third - 1 / 3)); pose proof (Rle_abs (- (fval f64_third - 1 / 3))) as Q; rewrite Rabs_Ropp in Q; lra).
  split; [vm_compute; reflexivity|]. split; [repeat constructor; vm_compute; reflexivity|]. split; [repeat constructor; vm_compute; reflexivity|]. split.
  { intros m Hm. destruct m as [|[|m]]; [| |lia]; cbn; unfold position; cbn; lra. }
  split; [intros j Hj; destruct j as [|[|[|j]]]; [| | |lia]; exact TV|]. rewrite y3_val. split.
  { intros i Hi. destruct i as [|[|[|i]]]; [| | |lia]; cbn; apply Req_le; match goal with |- Rabs ?x = 0 => replace x with 0 by ring end; apply Rabs_R0. }
  split; [reflexivity|]. cbn [map]. set (t := fval f64_third) in *. clearbody t. unfold fir_mass, taps. cbn [length seq map nth Nat.sub Nat.add Nat.min Nat.div Nat.divmod fst Rsum fold_left].
  rewrite !Rabs_pos_eq by lra. pose proof (g_small (uround 53) 4 U ltac:(lia)) as G. set (g := (1 + uround 53) ^ 4) in *. clearbody g.
  eapply Rle_trans; [apply Rmult_le_compat with (r2 := 2) (r4 := 10)|]; try lra; cbn; lra.
Qed.

Print Assumptions C87_savgol_rounding.
Print Assumptions C87_savgol_poly_rounding.
