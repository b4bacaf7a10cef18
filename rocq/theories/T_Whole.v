(** C133: fixed-point samples through sections with whole-number coefficients: no rounding at all. *)
From Coq Require Import Reals ZArith SpecFloat List Permutation Lia Lra.
From Flocq Require Import Core.
From Verif Require Import Base Num M_Stats M_Filter S_Stats S_Filter S_Float P_Float P_FloatStats P_Sosfilt S_Whole P_Whole.
Import ListNotations.
Local Open Scope R_scope.

Lemma ok_vals prec emax g x xr : Forall2 (ok prec emax g) x xr -> xr = map fval x /\ Forall (finite prec emax) x /\ Forall (fun v => on_grid g (fval v)) x.
Proof.
  intros H. induction H as [|a v x xr (A & B & C) H (I1 & I2 & I3)]; [repeat split; constructor|]. subst v xr. split; [reflexivity|]. split; constructor; assumption.
Qed.
Lemma vals_ok prec emax g x : Forall (finite prec emax) x -> Forall (fun v => on_grid g (fval v)) x -> Forall2 (ok prec emax g) x (map fval x).
Proof.
  intros A B. induction x as [|a x IH]; cbn [map]; constructor; [|apply IH; [inversion A|inversion B]; assumption].
  split; [inversion A; assumption|]. split; [reflexivity|inversion B; assumption].
Qed.

(** The float run of the filter is the exact run, state included. *)
Theorem C133_filter_exact prec emax szero g (lf : list (Sos spec_float)) (x : list spec_float) :
  (1 < prec < emax)%Z -> (3 - emax - prec <= g)%Z -> (g + prec < emax)%Z ->
  Forall (finite prec emax) x -> Forall (fun v => on_grid g (fval v)) x -> Forall (finite_sos prec emax) lf ->
  Forall (fun s => Forall (fun c => on_grid 0 (fval c)) [b0 s; b1 s; b2 s; a1 s; a2 s] /\ on_grid g (fval (zi0 s)) /\ on_grid g (fval (zi1 s))) lf ->
  stays_small (powerRZ 2 (prec + g)) (map sos_val lf) (map fval x) ->
  exists yf lf', @sosfilt_dyn _ (SFNum prec emax szero) x lf = Ok (yf, lf') /\
    sosfilt_dyn (map fval x) (map sos_val lf) = Ok (map fval yf, map sos_val lf') /\ Forall (finite prec emax) yf.
Proof.
  intros PP G1 G2. revert x. induction lf as [|s lf IH]; intros x Fx Gx Fl Gl H.
  - exists x, []. cbn [map]. rewrite sosfilt_dyn_pure, (sosfilt_dyn_pure (F := R)). assert (E : forall F (NF : Num F) (l : list F), filt l [] = (l, [])) by (intros F NF l; induction l as [|a l IH]; [reflexivity|]; cbn; rewrite IH; reflexivity).
    rewrite !E. split; [reflexivity|]. split; [reflexivity|exact Fx].
  - destruct H as (X & Y & y & t & Ey & HX & HY & X0 & Y0 & HB & H). rewrite sosfilt_dyn_pure in Ey. injection Ey as Ey.
    apply Forall_cons_iff in Fl. destruct Fl as [Fs Fl]. apply Forall_cons_iff in Gl. destruct Gl as [(Gc & G0 & G3) Gl].
    pose proof Fs as Fs'. unfold finite_sos in Fs'. rewrite !Forall_cons_iff in Fs'. destruct Fs' as (K0 & K1 & K2 & L1 & L2 & J0 & J1 & _). rewrite !Forall_cons_iff in Gc. destruct Gc as (M0 & M1 & M2 & N1 & N2 & _).
    cbn [map sos_val M_Filter.b0 M_Filter.b1 M_Filter.b2 M_Filter.a1 M_Filter.a2 zi0 zi1] in HB.
    pose proof (Rabs_pos (fval (zi0 s))) as P0. pose proof (Rabs_pos (fval (zi1 s))) as P1.
    assert (Ey1 : fst (filt (map fval x) [sos_val s]) = y) by (rewrite Ey; reflexivity).
    assert (Nn : forall c Z, 0 <= Z -> 0 <= Rabs c * Z) by (intros c Z HZ; apply Rmult_le_pos; [apply Rabs_pos|exact HZ]).
    pose proof (section_exact prec emax szero g PP G1 G2 X Y (Rabs (fval (zi0 s))) (Rabs (fval (zi1 s))) x s (map fval x)) as Q. cbv zeta in Q.
    destruct Q as (Q1 & Q2 & Q3).
    + unfold whole_sos. repeat (constructor; [split; assumption|]). constructor.
    + apply vals_ok; assumption.
    + split; [exact J0|]. split; [reflexivity|exact G0].
    + split; [exact J1|]. split; [reflexivity|exact G3].
    + exact HX.
    + rewrite Ey1. exact HY.
    + exact X0.
    + exact Y0.
    + exact P0.
    + exact P1.
    + pose proof (Nn (fval (M_Filter.b2 s)) X X0). pose proof (Nn (fval (M_Filter.a2 s)) Y Y0). lra.
    + pose proof (Nn (fval (M_Filter.b2 s)) X X0). pose proof (Nn (fval (M_Filter.a2 s)) Y Y0). pose proof (Nn (fval (M_Filter.b1 s)) X X0). pose proof (Nn (fval (M_Filter.a1 s)) Y Y0). lra.
    + exact HB.
    + rewrite Ey1 in Q1. destruct (ok_vals _ _ _ _ _ Q1) as (V1 & V2 & V3). rewrite V1 in H.
      destruct (IH _ V2 V3 Fl Gl H) as (yf & lf' & R1 & R2 & R3). rewrite sosfilt_dyn_pure in R1. rewrite sosfilt_dyn_pure in R2. injection R1 as R1. injection R2 as R2.
      exists yf, (snd (@filt _ (SFNum prec emax szero) x [s]) ++ lf'). split; [|split; [|exact R3]].
      * rewrite sosfilt_dyn_pure. change (s :: lf) with ([s] ++ lf). rewrite filt_cascade. f_equal. unfold NW in *. rewrite R1. reflexivity.
      * rewrite sosfilt_dyn_pure. cbn [map]. change (sos_val s :: map sos_val lf) with ([sos_val s] ++ map sos_val lf). rewrite filt_cascade, Ey1, V1. f_equal. unfold NW in *. rewrite R2. cbn [fst snd]. rewrite map_app, Q2. reflexivity.
Qed.
Print Assumptions C133_filter_exact.

(** Without feedback and from rest, samples of at most [X] are small enough as soon as [X] times the gains of the sections is. *)
Definition tap_sum (s : Sos R) : R := Rabs (b0 s) + Rabs (b1 s) + Rabs (b2 s).
Fixpoint tap_gain (l : list (Sos R)) : R := match l with [] => 1 | s :: rest => Rmax 1 (tap_sum s) * tap_gain rest end.

Lemma fir_bound X x : forall s : Sos R, 0 <= X -> a1 s = 0 -> a2 s = 0 -> Forall (fun v => Rabs v <= X) x ->
  Rabs (zi1 s) <= Rabs (b2 s) * X -> Rabs (zi0 s) <= (Rabs (b1 s) + Rabs (b2 s)) * X -> Forall (fun v => Rabs v <= tap_sum s * X) (fst (filt x [s])).
Proof.
  induction x as [|v x IH]; intros s X0 A1 A2 Hx Z1 Z0; [constructor|]. inversion Hx as [|? ? Hv Hx']; subst. rewrite filt_one. cbn [fst].
  assert (K : forall c, Rabs (c * v) <= Rabs c * X) by (intros c; rewrite Rabs_mult; apply Rmult_le_compat_l; [apply Rabs_pos|exact Hv]).
  constructor.
  - change (Rabs (b0 s * v + zi0 s) <= tap_sum s * X). pose proof (Rabs_triang (b0 s * v) (zi0 s)). pose proof (K (b0 s)). unfold tap_sum. lra.
  - change (tap_sum s) with (tap_sum (snd (biquad_fold v s))).
    apply IH; try assumption.
    + change (Rabs (b2 s * v - a2 s * (b0 s * v + zi0 s)) <= Rabs (b2 s) * X). rewrite A2. replace (b2 s * v - 0 * (b0 s * v + zi0 s)) with (b2 s * v) by ring. apply K.
    + change (Rabs (b1 s * v - a1 s * (b0 s * v + zi0 s) + zi1 s) <= (Rabs (b1 s) + Rabs (b2 s)) * X). rewrite A1. replace (b1 s * v - 0 * (b0 s * v + zi0 s) + zi1 s) with (b1 s * v + zi1 s) by ring.
      pose proof (Rabs_triang (b1 s * v) (zi1 s)). pose proof (K (b1 s)). lra.
Qed.
Lemma tap_gain_ge l : 1 <= tap_gain l.
Proof. induction l as [|s l IH]; cbn [tap_gain]; [lra|]. pose proof (Rmax_l 1 (tap_sum s)). rewrite <- (Rmult_1_l 1) at 1. apply Rmult_le_compat; lra. Qed.
Lemma fir_small B l : forall x X, Forall (fun s : Sos R => a1 s = 0 /\ a2 s = 0 /\ zi0 s = 0 /\ zi1 s = 0) l -> 0 <= X -> Forall (fun v => Rabs v <= X) x -> tap_gain l * X <= B -> stays_small B l x.
Proof.
  induction l as [|s l IH]; intros x X Hl X0 Hx HB; [exact I|]. apply Forall_cons_iff in Hl. destruct Hl as [(A1 & A2 & Z0 & Z1) Hl]. cbn [tap_gain] in HB.
  pose proof (Rmax_r 1 (tap_sum s)) as M. pose proof (Rmax_l 1 (tap_sum s)) as M1. pose proof (tap_gain_ge l) as T.
  assert (P : 0 <= tap_sum s) by (unfold tap_sum; pose proof (Rabs_pos (b0 s)); pose proof (Rabs_pos (b1 s)); pose proof (Rabs_pos (b2 s)); lra).
  assert (Pb1 : 0 <= Rabs (b2 s) * X) by (apply Rmult_le_pos; [apply Rabs_pos|exact X0]).
  assert (Pb2 : 0 <= Rabs (b1 s) * X) by (apply Rmult_le_pos; [apply Rabs_pos|exact X0]).
  exists X, (tap_sum s * X), (fst (filt x [s])), (snd (filt x [s])). split; [rewrite sosfilt_dyn_pure, <- surjective_pairing; reflexivity|]. split; [exact Hx|].
  assert (Hy : Forall (fun v => Rabs v <= tap_sum s * X) (fst (filt x [s]))).
  { apply fir_bound; try assumption; rewrite ?Z0, ?Z1, Rabs_R0; lra. }
  split; [exact Hy|]. split; [exact X0|]. split; [apply Rmult_le_pos; assumption|]. rewrite A1, A2, Z0, Z1, Rabs_R0.
  assert (Q : tap_sum s * X <= Rmax 1 (tap_sum s) * X) by (apply Rmult_le_compat_r; lra).
  assert (Q2 : Rmax 1 (tap_sum s) * X * 1 <= Rmax 1 (tap_sum s) * X * tap_gain l) by (apply Rmult_le_compat_l; [apply Rmult_le_pos; lra|exact T]).
  split; [fold (tap_sum s); lra|]. apply (IH _ (tap_sum s * X)); [exact Hl|apply Rmult_le_pos; assumption|exact Hy|].
  assert (Q3 : tap_gain l * (tap_sum s * X) <= tap_gain l * (Rmax 1 (tap_sum s) * X)) by (apply Rmult_le_compat_l; lra). lra.
Qed.

Theorem C133_fir_exact prec emax szero g X (lf : list (Sos spec_float)) (x : list spec_float) :
  (1 < prec < emax)%Z -> (3 - emax - prec <= g)%Z -> (g + prec < emax)%Z ->
  Forall (finite prec emax) x -> Forall (fun v => on_grid g (fval v)) x -> Forall (finite_sos prec emax) lf ->
  Forall (fun s => Forall (fun c => on_grid 0 (fval c)) [b0 s; b1 s; b2 s] /\ Forall (fun c => fval c = 0) [a1 s; a2 s; zi0 s; zi1 s]) lf ->
  0 <= X -> Forall (fun v => Rabs (fval v) <= X) x -> tap_gain (map sos_val lf) * X <= powerRZ 2 (prec + g) ->
  exists yf lf', @sosfilt_dyn _ (SFNum prec emax szero) x lf = Ok (yf, lf') /\
    sosfilt_dyn (map fval x) (map sos_val lf) = Ok (map fval yf, map sos_val lf') /\ Forall (finite prec emax) yf.
Proof.
  intros PP G1 G2 Fx Gx Fl Hl X0 Hx HB. apply (C133_filter_exact prec emax szero g); try assumption.
  - revert Hl. apply Forall_impl. intros s [A B]. rewrite !Forall_cons_iff in A. rewrite !Forall_cons_iff in B. destruct A as (A0 & A1 & A2 & _), B as (B1 & B2 & B3 & B4 & _).
    assert (Z : forall h c, fval c = 0 -> on_grid h (fval c)) by (intros h c ->; exists 0%Z; ring).
    split; [repeat (constructor; [first [assumption|apply Z; assumption]|]); constructor|]. split; apply Z; assumption.
  - apply (fir_small _ _ _ X); try assumption.
    + apply Forall_map. revert Hl. apply Forall_impl. intros s [_ B]. rewrite !Forall_cons_iff in B. destruct B as (B1 & B2 & B3 & B4 & _). cbn. repeat split; assumption.
    + apply Forall_map. exact Hx.
Qed.
Print Assumptions C133_fir_exact.

(** The mean of whole numbers is correctly rounded. *)
Theorem C133_mean_nearest prec emax szero (y : list spec_float) :
  (1 < prec < emax)%Z -> y <> [] -> (Z.of_nat (length y) <= 2 ^ prec)%Z -> Forall (finite prec emax) y -> Forall (fun v => on_grid 0 (fval v)) y ->
  Rsum (map (fun x => Rabs (fval x)) y) <= powerRZ 2 prec ->
  nearest_float prec emax (Rmean (map fval y)) (fst (@mean _ (SFNum prec emax szero) y)).
Proof.
  intros PP NE N Fy Gy HB.
  assert (Iy : Forall intval y) by (revert Gy; apply Forall_impl; intros a [z E]; exists z; rewrite E; cbn; ring).
  destruct (int_mean prec emax PP szero y Fy Iy NE N HB) as [F V]. split; [exact F|]. intros f Ff. rewrite V. unfold fv.
  assert (Hp : Prec_gt_0 prec) by (unfold Prec_gt_0; lia).
  apply (proj2 (round_N_pt radix2 (FLT_exp (SpecFloat.emin prec emax) prec) (fun z => negb (Z.even z)) (Rmean (map fval y)))). apply (finite_format prec emax). exact Ff.
Qed.
Print Assumptions C133_mean_nearest.

(** So it does not depend on the order of the samples (sums of floats in general do). *)
Theorem C133_mean_order prec emax szero (y y' : list spec_float) :
  (1 < prec < emax)%Z -> y <> [] -> (Z.of_nat (length y) <= 2 ^ prec)%Z -> Forall (finite prec emax) y -> Forall (fun v => on_grid 0 (fval v)) y ->
  Rsum (map (fun x => Rabs (fval x)) y) <= powerRZ 2 prec -> Permutation y y' ->
  fval (fst (@mean _ (SFNum prec emax szero) y)) = fval (fst (@mean _ (SFNum prec emax szero) y')).
Proof.
  intros PP NE N Fy Gy HB P.
  assert (Rp : forall a b, Permutation a b -> Rsum a = Rsum b) by (intros a b H; induction H as [|x a b H IH|x z a|a b c H1 IH1 H2 IH2]; unfold Rsum in *; cbn [fold_right]; lra).
  assert (Iy : Forall intval y) by (revert Gy; apply Forall_impl; intros a [z E]; exists z; rewrite E; cbn; ring).
  assert (NE' : y' <> []) by (intros ->; apply Permutation_sym, Permutation_nil in P; contradiction).
  destruct (int_mean prec emax PP szero y Fy Iy NE N HB) as [_ V].
  destruct (int_mean prec emax PP szero y') as [_ V'].
  - eapply Permutation_Forall; eassumption.
  - eapply Permutation_Forall; eassumption.
  - exact NE'.
  - rewrite <- (Permutation_length P). exact N.
  - unfold fa. rewrite <- (Rp _ _ (Permutation_map _ P)). exact HB.
  - cbv zeta in V, V'. rewrite V, V'. f_equal. unfold Rmean, fv. rewrite (Rp _ _ (Permutation_map fval P)), !map_length, (Permutation_length P). reflexivity.
Qed.
Print Assumptions C133_mean_order.

(** Differences of neighbouring fixed-point samples are exact. *)
Theorem C133_lag_diff_exact prec emax szero g (y : list spec_float) :
  (1 < prec < emax)%Z -> (3 - emax - prec <= g)%Z -> (g + prec < emax)%Z ->
  Forall (finite prec emax) y -> Forall (fun v => on_grid g (fval v)) y -> Forall (fun v => Rabs (fval v) <= powerRZ 2 (prec + g) / 2) y ->
  map fval (@lag_diff _ (SFNum prec emax szero) y) = lag_diff (map fval y) /\ Forall (finite prec emax) (@lag_diff _ (SFNum prec emax szero) y).
Proof.
  intros PP G1 G2 Fy Gy By. unfold lag_diff. destruct y as [|a y]; [split; [reflexivity|constructor]|]. cbn [skipn map].
  revert a Fy Gy By. induction y as [|b y IH]; intros a Fy Gy By; [split; [reflexivity|constructor]|].
  apply Forall_cons_iff in Fy, Gy, By. destruct Fy as [Fa Fy], Gy as [Ga Gy], By as [Ba By]. destruct (IH b Fy Gy By) as [I1 I2].
  cbn [zip map fst snd]. pose proof (Forall_inv Fy) as Fb. pose proof (Forall_inv Gy) as Gb. pose proof (Forall_inv By) as Bb. cbn beta in Bb.
  destruct (ex_sub prec emax g PP G1 G2 b a (fval b) (fval a)) as (E1 & E2 & _); [split; [exact Fb|split; [reflexivity|exact Gb]]|split; [exact Fa|split; [reflexivity|exact Ga]]| |].
  { unfold Rminus. eapply Rle_trans; [apply Rabs_triang|]. rewrite Rabs_Ropp. lra. }
  split; [f_equal; [exact E2|exact I1]|constructor; [exact E1|exact I2]].
Qed.
Print Assumptions C133_lag_diff_exact.

(** One, three, two through a running sum (y[n] = y[n-1] + x[n], a section with feedback) and then a
    difference (y[n] = x[n] - x[n-1]): the hypotheses of C133_filter_exact hold in f64. *)
Definition w0 : spec_float := S754_zero false.
Definition w1 : spec_float := S754_finite false 4503599627370496 (-52).
Definition wm : spec_float := S754_finite true 4503599627370496 (-52).
Definition w3 : spec_float := S754_finite false 6755399441055744 (-51).
Definition w2 : spec_float := S754_finite false 4503599627370496 (-51).
Definition running_sum : Sos spec_float := mkSos w1 w0 w0 w1 wm w0 w0 w0.
Definition difference : Sos spec_float := mkSos w1 wm w0 w1 w0 w0 w0 w0.
Lemma w_vals : fval w0 = 0 /\ fval w1 = 1 /\ fval wm = -1 /\ fval w3 = 3 /\ fval w2 = 2.
Proof. unfold w0, w1, wm, w3, w2, fval. rewrite <- !bpow_powerRZ. cbn. lra. Qed.
Lemma w_grid c z : fval c = IZR z -> on_grid 0 (fval c).
Proof. intros E. exists z. rewrite E. cbn. ring. Qed.
Lemma two53 : 100 <= powerRZ 2 (53 + 0).
Proof. rewrite <- bpow_powerRZ. cbn. lra. Qed.
Example C133_ex : Forall (finite 53 1024) [w1; w3; w2] /\ Forall (fun v => on_grid 0 (fval v)) [w1; w3; w2] /\
  Forall (finite_sos 53 1024) [running_sum; difference] /\
  Forall (fun s => Forall (fun c => on_grid 0 (fval c)) [b0 s; b1 s; b2 s; a1 s; a2 s] /\ on_grid 0 (fval (zi0 s)) /\ on_grid 0 (fval (zi1 s))) [running_sum; difference] /\
  stays_small (powerRZ 2 (53 + 0)) (map sos_val [running_sum; difference]) (map fval [w1; w3; w2]).
Proof.
  destruct w_vals as (E0 & E1 & Em & E3 & E2).
  assert (K0 := w_grid w0 0 E0). assert (K1 := w_grid w1 1 E1). assert (Km := w_grid wm (-1) Em). assert (K3 := w_grid w3 3 E3). assert (K2 := w_grid w2 2 E2).
  split; [repeat (constructor; [split; [vm_compute; reflexivity|exact I]|]); constructor|].
  split; [repeat (constructor; [assumption|]); constructor|].
  split; [constructor; [|constructor; [|constructor]]; unfold finite_sos, running_sum, difference; cbn [M_Filter.b0 M_Filter.b1 M_Filter.b2 M_Filter.a1 M_Filter.a2 zi0 zi1]; repeat (constructor; [split; [vm_compute; reflexivity|exact I]|]); constructor|].
  split; [constructor; [|constructor; [|constructor]]; unfold running_sum, difference; cbn [M_Filter.b0 M_Filter.b1 M_Filter.b2 M_Filter.a1 M_Filter.a2 zi0 zi1]; (split; [repeat (constructor; [assumption|]); constructor|split; assumption])|].
  pose proof two53 as T. generalize dependent (powerRZ 2 (53 + 0)). intros B T. clear - E0 E1 Em E3 E2 T.
  unfold running_sum, difference, sos_val. cbn [map M_Filter.b0 M_Filter.b1 M_Filter.b2 M_Filter.a0 M_Filter.a1 M_Filter.a2 zi0 zi1]. rewrite E0, E1, Em, E3, E2.
  cbn [stays_small]. exists 3, 6, [1; 4; 6], [mkSos 1 0 0 1 (-1) 0 6 0].
  split; [rewrite sosfilt_dyn_pure; unfold filt, sosfilt_item, biquad_fold, set_state; cbn [M_Filter.b0 M_Filter.b1 M_Filter.b2 M_Filter.a0 M_Filter.a1 M_Filter.a2 zi0 zi1 nadd nmul nsub RNum]; repeat (f_equal; try ring)|].
  split; [repeat (constructor; [apply Rabs_le; lra|]); constructor|]. split; [repeat (constructor; [apply Rabs_le; lra|]); constructor|].
  split; [lra|]. split; [lra|]. cbn [M_Filter.b0 M_Filter.b1 M_Filter.b2 M_Filter.a1 M_Filter.a2 zi0 zi1].
  assert (A1 : Rabs (-1) = 1) by (rewrite Rabs_left; lra). rewrite A1, Rabs_R0, Rabs_R1. split; [lra|].
  exists 6, 3, [1; 3; 2], [mkSos 1 (-1) 0 1 0 0 (-6) 0].
  split; [rewrite sosfilt_dyn_pure; unfold filt, sosfilt_item, biquad_fold, set_state; cbn [M_Filter.b0 M_Filter.b1 M_Filter.b2 M_Filter.a0 M_Filter.a1 M_Filter.a2 zi0 zi1 nadd nmul nsub RNum]; repeat (f_equal; try ring)|].
  split; [repeat (constructor; [apply Rabs_le; lra|]); constructor|]. split; [repeat (constructor; [apply Rabs_le; lra|]); constructor|].
  split; [lra|]. split; [lra|]. cbn [M_Filter.b0 M_Filter.b1 M_Filter.b2 M_Filter.a1 M_Filter.a2 zi0 zi1]. rewrite ?A1, ?Rabs_R0, ?Rabs_R1. split; [lra|exact I].
Qed.
(** Beyond 2^53 sums round: 2^53 + 1 is not an f64, so a running sum over [2^53; 1] is not exact. *)
Example C133_limit_ex : let t := S754_finite false 4503599627370496 1 in
  fst (match @sosfilt_dyn _ F64Num [t; w1] [running_sum] with Ok p => p | _ => ([], []) end) = [t; t].
Proof. vm_compute. reflexivity. Qed.
(** Order matters in general: 1e16 - 1e16 + 1 against 1e16 + 1 - 1e16 in f64. *)
Example C133_order_ex : let a := S754_finite false 5000000000000000 1 in let b := S754_finite true 5000000000000000 1 in
  fst (@mean _ F64Num [a; w1; b]) <> fst (@mean _ F64Num [a; b; w1]).
Proof. vm_compute. discriminate. Qed.
