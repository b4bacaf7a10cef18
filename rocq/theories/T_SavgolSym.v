(** Symmetries of Savitzky-Golay filtering: the polynomial orders come in pairs that give the same
    filter, a reversed signal gives the reversed output, and, in floats, a signal turned upside down
    gives the output turned upside down, without any rounding difference. *)
From Coq Require Import Reals List Arith Lia Lra Psatz ZArith SpecFloat.
From Verif Require Import Base Num MachInt M_Special M_Linalg M_Savgol S_Stats S_Special S_Savgol S_SavgolFit S_Mirror RSum P_Stats P_Savgol P_Mirror T_SavgolFit.
Import ListNotations.
Local Open Scope R_scope.

(** * C130 *)
(** Fits of order [po] and [po + 1] give the same coefficients if [po] and [der] are both even or both
    odd: smoothing with parabolas is smoothing with cubics. *)
Theorem C130_order_pairs lstsq md pw w po der delta :
  solver_least_norm lstsq w po der delta -> solver_least_norm lstsq w (po + 1) der delta ->
  (0 < pw)%Z -> (po + 1 < w)%nat -> (der <= po)%nat -> Nat.even (po + der) = true -> (Z.of_nat (fact der) <= imax (usize_t pw))%Z ->
  (exists c, savgol_coeffs_dyn lstsq md pw w po (Some der) (Some delta) = Ok c /\ length c = w /\
     savgol_coeffs_dyn lstsq md pw w (po + 1) (Some der) (Some delta) = Ok c) /\
  ((w mod 2 = 1)%nat -> (po + 3 <= w)%nat -> forall y : list R,
     savgol_filter_dyn lstsq md pw y w po (Some der) (Some delta) = savgol_filter_dyn lstsq md pw y w (po + 1) (Some der) (Some delta)).
Proof.
  intros HL HL1 Hp Hw Hd Ev Hf.
  assert (E : exists c, savgol_coeffs_dyn lstsq md pw w po (Some der) (Some delta) = Ok c /\ length c = w /\
     savgol_coeffs_dyn lstsq md pw w (po + 1) (Some der) (Some delta) = Ok c).
  { destruct (coeffs_least lstsq md pw w po der delta HL Hp ltac:(lia) Hd Hf) as (c & Ec & M & Lst).
    destruct (coeffs_least lstsq md pw w (po + 1) der delta HL1 Hp ltac:(lia) ltac:(lia) Hf) as (c1 & Ec1 & M1 & Lst1).
    destruct (C104_savgol_symmetric lstsq md pw w po der delta HL Hp ltac:(lia) Hd Hf) as (c2 & Ec2 & _ & Sy). rewrite Ec in Ec2. injection Ec2 as <-.
    exists c. split; [exact Ec|]. split; [apply M|]. rewrite Ec1. f_equal.
    assert (Pm : forall j, (j < w)%nat -> position w (w - 1 - j) = - position w j).
    { intros j Hj. unfold position. rewrite !minus_INR by lia. cbn [INR]. field. }
    assert (Z : rsum w (fun j => position w j ^ (po + 1) * nth j c 0) = 0).
    { set (T := rsum w _). assert (K : T = - T); [|lra]. unfold T at 1. rewrite rsum_rev. replace (- T) with (-1 * T) by ring. unfold T. rewrite <- rsum_scale. apply rsum_ext. intros j Hj.
      rewrite Pm, Sy by exact Hj. replace (- position w j) with (-1 * position w j) by ring. rewrite Rpow_mult_distr.
      assert (Q : (-1) ^ (po + 1) * (-1) ^ der = -1).
      { rewrite <- pow_add. apply Nat.even_spec in Ev. destruct Ev as [q Eq]. replace (po + 1 + der)%nat with (S (2 * q)) by lia. apply pow_1_odd. }
      replace ((-1) ^ (po + 1) * position w j ^ (po + 1) * ((-1) ^ der * nth j c 0)) with (((-1) ^ (po + 1) * (-1) ^ der) * (position w j ^ (po + 1) * nth j c 0)) by ring. rewrite Q. reflexivity. }
    set (r := fun j => nth j c 0 - nth j c1 0).
    assert (Hr : forall m, (m <= po + 1)%nat -> rsum w (fun j => position w j ^ m * r j) = 0).
    { intros m Hm. unfold r. rewrite (rsum_ext w _ (fun j => position w j ^ m * nth j c 0 - position w j ^ m * nth j c1 0)) by (intros; ring). rewrite rsum_minus, (proj2 M1 m Hm).
      destruct (Nat.eq_dec m (po + 1)) as [->|N]; [|rewrite (proj2 M m ltac:(lia)); ring]. rewrite Z. destruct (Nat.eqb_spec (po + 1) der); [lia|ring]. }
    pose proof (least_orth w po der delta c r M Lst (fun m Hm => Hr m ltac:(lia))) as O. pose proof (least_orth w (po + 1) der delta c1 r M1 Lst1 Hr) as O1.
    assert (Zr : rsum w (fun j => r j * r j) = 0).
    { rewrite (rsum_ext w _ (fun j => nth j c 0 * r j - nth j c1 0 * r j)) by (intros; unfold r; ring). rewrite rsum_minus, O, O1. ring. }
    apply (nth_ext _ _ 0 0); [destruct M, M1; congruence|]. intros j Hj. rewrite (proj1 M1) in Hj. pose proof (rsum_sq_zero w r Zr j Hj) as Rj. unfold r in Rj. lra. }
  split; [exact E|]. intros Ho H3 y. destruct E as (c & Ec & Lc & Ec1).
  rewrite (savgol_fir_gen lstsq md pw y w po (Some der) (Some delta) c) by (assumption || lia).
  rewrite (savgol_fir_gen lstsq md pw y w (po + 1) (Some der) (Some delta) c) by (assumption || lia). reflexivity.
Qed.
Print Assumptions C130_order_pairs.

(** Filter the reversed signal: the reversed output, with the sign changed for odd derivatives. *)
Theorem C130_reversal lstsq md pw w po der delta (y : list R) :
  solver_least_norm lstsq w po der delta ->
  (0 < pw)%Z -> (w mod 2 = 1)%nat -> (po + 2 <= w)%nat -> (der <= po)%nat -> (Z.of_nat (fact der) <= imax (usize_t pw))%Z ->
  exists out, savgol_filter_dyn lstsq md pw y w po (Some der) (Some delta) = Ok out /\ length out = length y /\
    savgol_filter_dyn lstsq md pw (rev y) w po (Some der) (Some delta) = Ok (map (fun v => (-1) ^ der * v) (rev out)).
Proof.
  intros HL Hp Ho Hw Hd Hf. destruct (C104_savgol_symmetric lstsq md pw w po der delta HL Hp ltac:(lia) Hd Hf) as (c & Ec & Lc & Sy).
  eexists. split; [apply savgol_fir_gen; eassumption|]. rewrite map_length, seq_length. split; [reflexivity|].
  rewrite (savgol_fir_gen lstsq md pw (rev y) w po (Some der) (Some delta) c) by assumption. f_equal. rewrite rev_length. set (n := length y).
  apply (nth_ext _ _ 0 0); [rewrite !map_length, rev_length, map_length, !seq_length; reflexivity|]. intros i Hi. rewrite map_length, seq_length in Hi.
  rewrite nth_map_seq' by exact Hi. set (out := map _ (seq 0 n)). assert (Lo : length out = n) by (unfold out; rewrite map_length, seq_length; reflexivity).
  rewrite (nth_indep _ 0 ((fun v => (-1) ^ der * v) 0)) by (rewrite map_length, rev_length, Lo; exact Hi). rewrite (map_nth (fun v => (-1) ^ der * v)). rewrite rev_nth by (rewrite Lo; exact Hi). rewrite Lo.
  unfold out. rewrite nth_map_seq' by lia. rewrite !nsum_Rsum, !Rsum_seq, <- rsum_scale. rewrite rsum_rev. apply rsum_ext. intros k Hk. rewrite !Nat.add_0_l.
  cbn [nmul RNum]. change (@nzero R RNum) with 0. replace (w - 1 - (w - 1 - k))%nat with k by lia.
  assert (S1 : (-1) ^ der * (-1) ^ der = 1) by (rewrite <- Rpow_mult_distr; replace (-1 * -1) with 1 by ring; apply pow1).
  assert (Ei : clamped (rev y) (w / 2) i (w - 1 - k) = clamped y (w / 2) (n - S i) k).
  { unfold clamped. rewrite rev_length. fold n. set (h := (w / 2)%nat). assert (Hwh : w = (2 * h + 1)%nat) by (unfold h; pose proof (Nat.div_mod w 2); lia).
    rewrite rev_nth by (fold n; lia). fold n. f_equal. lia. }
  rewrite Ei. rewrite (Sy k Hk). replace ((-1) ^ der * (clamped y (w / 2) (n - S i) k * ((-1) ^ der * nth k c 0))) with (((-1) ^ der * (-1) ^ der) * (clamped y (w / 2) (n - S i) k * nth k c 0)) by ring.
  rewrite S1, Rmult_1_l. reflexivity.
Qed.
Print Assumptions C130_reversal.

(** In floats, whatever the solver does: the negated signal gives the negated output, bit for bit (the
    sign of zeros aside), infinities and NaN included. *)
Section Mirror.
Variables (prec emax : Z) (szero : bool).
Local Instance NSM : Num spec_float := SFNum prec emax szero.
Theorem C130_mirror lstsq md pw (y y' : list spec_float) w po der delta : Forall2 mirrored y y' ->
  same_outcome (Forall2 mirrored) (savgol_filter_dyn lstsq md pw y w po der delta) (savgol_filter_dyn lstsq md pw y' w po der delta).
Proof.
  intros H. unfold savgol_filter_dyn. destruct (Nat.eqb (w mod 2) 0); [exact I|]. destruct (Nat.ltb w (po + 2)); [exact I|].
  destruct (savgol_coeffs_dyn lstsq md pw w po der delta) as [c| | |]; cbn [bind]; try exact I.
  destruct H as [|a b y y' Hab H]; [constructor|].
  set (d := repeat a (w / 2 + 1) ++ y). set (d' := repeat b (w / 2 + 1) ++ y').
  assert (Rp : forall n u v, mirrored u v -> Forall2 mirrored (repeat u n) (repeat v n)) by (induction n; intros; cbn [repeat]; constructor; auto).
  assert (D : Forall2 mirrored d d') by (apply Forall2_app; [apply Rp, Hab|exact H]).
  pose proof (nth_error_rel _ _ _ 0 (rev_rel _ _ _ D)) as Q. destruct (nth_error (rev d) 0) as [e|], (nth_error (rev d') 0) as [e'|]; try contradiction; cbn [unwrap bind]; [|exact I].
  cbn [same_outcome]. assert (D2 : Forall2 mirrored (d ++ repeat e (w / 2)) (d' ++ repeat e' (w / 2))) by (apply Forall2_app; [exact D|apply Rp, Q]).
  set (g := d ++ repeat e (w / 2)) in *. set (g' := d' ++ repeat e' (w / 2)) in *.
  apply (map_rel (Forall2 mirrored)).
  - unfold windows. rewrite (sl_length _ _ _ D2). generalize (seq 0 (length g + 1 - w)). intros l. induction l as [|i l IH]; cbn [map]; constructor; [|exact IH].
    apply firstn_rel, skipn_rel, D2.
  - intros u v Huv. apply (sum_signed prec emax szero true). clear - Huv. revert Huv. generalize (rev c). intros l Huv. revert l. induction Huv as [|p q u v Hpq Huv IH]; intros l; [constructor|].
    destruct l as [|k l]; cbn [zip map]; constructor; [|apply IH]. cbn [fst snd]. apply (mul_r prec emax k true). exact Hpq.
Qed.
End Mirror.
Print Assumptions C130_mirror.

(** The moving average of three samples is the least-norm solution for orders 0 and 1. *)
Example C130_hyp_met : solver_least_norm average3 3 0 0 1 /\ solver_least_norm average3 3 (0 + 1) 0 1 /\ Nat.even (0 + 0) = true /\ (0 + 3 <= 3)%nat.
Proof.
  split; [|split; [exact (proj1 C104_hyp_met)|split; [reflexivity|lia]]].
  intros A y eps H. exists [1 / 3; 1 / 3; 1 / 3]. split; [reflexivity|].
  pose proof H as (Nr & Nc & E & Ly & Y). split.
  - split; [symmetry; exact Nc|]. intros i Hi. rewrite Nr in Hi.
    rewrite (solves_rsum 3 0 0 1 A _ y H) by lia. rewrite Y by lia. unfold position. destruct i as [|i]; [|lia]; cbn; lra.
  - intros x' [Lx Sx]. rewrite Nc in Lx. destruct x' as [|a [|b [|c [|]]]]; try discriminate Lx.
    specialize (Sx 0%nat ltac:(lia)). rewrite (solves_rsum 3 0 0 1 A _ y H) in Sx by lia. rewrite Y in Sx by lia. cbn in Sx. cbn [map Rsum fold_right]. unfold Rsum. cbn.
    assert (c = 1 - a - b) by lra. subst c. pose proof (Rle_0_sqr (a - 1 / 3)). pose proof (Rle_0_sqr (b - 1 / 3)). pose proof (Rle_0_sqr (1 - a - b - 1 / 3)). unfold Rsqr in *. lra.
Qed.
