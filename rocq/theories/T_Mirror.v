(** Exact symmetries in IEEE 754 arithmetic, for all floats, infinities and NaN included:
    turning every sample's sign around turns the result's sign around, or leaves it as it is,
    without any rounding difference; and a filter at rest delays its output when its input is
    delayed. *)
From Coq Require Import ZArith SpecFloat List Bool Lia.
From Verif Require Import Base Num M_Filter M_Stats S_Filter S_Mirror ListUtil P_Sosfilt P_Filtfilt P_Mirror.
Import ListNotations.

(** * C127 *)
(** The filters: mirrored samples (and delay values), mirrored output. *)
Theorem C127_sosfilt_mirror prec emax szero (x x' : list spec_float) l l' :
  Forall2 mirrored x x' -> Forall2 (state_signed true) l l' ->
  exists y y' r r', @sosfilt_dyn _ (SFNum prec emax szero) x l = Ok (y, r) /\ @sosfilt_dyn _ (SFNum prec emax szero) x' l' = Ok (y', r') /\
    length y = length x /\ Forall2 mirrored y y' /\ Forall2 (state_signed true) r r'.
Proof.
  intros H Hl. destruct (filt_signed prec emax szero true x x' l l' H Hl) as [Q1 Q2].
  exists (fst (@filt _ (SFNum prec emax szero) x l)), (fst (@filt _ (SFNum prec emax szero) x' l')), (snd (@filt _ (SFNum prec emax szero) x l)), (snd (@filt _ (SFNum prec emax szero) x' l')).
  split; [rewrite sosfilt_dyn_pure, <- surjective_pairing; reflexivity|]. split; [rewrite sosfilt_dyn_pure, <- surjective_pairing; reflexivity|].
  split; [apply filt_length_out|]. split; assumption.
Qed.
Print Assumptions C127_sosfilt_mirror.
Theorem C127_sosfiltfilt_mirror prec emax szero (x x' : list spec_float) l : Forall2 mirrored x x' ->
  same_outcome (Forall2 mirrored) (@sosfiltfilt_dyn _ (SFNum prec emax szero) x l) (@sosfiltfilt_dyn _ (SFNum prec emax szero) x' l).
Proof. intros H. apply (filtfilt_signed prec emax szero true). exact H. Qed.
Print Assumptions C127_sosfiltfilt_mirror.

(** The statistics.  Location follows the sign, spread does not see it. *)
Theorem C127_stats_mirror prec emax szero (x x' : list spec_float) : Forall2 mirrored x x' ->
  let NF := SFNum prec emax szero in
  mirrored (fst (@mean _ NF x)) (fst (@mean _ NF x')) /\ snd (@mean _ NF x') = snd (@mean _ NF x) /\
  same_outcome (fun r r' => mirrored (fst r) (fst r') /\ snd r' = snd r) (@median _ NF x) (@median _ NF x') /\
  @variance _ NF x' = @variance _ NF x /\ @stdev _ NF x' = @stdev _ NF x /\
  @median_abs_deviation _ NF x' = @median_abs_deviation _ NF x /\
  @rms_fast32 _ NF x' = @rms_fast32 _ NF x /\ @rmssd _ NF x' = @rmssd _ NF x /\
  Forall2 mirrored (@zscore _ NF x) (@zscore _ NF x') /\
  same_outcome (Forall2 mirrored) (@mod_zscore _ NF x) (@mod_zscore _ NF x') /\
  Forall2 mirrored (@lag_diff _ NF x) (@lag_diff _ NF x').
Proof.
  intros H NF. destruct (mean_signed prec emax szero true x x' H) as [M1 M2]. split; [exact M1|]. split; [exact M2|].
  split; [apply median_mirror, H|]. split; [apply (variance_signed prec emax szero true), H|]. split; [apply (stdev_signed prec emax szero true), H|].
  split; [apply mad_mirror, H|]. split; [apply (rms_signed prec emax szero true), H|]. split; [apply (rmssd_signed prec emax szero true), H|].
  split; [apply (zscore_signed prec emax szero true), H|]. split; [apply mod_zscore_mirror, H|]. apply (lag_diff_signed prec emax szero true), H.
Qed.
Print Assumptions C127_stats_mirror.
(** Autocorrelations are the same numbers (a zero may have the other sign). *)
Theorem C127_autocorr_mirror prec emax szero (x x' : list spec_float) skip out : Forall2 mirrored x x' ->
  let NF := SFNum prec emax szero in
  (forall k, same_number (@autocorr _ NF x k) (@autocorr _ NF x' k)) /\
  same_outcome (fun r r' => fst (fst r') = fst (fst r) /\ Forall2 mirrored (snd (fst r)) (snd (fst r')) /\ Forall2 same_number (snd r) (snd r'))
    (@autocorr_fast32 _ NF skip x out) (@autocorr_fast32 _ NF skip x' out).
Proof.
  intros H NF. split; [intros k; apply (autocorr_signed prec emax szero true), H|]. apply (fast32_signed prec emax szero true), H.
Qed.
Print Assumptions C127_autocorr_mirror.

(** Every signal has a mirror image, namely its negation; and the sign of zero has to be left out:
    the mean of 1, -1 is +0, and so is that of -1, 1. *)
Example C127_negation_ex (x : list spec_float) : Forall2 mirrored x (map SFopp x).
Proof. induction x as [|[s|s| |s m e] x IH]; cbn [map]; constructor; try exact IH; cbn; auto. Qed.
Example C127_zero_ex :
  let one s := S754_finite s 4503599627370496 (-52) in
  fst (@mean _ F64Num [one false; one true]) = S754_zero false /\ fst (@mean _ F64Num [one true; one false]) = S754_zero false.
Proof. vm_compute. split; reflexivity. Qed.
(** A concrete run: the median of 3, 1, 2, 7 in f64 is 5/2 and that of the negations is -5/2. *)
Example C127_median_ex :
  let n s k := binary_normalize 53 1024 (if s : bool then Z.opp k else k) 0 false in
  @median _ F64Num (map (n false) [3; 1; 2; 7]%Z) = Ok (S754_finite false 5629499534213120 (-51), 4%nat) /\
  @median _ F64Num (map (n true) [3; 1; 2; 7]%Z) = Ok (S754_finite true 5629499534213120 (-51), 4%nat).
Proof. vm_compute. split; reflexivity. Qed.

(** * C128 *)
Section Delay.
Variables (prec emax : Z) (szero : bool).
Local Instance ND : Num spec_float := SFNum prec emax szero.
Definition plain (x : spec_float) : Prop := match x with S754_zero _ | S754_finite _ _ _ => True | _ => False end.
Lemma mul_zero c z : plain c -> signed false (S754_zero false) z -> signed false (S754_zero false) (SFmul prec emax c z).
Proof. destruct c, z; cbn; try contradiction; auto. Qed.
Lemma item_zero x l : signed false (S754_zero false) x ->
  Forall (fun s => Forall plain [b0 s; b1 s; b2 s; a1 s; a2 s]) l ->
  Forall (fun s => signed false (S754_zero false) (zi0 s) /\ signed false (S754_zero false) (zi1 s)) l ->
  signed false (S754_zero false) (fst (sosfilt_item x l)) /\ Forall2 (state_signed false) l (snd (sosfilt_item x l)) .
Proof.
  intros Hx Hc Hz. revert x Hx. induction l as [|s l IH]; intros x Hx; [split; [exact Hx|constructor]|].
  inversion Hc as [|? ? Cs Cl]; subst. inversion Hz as [|? ? [Z0 Z1] Zl]; subst. specialize (IH Cl Zl).
  rewrite !Forall_cons_iff in Cs. destruct Cs as (P0 & P1 & P2 & P3 & P4 & _).
  cbn [sosfilt_item]. destruct (biquad_fold x s) as [y s1] eqn:B. unfold biquad_fold in B. injection B as <- <-.
  set (y := SFadd prec emax (SFmul prec emax (b0 s) x) (zi0 s)).
  assert (Y : signed false (S754_zero false) y) by (apply (add_signed prec emax false (S754_zero false) _ (S754_zero false)); [apply mul_zero; assumption|exact Z0]).
  specialize (IH y Y). destruct (sosfilt_item y l) as [o r]. cbn [fst snd] in *. destruct IH as [Q1 Q2]. split; [exact Q1|]. constructor; [|exact Q2].
  assert (W0 : signed false (S754_zero false) (SFadd prec emax (SFsub prec emax (SFmul prec emax (b1 s) x) (SFmul prec emax (a1 s) y)) (zi1 s))).
  { apply (add_signed prec emax false (S754_zero false) _ (S754_zero false)); [|exact Z1]. apply (sub_signed prec emax false (S754_zero false) _ (S754_zero false)); apply mul_zero; assumption. }
  assert (W1 : signed false (S754_zero false) (SFsub prec emax (SFmul prec emax (b2 s) x) (SFmul prec emax (a2 s) y))).
  { apply (sub_signed prec emax false (S754_zero false) _ (S754_zero false)); apply mul_zero; assumption. }
  assert (T : forall a b, signed false (S754_zero false) a -> signed false (S754_zero false) b -> signed false a b) by (intros [] []; cbn; tauto).
  unfold state_signed. cbn. repeat split; apply T; assumption.
Qed.
Lemma signed_trans_zero a b : signed false (S754_zero false) a -> signed false a b -> signed false (S754_zero false) b.
Proof. destruct a, b; cbn; tauto. Qed.
Lemma filt_zero d sg l :
  Forall (fun s => Forall plain [b0 s; b1 s; b2 s; a1 s; a2 s]) l ->
  Forall (fun s => signed false (S754_zero false) (zi0 s) /\ signed false (S754_zero false) (zi1 s)) l ->
  Forall (same_number (S754_zero false)) (fst (filt (repeat (S754_zero sg) d) l)) /\
  Forall2 (state_signed false) l (snd (filt (repeat (S754_zero sg) d) l)).
Proof.
  revert l. induction d as [|d IH]; intros l Hc Hz.
  - cbn. split; [constructor|]. clear. induction l; constructor; [|assumption]. unfold state_signed. repeat split; apply signed_refl.
  - cbn [repeat filt]. destruct (item_zero (S754_zero sg) l I Hc Hz) as [Q1 Q2]. destruct (sosfilt_item (S754_zero sg) l) as [o r]. cbn [fst snd] in *.
    destruct (IH r) as [R1 R2].
    + clear - Hc Q2. induction Q2 as [|s t l r Hs Q2 IH]; constructor; inversion Hc; subst; [|apply IH; assumption]. destruct Hs as (-> & -> & -> & _ & -> & -> & _). assumption.
    + clear - Hz Q2. induction Q2 as [|s t l r Hs Q2 IH]; constructor; inversion Hz as [|? ? [A B] ?]; subst; [|apply IH; assumption]. destruct Hs as (_ & _ & _ & _ & _ & _ & Z0 & Z1).
      split; [exact (signed_trans_zero _ _ A Z0)|exact (signed_trans_zero _ _ B Z1)].
    + destruct (filt (repeat (S754_zero sg) d) r) as [os r']. cbn [fst snd] in *. split; [constructor; assumption|].
      assert (T : forall a b c, signed false a b -> signed false b c -> signed false a c).
      { intros [s|s| |s m e] [t|t| |t n g] [u|u| |u p h] A B; cbn [signed] in *; try contradiction; try exact I; rewrite ?xorb_false_l in *; [congruence|]. destruct A as [-> [-> ->]]. exact B. }
      clear - Q2 R2 T. revert r' R2. induction Q2 as [|s t l r Hs Q2 IH]; intros r' R2; inversion R2 as [|? v ? ? Hv R2']; subst; constructor; [|apply IH; assumption].
      destruct Hs as (A1 & A2 & A3 & A4 & A5 & A6 & A7 & A8). destruct Hv as (B1 & B2 & B3 & B4 & B5 & B6 & B7 & B8).
      unfold state_signed. repeat split; try congruence; eapply T; eassumption.
Qed.
End Delay.

(** Sections at rest with finite coefficients: after d samples of silence the output is d zeros
    and then the output without the silence, number by number, whatever the samples are. *)
Theorem C128_delay prec emax szero (x : list spec_float) l d sg :
  Forall (fun s => Forall (fun c => c <> S754_nan /\ c <> S754_infinity true /\ c <> S754_infinity false) [b0 s; b1 s; b2 s; a1 s; a2 s]) l ->
  Forall (fun s => same_number (S754_zero false) (zi0 s) /\ same_number (S754_zero false) (zi1 s)) l ->
  exists z y y' r r',
    @sosfilt_dyn _ (SFNum prec emax szero) x l = Ok (y, r) /\
    @sosfilt_dyn _ (SFNum prec emax szero) (repeat (S754_zero sg) d ++ x) l = Ok (z ++ y', r') /\
    length z = d /\ Forall (same_number (S754_zero false)) z /\ Forall2 same_number y y' /\ Forall2 (state_signed false) r r'.
Proof.
  intros Hc Hz.
  assert (Hc' : Forall (fun s => Forall plain [b0 s; b1 s; b2 s; a1 s; a2 s]) l).
  { eapply Forall_impl; [|exact Hc]. intros s. apply Forall_impl. intros [t|[]| |t m e] (Q1 & Q2 & Q3); cbn; try exact I; congruence. }
  destruct (filt_zero prec emax szero d sg l Hc' Hz) as [Q1 Q2].
  set (NF := SFNum prec emax szero) in *.
  pose proof (@filt_length_out _ NF (repeat (S754_zero sg) d) l) as L. rewrite repeat_length in L.
  assert (E : @filt _ NF (repeat (S754_zero sg) d ++ x) l =
    (fst (@filt _ NF (repeat (S754_zero sg) d) l) ++ fst (@filt _ NF x (snd (@filt _ NF (repeat (S754_zero sg) d) l))), snd (@filt _ NF x (snd (@filt _ NF (repeat (S754_zero sg) d) l))))).
  { apply filt_app. }
  set (l1 := snd (@filt _ NF (repeat (S754_zero sg) d) l)) in *.
  assert (Hx : Forall2 (signed false) x x) by (clear; induction x; constructor; [apply signed_refl|assumption]).
  destruct (filt_signed prec emax szero false x x l l1 Hx Q2) as [R1 R2].
  exists (fst (@filt _ NF (repeat (S754_zero sg) d) l)), (fst (@filt _ NF x l)), (fst (@filt _ NF x l1)), (snd (@filt _ NF x l)), (snd (@filt _ NF x l1)).
  split; [rewrite sosfilt_dyn_pure, <- surjective_pairing; reflexivity|]. split; [rewrite sosfilt_dyn_pure, E; reflexivity|].
  split; [exact L|]. split; [exact Q1|]. split; assumption.
Qed.
Print Assumptions C128_delay.
(** The section 1/2 (1 + z^-1) / (1 - z^-1/2) in f64 at rest meets the hypotheses. *)
Example C128_ex :
  let h := S754_finite false 4503599627370496 (-53) in
  let l := [mkSos h h (S754_zero false) (S754_finite false 4503599627370496 (-52)) (SFopp h) (S754_zero false) (S754_zero false) (S754_zero false)] in
  Forall (fun s => Forall (fun c => c <> S754_nan /\ c <> S754_infinity true /\ c <> S754_infinity false) [b0 s; b1 s; b2 s; a1 s; a2 s]) l /\
  Forall (fun s => same_number (S754_zero false) (zi0 s) /\ same_number (S754_zero false) (zi1 s)) l.
Proof. cbn. repeat constructor; discriminate. Qed.
