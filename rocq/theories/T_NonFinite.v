(** C122: what infinities and NaN do, in every IEEE 754 format.  A filter never recovers from
    one; zero-phase filtering loses the whole signal; a Savitzky-Golay filter loses one window;
    the statistics all become infinite or NaN. *)
From Coq Require Import List Arith ZArith SpecFloat Lia.
From Verif Require Import Base Num Trans M_Complex M_Linalg M_Filter M_Design M_Stats M_Savgol S_Filter S_Savgol S_NonFinite P_Sosfilt P_Filtfilt P_NonFinite P_Proto T_Savgol.
Import ListNotations.

(** One infinite or NaN sample: the output up to it is that of the samples before, and no later
    output is finite - in this call or, because the delays are lost, in any later one. *)
Theorem C122_sosfilt_never_recovers prec emax szero (x : list spec_float) (sections : list (Sos spec_float)) (k : nat) :
  let filter := @sosfilt_dyn _ (SFNum prec emax szero) in
  sections <> [] -> (k < length x)%nat -> not_finite (nth k x (S754_zero false)) ->
  exists y sections', filter x sections = Ok (y, sections') /\ length y = length x /\
    (exists before, filter (firstn k x) sections = Ok (firstn k y, before)) /\
    (forall n, (k <= n < length x)%nat -> not_finite (nth n y (S754_zero false))) /\
    (forall x2, exists y2 sections2, filter x2 sections' = Ok (y2, sections2) /\ length y2 = length x2 /\ Forall not_finite y2).
Proof.
  intros filter Hs Hk Hx. destruct (filt_input prec emax szero x sections k Hs Hk Hx) as [A B].
  set (NI := SFNum prec emax szero) in *. exists (fst (filt x sections)), (snd (filt x sections)). unfold filter. rewrite sosfilt_dyn_pure. split; [f_equal; apply surjective_pairing|].
  split; [apply filt_length_out|]. split; [|split; [exact A|]].
  - exists (snd (filt (firstn k x) sections)). rewrite sosfilt_dyn_pure. pose proof (filt_prefix prec emax szero x sections k) as Q. unfold NN in Q. fold NI in Q. rewrite Q. f_equal. apply surjective_pairing.
  - intros x2. exists (fst (filt x2 (snd (filt x sections)))), (snd (filt x2 (snd (filt x sections)))). rewrite sosfilt_dyn_pure. split; [f_equal; apply surjective_pairing|]. split; [apply filt_length_out|].
    apply (filt_state prec emax szero); [exact B|]. intros Q. pose proof (filt_length_st x sections) as L. rewrite Q in L. destruct sections; [apply Hs; reflexivity|discriminate L].
Qed.
Print Assumptions C122_sosfilt_never_recovers.

(** A NaN sample makes all later outputs NaN. *)
Theorem C122_sosfilt_nan prec emax szero (x : list spec_float) (sections : list (Sos spec_float)) (k : nat) :
  sections <> [] -> (k < length x)%nat -> nth k x (S754_zero false) = S754_nan ->
  exists y sections', @sosfilt_dyn _ (SFNum prec emax szero) x sections = Ok (y, sections') /\
    (forall n, (k <= n < length x)%nat -> nth n y (S754_zero false) = S754_nan) /\
    (forall x2, exists sections2, @sosfilt_dyn _ (SFNum prec emax szero) x2 sections' = Ok (map (fun _ => S754_nan) x2, sections2)).
Proof.
  intros Hs Hk Hx. destruct (filt_nan prec emax szero x sections k Hs Hk Hx) as [A B]. pose proof (filt_nan_state prec emax szero) as C. unfold NN in A, B, C. set (NI := SFNum prec emax szero) in *.
  exists (fst (filt x sections)), (snd (filt x sections)). rewrite sosfilt_dyn_pure. split; [f_equal; apply surjective_pairing|]. split; [exact A|].
  intros x2. exists (snd (filt x2 (snd (filt x sections)))). rewrite sosfilt_dyn_pure. rewrite (surjective_pairing (filt x2 (snd (filt x sections)))) at 1. do 2 f_equal.
  destruct (C x2 (snd (filt x sections)) B) as [D _].
  { intros Q. pose proof (filt_length_st x sections) as L. rewrite Q in L. destruct sections; [apply Hs; reflexivity|discriminate L]. }
  pose proof (filt_length_out x2 (snd (filt x sections))) as L. clear -D L. set (y := fst _) in *. clearbody y. revert x2 L. induction y as [|v y IH]; intros [|u x2] L; cbn in L; try discriminate L; [reflexivity|].
  inversion D as [|a b <- D2]; subst. cbn [map]. f_equal. apply IH; [exact D2|lia].
Qed.
Print Assumptions C122_sosfilt_nan.

(** Zero-phase filtering: one infinite or NaN sample anywhere, and no output is finite. *)
Theorem C122_sosfiltfilt_all_lost prec emax szero (x y : list spec_float) (sections : list (Sos spec_float)) v :
  sections <> [] -> In v x -> not_finite v -> @sosfiltfilt_dyn _ (SFNum prec emax szero) x sections = Ok y ->
  length y = length x /\ Forall not_finite y.
Proof.
  intros Hs Hi Hv E. rewrite sosfiltfilt_eq in E. set (NI := SFNum prec emax szero) in *. destruct (length x <=? 3 * taps sections); [discriminate E|].
  pose proof (sosfilt_zi_loop_total sections (@none _ NI)) as T. unfold sosfilt_zi_dyn in E. destruct (forallb some_den sections); [|rewrite T in E; discriminate E].
  destruct T as (init & Ei & C). rewrite Ei in E. cbn [bind] in E. injection E as <-.
  assert (Hn : init <> []) by (intros ->; destruct sections; [apply Hs; reflexivity|discriminate C]).
  assert (Hsc : forall a, scale_state a init <> []) by (intros a Q; destruct init; [apply Hn; reflexivity|discriminate Q]).
  split; [apply filtfilt_length|]. unfold filtfilt. cbn zeta. set (e := 3 * taps sections). set (ext := odd_extension e x).
  assert (Hin : In v ext) by (unfold ext, odd_extension; cbn zeta; apply in_or_app; right; apply in_or_app; left; exact Hi).
  apply In_nth with (d := S754_zero false) in Hin. destruct Hin as (k & Hk & Ek).
  destruct (filt_input prec emax szero ext (scale_state (nth 0 ext nzero) init) k (Hsc _) Hk ltac:(change (@nzero _ (NN prec emax szero)) with (S754_zero false); rewrite Ek; exact Hv)) as [A _].
  unfold NN in A. fold NI in A. pose proof (filt_length_out ext (scale_state (nth 0 ext nzero) init)) as L.
  set (fwd := fst (filt ext (scale_state (nth 0 ext nzero) init))) in *.
  assert (R0 : not_finite (nth 0 (rev fwd) nzero)). { rewrite rev_nth by lia. apply A. lia. }
  assert (Lr : 0 < length (rev fwd)) by (rewrite rev_length; lia).
  destruct (filt_input prec emax szero (rev fwd) (scale_state (nth 0 (rev fwd) nzero) init) 0 (Hsc _) Lr R0) as [B _].
  unfold NN in B. fold NI in B. pose proof (filt_length_out (rev fwd) (scale_state (nth 0 (rev fwd) nzero) init)) as L2.
  set (bwd := fst (filt (rev fwd) (scale_state (nth 0 (rev fwd) nzero) init))) in *.
  apply Forall_forall. intros w Hw. rewrite <- in_rev in Hw.
  assert (Hw2 : In w bwd) by (rewrite <- (firstn_skipn e bwd); apply in_or_app; right; rewrite <- (firstn_skipn (length x) (skipn e bwd)); apply in_or_app; left; exact Hw).
  apply In_nth with (d := @nzero _ NI) in Hw2. destruct Hw2 as (n & Hn2 & <-). apply B. lia.
Qed.
Print Assumptions C122_sosfiltfilt_all_lost.


(** Statistics of samples one of which is infinite or NaN. *)
Theorem C122_statistics prec emax szero (y : list spec_float) v :
  let NF := SFNum prec emax szero in
  In v y -> not_finite v ->
  not_finite (fst (@mean _ NF y)) /\ (In S754_nan y -> fst (@mean _ NF y) = S754_nan) /\
  fst (@variance _ NF y) = S754_nan /\ fst (@stdev _ NF y) = S754_nan /\
  @zscore _ NF y = map (fun _ => S754_nan) y /\
  (forall k, @autocorr _ NF y k = S754_nan) /\
  not_finite (@rms_fast32 _ NF y) /\ ((2 <= length y)%nat -> not_finite (@rmssd _ NF y)).
Proof.
  intros NF Hi Hv. split; [apply (mean_nf prec emax szero y v Hi Hv)|]. split; [intros Hn; exact (proj2 (mean_nf prec emax szero y S754_nan Hn (or_introl eq_refl)) eq_refl)|].
  pose proof (variance_nan prec emax szero y v Hi Hv) as V. pose proof (stdev_nan prec emax szero y v Hi Hv) as S. unfold NN in V, S. fold NF in V, S.
  rewrite V, S. split; [reflexivity|]. split; [reflexivity|]. split; [|split; [|split]].
  - unfold zscore. rewrite S. cbn [fst]. apply map_ext. intros a. apply (nan_div_r prec emax szero).
  - intros k. unfold autocorr. rewrite V. destruct (mean y) as [avg n]. apply (nan_div_r prec emax szero).
  - exact (rms_nf prec emax szero y v Hi Hv).
  - intros L. exact (rmssd_nf prec emax szero y v Hi Hv L).
Qed.
Print Assumptions C122_statistics.

(** Savitzky-Golay: exactly one window is lost. *)
Theorem C122_savgol prec emax szero lstsq md pw (y : list spec_float) w po der del c k :
  let NF := SFNum prec emax szero in
  w mod 2 = 1 -> po + 2 <= w -> @savgol_coeffs_dyn _ NF lstsq md pw w po der del = Ok c -> length c = w ->
  k < length y -> not_finite (nth k y (S754_zero false)) ->
  exists out, @savgol_filter_dyn _ NF lstsq md pw y w po der del = Ok out /\ length out = length y /\
    (forall i, i < length y -> i <= k + w / 2 -> k <= i + w / 2 -> not_finite (nth i out (S754_zero false))) /\
    (forall y2 i, length y2 = length y -> (forall j, j <> k -> nth j y2 (S754_zero false) = nth j y (S754_zero false)) -> i < length y -> k + w / 2 < i \/ i + w / 2 < k ->
       exists out2, @savgol_filter_dyn _ NF lstsq md pw y2 w po der del = Ok out2 /\ nth i out2 (S754_zero false) = nth i out (S754_zero false)).
Proof.
  intros NF Hw Hpo Hc Lc Hk Hv. destruct (C35_savgol_fir _ NF lstsq md pw y w po der del c Hw Hpo Hc Lc) as (out & E & L & V).
  exists out. split; [exact E|]. split; [exact L|]. assert (W : w = 2 * (w / 2) + 1) by (pose proof (Nat.div_mod w 2 ltac:(lia)); lia). set (h := w / 2) in *. split.
  - intros i Hi H1 H2. rewrite (nth_error_nth out i (S754_zero false) (V i Hi)).
    apply (nsum_nf prec emax szero _ (nmul (clamped y h i (k + h - i)) (nth (w - 1 - (k + h - i)) c nzero))).
    + apply in_map_iff. exists (k + h - i). split; [reflexivity|]. apply in_seq. lia.
    + apply (nf_mul_l prec emax szero). unfold clamped. replace (Nat.min (length y - 1) (i + (k + h - i) - h)) with k by lia. exact Hv.
  - intros y2 i L2 Q Hi Out. destruct (C35_savgol_fir _ NF lstsq md pw y2 w po der del c Hw Hpo Hc Lc) as (out2 & E2 & _ & V2). exists out2. split; [exact E2|].
    rewrite (nth_error_nth out2 i (S754_zero false) (V2 i ltac:(lia))), (nth_error_nth out i (S754_zero false) (V i Hi)). f_equal. apply map_ext_in. intros j Hj. apply in_seq in Hj.
    fold h. f_equal. unfold clamped. rewrite L2. apply Q. lia.
Qed.
Print Assumptions C122_savgol.

(** ** Non-vacuity *)
Example C122_ex : let one := @none _ F64Num in exists (y : list spec_float) s',
  @sosfilt_dyn _ F64Num [S754_zero false; S754_infinity false; S754_zero false; S754_zero false] [@Sos_new _ F64Num one one (SFopp one) one (S754_zero false) one] = Ok (y, s') /\
  y = [S754_zero false; S754_infinity false; S754_nan; S754_nan].
Proof. cbv zeta. eexists. eexists. split; [vm_compute; reflexivity|reflexivity]. Qed.
(** An infinite sample does not always give NaN at once, and a finite sample list has finite
    statistics: the hypotheses matter. *)
Example C122_finite_ex : exists m, fst (@mean _ F64Num [@none _ F64Num; @none _ F64Num]) = m /\ ~ not_finite m.
Proof. eexists. split; [vm_compute; reflexivity|]. intros [Q|[s Q]]; discriminate Q. Qed.

(** A NaN edge passes every check of the design functions (all comparisons with it are false):
    the design succeeds and every pole is NaN. *)
Definition cnan (z : cplx spec_float) : Prop := fst z = S754_nan /\ snd z = S754_nan.
Lemma butter_prototype_shape {F} {NF : Num F} {T : Trans F} order : zk_z (buttap_dyn order) = [] /\ length (zk_p (buttap_dyn order)) = order.
Proof. unfold buttap_dyn. cbn [zk_z zk_p]. split; [reflexivity|]. rewrite map_length, step2_seq, map_length, seq_length. reflexivity. Qed.

Ltac nanify prec emax szero := repeat (rewrite ?(nan_add_l prec emax szero), ?(nan_add_r prec emax szero), ?(nan_sub_l prec emax szero), ?(nan_sub_r prec emax szero), ?(nan_mul_l prec emax szero), ?(nan_mul_r prec emax szero), ?(nan_div_l prec emax szero), ?(nan_div_r prec emax szero)).

Theorem C122_nan_edge_accepted prec emax szero (T : Trans spec_float) epsilon sort (order : nat) bt analog fs :
  (bt = Lowpass \/ bt = Highpass) -> analog <> Some true -> @ttan _ T S754_nan = S754_nan ->
  exists f, @butter_dyn _ (SFNum prec emax szero) T epsilon sort order [S754_nan] (Some bt) analog (Some OutZpk) fs = Ok (DZpk f) /\
    length (zk_p f) = order /\ Forall cnan (zk_p f).
Proof.
  intros Hb Ha Ht. set (NI := SFNum prec emax szero) in *. destruct (@butter_prototype_shape _ NI T order) as [Ez Lp].
  assert (Ea : unwrap_or analog false = false) by (destruct analog as [[|]|]; [contradiction Ha; reflexivity|reflexivity|reflexivity]).
  unfold butter_dyn, iirfilter_dyn. rewrite Ea. cbn [unwrap_or length Nat.ltb Nat.leb negb].
  set (wn := match fs with Some _ => _ | None => _ end).
  assert (Ew : wn = Ok [S754_nan]).
  { unfold wn. destruct fs as [v|]; [|reflexivity]. cbn [map]. do 2 f_equal. unfold NI. nanify prec emax szero. reflexivity. }
  rewrite Ew. clear wn Ew.
  assert (L1 : forall a : spec_float, nleb S754_nan a = false) by (intros a; destruct a; reflexivity).
  assert (L2 : forall a : spec_float, nleb a S754_nan = false) by (intros a; destruct a; reflexivity).
  cbn [bind existsb]. rewrite ?L1, ?L2. cbn [orb bind map].
  assert (Et : nmul (nmul two two) (ttan (ndiv (nmul tpi S754_nan) two)) = S754_nan).
  { unfold NI. nanify prec emax szero. rewrite Ht. nanify prec emax szero. reflexivity. }
  rewrite Et.
  destruct (buttap_dyn order) as [zz pp kk] eqn:Eb. cbn [zk_z zk_p] in Ez, Lp. subst zz.
  destruct Hb as [-> | ->]; cbn [Nat.eqb negb index nth_error bind]; unfold lp2lp_zpk_dyn, lp2hp_zpk_dyn, relative_degree_dyn, bilinear_zpk_dyn; cbn [unwrap_or zk_z zk_p zk_k length map].
  all: replace (length pp <? 0)%nat with false by (symmetry; apply Nat.ltb_ge; lia).
  all: cbn [negb Nat.eqb bind]; change (index [S754_nan] 0) with (Ok S754_nan); cbn [bind zk_z zk_p zk_k app map]; unfold relative_degree_dyn; rewrite ?repeat_length, map_length, ?Nat.sub_0_r; cbn [length].

  1: replace (length pp <? 0)%nat with false by (symmetry; apply Nat.ltb_ge; lia). 2: rewrite Nat.ltb_irrefl.
  all: cbn [bind]; eexists; split; [reflexivity|]; cbn [zk_p]; split; [rewrite !map_length; exact Lp|].
  all: apply Forall_forall; intros q Hq; apply in_map_iff in Hq; destruct Hq as (v & <- & Hv); apply in_map_iff in Hv; destruct Hv as ([a b] & <- & _).
  all: unfold cnan, cdiv, cadd, csub, cmul, cnorm_sqr, cre, cim; cbn [fst snd]; unfold NI; nanify prec emax szero; split; reflexivity.
Qed.
Print Assumptions C122_nan_edge_accepted.

(** The hypothesis on the tangent is met by any implementation that maps NaN to NaN; with one of
    them a design in double precision with a NaN edge succeeds, with two NaN poles. *)
Definition nan_trans : Trans spec_float := let u (x : spec_float) := match x with S754_nan => S754_nan | _ => S754_zero false end in
  {| texp := u; tsin := u; tcos := u; ttan := u; tsinh := u; tcosh := u; tasinh := u; tpowf := fun x _ => u x;
     tpi := S754_finite false 7074237752028440 (-51); thypot := fun x _ => u x; tatan2 := fun x _ => u x; tsignpos := fun _ => true |}.
Example C122_nan_edge_ex : exists f, @butter_dyn _ (SFNum 53 1024 false) nan_trans (S754_zero false) (fun _ _ l => l) 2 [S754_nan] (Some Lowpass) None (Some OutZpk) None = Ok (DZpk f) /\
  length (zk_p f) = 2%nat /\ Forall cnan (zk_p f).
Proof. apply C122_nan_edge_accepted; [now left|discriminate|reflexivity]. Qed.
