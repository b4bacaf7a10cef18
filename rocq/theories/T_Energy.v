(** C121: the energy of filtered signals, in exact arithmetic.  The smallest factor that
    bounds the energy of the output of a stable cascade at rest, for all signals, is the
    largest squared gain over all frequencies; for the digital designs it is one. *)
From Coq Require Import List Arith ZArith Reals Sorted Lra Lia.
From Verif Require Import Base Num Trans M_Complex M_Filter M_Design Cx S_Filter S_Design S_Stable S_Energy P_Sosfilt P_Transfer P_Proto P_Cheb P_Iir T_Iir P_Sos T_Sos P_Stable T_Stable S_Margin S_Margin2 T_Cheb2 P_Margin T_Margin T_Margin2 P_Bessel P_Sort P_Energy.
Import ListNotations.
Local Open Scope R_scope.

Lemma pure_energy l G : (forall x, exists y l', sosfilt_dyn x l = Ok (y, l') /\ length y = length x /\ energy y <= G ^ 2 * energy x) <-> forall x, energy (fst (filt x l)) <= G ^ 2 * energy x.
Proof.
  split; intros Q x.
  - destruct (Q x) as (y & l' & E & _ & B). rewrite sosfilt_dyn_pure in E. destruct (filt x l) as [y2 l2]. injection E as <- <-. exact B.
  - exists (fst (filt x l)), (snd (filt x l)). rewrite sosfilt_dyn_pure. split; [f_equal; apply surjective_pairing|]. split; [apply filt_length_out|apply Q].
Qed.

(** A factor bounds the energy of every output exactly when it bounds the gain at every
    frequency. *)
Theorem C121_energy_and_gain (l : list (Sos R)) (G : R) :
  stable_sections l -> Forall (fun s => zi0 s = 0 /\ zi1 s = 0) l -> 0 <= G ->
  ((forall x, exists y l', sosfilt_dyn x l = Ok (y, l') /\ length y = length x /\ energy y <= G ^ 2 * energy x) <->
   (forall theta, let z := (cos theta, sin theta) in cnorm (sos_num l z / sos_den l z)%C <= G)).
Proof.
  intros Sl Z HG. rewrite pure_energy. split; intros Q.
  - intros theta. exact (gain_le l G Sl Z HG Q theta).
  - exact (energy_le l G Sl Z HG Q).
Qed.
Print Assumptions C121_energy_and_gain.

(** The prototype frequency r is taken at some angle. *)
Lemma atan_pair t : cos (atan t) <> 0 /\ sin (atan t) = t * cos (atan t).
Proof.
  assert (Hc : 0 < cos (atan t)) by (pose proof (atan_bound t); apply cos_gt_0; lra). split; [lra|].
  pose proof (tan_atan t) as T. unfold tan in T. rewrite <- T at 2. field. lra.
Qed.
Lemma edge_pos w : 0 < w < 1 -> 0 < sin (PI * w / 2) /\ 0 < cos (PI * w / 2).
Proof. intros H. pose proof PI_RGT_0. split; [apply sin_gt_0|apply cos_gt_0]; nra. Qed.

Lemma ratio_hit bt wn r : valid_digital bt wn -> 0 <= r -> exists theta, fst (band_ratio bt wn theta) = r * snd (band_ratio bt wn theta) /\ snd (band_ratio bt wn theta) <> 0.
Proof.
  intros Hv Hr.
  enough (X : exists theta, fst (band_ratio bt wn theta) = r * snd (band_ratio bt wn theta)).
  { destruct X as [theta X]. exists theta. split; [exact X|]. pose proof (C57_band_ratio_defined bt wn theta Hv) as D. destruct (band_ratio bt wn theta) as [a b]. cbn [fst snd] in *.
    intros Z. rewrite Z in X. destruct D as [D|D]; lra. }
  destruct Hv as (Lw & Fw & Sw).
  assert (P : forall w, In w wn -> 0 < sin (PI * w / 2) /\ 0 < cos (PI * w / 2)) by (intros w Hw; rewrite Forall_forall in Fw; apply edge_pos, Fw, Hw).
  assert (Half : forall t, 2 * atan t / 2 = atan t) by (intros t; field).
  destruct bt; cbn [band_arity] in Lw; cbn [band_ratio fst snd].
  - destruct wn as [|w [|? ?]]; try discriminate Lw. cbn [nth]. destruct (P w (or_introl eq_refl)) as [s0 c0].
    set (s := sin (PI * w / 2)) in *. set (c := cos (PI * w / 2)) in *. exists (2 * atan (r * (s / c))). rewrite Half. destruct (atan_pair (r * (s / c))) as [_ ->]. field. lra.
  - destruct wn as [|w [|? ?]]; try discriminate Lw. cbn [nth]. destruct (P w (or_introl eq_refl)) as [s0 c0].
    set (s := sin (PI * w / 2)) in *. set (c := cos (PI * w / 2)) in *. destruct (Req_dec r 0) as [->|Hr0].
    + exists PI. rewrite cos_PI2. ring.
    + exists (2 * atan (s / c / r)). rewrite Half. destruct (atan_pair (s / c / r)) as [_ ->]. field. lra.
  - destruct wn as [|w0 [|w1 [|? ?]]]; try discriminate Lw. cbn [nth]. destruct (P w0 (or_introl eq_refl)) as [s0 c0]. destruct (P w1 (or_intror (or_introl eq_refl))) as [s1 c1].
    set (s := sin (PI * w0 / 2)) in *. set (c := cos (PI * w0 / 2)) in *. set (s' := sin (PI * w1 / 2)) in *. set (c' := cos (PI * w1 / 2)) in *.
    set (D := r * (s' * c - s * c')). assert (Hq : 0 <= D ^ 2 + 4 * (c * c') * (s * s')) by (assert (0 < c * c') by nra; assert (0 < s * s') by nra; nra).
    set (t := (- D + sqrt (D ^ 2 + 4 * (c * c') * (s * s'))) / (2 * (c * c'))).
    assert (Ht : c * c' * t ^ 2 + D * t - s * s' = 0).
    { pose proof (sqrt_sqrt _ Hq) as Q. unfold t. set (q := sqrt (D ^ 2 + 4 * (c * c') * (s * s'))) in *.
      replace (c * c' * ((- D + q) / (2 * (c * c'))) ^ 2 + D * ((- D + q) / (2 * (c * c'))) - s * s') with ((q * q - (D ^ 2 + 4 * (c * c') * (s * s'))) / (4 * (c * c'))) by (field; nra). rewrite Q. field. nra. }
    exists (2 * atan t). rewrite Half. destruct (atan_pair t) as [_ ->]. set (k := cos (atan t)) in *. unfold D in Ht.
    transitivity (k ^ 2 * (s * s' - c * c' * t ^ 2)); [ring|]. transitivity (k ^ 2 * (r * (s' * c - s * c') * t)); [|ring]. f_equal. lra.
  - destruct wn as [|w0 [|w1 [|? ?]]]; try discriminate Lw. cbn [nth]. destruct (P w0 (or_introl eq_refl)) as [s0 c0]. destruct (P w1 (or_intror (or_introl eq_refl))) as [s1 c1].
    set (s := sin (PI * w0 / 2)) in *. set (c := cos (PI * w0 / 2)) in *. set (s' := sin (PI * w1 / 2)) in *. set (c' := cos (PI * w1 / 2)) in *.
    destruct (Req_dec r 0) as [->|Hr0].
    { exists 0. replace (0 / 2) with 0 by field. rewrite sin_0. ring. }
    set (D := (s' * c - s * c') / r). assert (Hq : 0 <= D ^ 2 + 4 * (c * c') * (s * s')) by (assert (0 < c * c') by nra; assert (0 < s * s') by nra; nra).
    set (t := (- D + sqrt (D ^ 2 + 4 * (c * c') * (s * s'))) / (2 * (c * c'))).
    assert (Ht : c * c' * t ^ 2 + D * t - s * s' = 0).
    { pose proof (sqrt_sqrt _ Hq) as Q. unfold t. set (q := sqrt (D ^ 2 + 4 * (c * c') * (s * s'))) in *.
      replace (c * c' * ((- D + q) / (2 * (c * c'))) ^ 2 + D * ((- D + q) / (2 * (c * c'))) - s * s') with ((q * q - (D ^ 2 + 4 * (c * c') * (s * s'))) / (4 * (c * c'))) by (field; nra). rewrite Q. field. nra. }
    exists (2 * atan t). rewrite Half. destruct (atan_pair t) as [_ ->]. set (k := cos (atan t)) in *.
    transitivity (k ^ 2 * (r * (D * t))); [unfold D; field; exact Hr0|]. transitivity (k ^ 2 * (r * (s * s' - c * c' * t ^ 2))); [|ring]. do 2 f_equal. lra.
Qed.

(** From the gain of a design to the energy gain of its sections. *)
Lemma design_energy (f : @ZpkFormatFilter R) l : stable_digital f ->
  Forall (fun s => a0 s = 1 /\ zi0 s = 0 /\ zi1 s = 0) l ->
  (forall x, x <> C0 -> ~ In x (zk_p f) -> sos_den l x <> C0 /\ (sos_num l x / sos_den l x)%C = H f x) ->
  (forall x, sos_den l x = C0 -> cnorm_sqr x < 1) ->
  (forall theta, dgain_sqr f theta <= 1) -> (exists theta, dgain_sqr f theta = 1) -> energy_gain l 1.
Proof.
  intros Hst Fs Hx Hd Le [t0 Eq] G HG.
  assert (SS : stable_sections l) by (split; [eapply Forall_impl; [|exact Fs]; intros s Q; apply Q|exact Hd]).
  assert (Z : Forall (fun s => zi0 s = 0 /\ zi1 s = 0) l) by (eapply Forall_impl; [|exact Fs]; intros s Q; split; apply Q).
  rewrite (C121_energy_and_gain l G SS Z HG).
  assert (EH : forall theta, cnorm (sos_num l (cos theta, sin theta) / sos_den l (cos theta, sin theta))%C * cnorm (sos_num l (cos theta, sin theta) / sos_den l (cos theta, sin theta))%C = dgain_sqr f theta).
  { intros theta. rewrite cnorm_sq. change (cos theta, sin theta) with (E theta).
    assert (Np : ~ In (E theta) (zk_p f)). { intros Q. unfold stable_digital in Hst. rewrite Forall_forall in Hst. apply Hst in Q. rewrite E_norm in Q. lra. }
    destruct (Hx (E theta) (E_neq0 theta) Np) as [_ ->]. reflexivity. }
  split.
  - intros Q. specialize (Q t0). cbn zeta in Q. specialize (EH t0). rewrite Eq in EH. set (c := cnorm _) in *. assert (0 <= c) by apply cnorm_pos. nra.
  - intros Q theta. cbn zeta. specialize (EH theta). specialize (Le theta). set (c := cnorm _) in *. assert (0 <= c) by apply cnorm_pos. nra.
Qed.

Lemma butter_energy_sep epsilon sort N wn bt analog fs f :
  0 <= epsilon -> is_sort sort -> (0 < N)%nat -> analog <> Some true -> valid_digital bt (normalised wn fs) ->
  butter_dyn epsilon sort N wn (Some bt) analog (Some OutZpk) fs = Ok (DZpk f) -> separated epsilon (zk_z f) -> separated epsilon (zk_p f) ->
  exists l, butter_dyn epsilon sort N wn (Some bt) analog (Some OutSos) fs = Ok (DSos l) /\ energy_gain l 1.
Proof.
  intros He Hso HN Ha Hv Ef Hz Hp.
  destruct (C67_sos_output epsilon sort N wn bt analog fs 0 He Hso Ha Hv) as [[f' [Ef' Q]] _]. rewrite Ef in Ef'. injection Ef' as <-.
  destruct (Q Hz Hp) as [l [El [_ [Fs [Hx Hd]]]]].
  destruct (C57_butter_digital epsilon sort N wn bt analog fs HN Ha Hv) as [f' [Ef' [G1 [_ [_ G4]]]]]. rewrite Ef in Ef'. injection Ef' as <-.
  destruct (C58_butter_stable epsilon sort N wn bt analog fs Ha Hv) as [f' [Ef' [Hst _]]]. rewrite Ef in Ef'. injection Ef' as <-.
  exists l. split; [exact El|]. apply (design_energy f l Hst Fs Hx Hd); [intros theta; apply G4|].
  destruct (ratio_hit bt _ 0 Hv (Rle_refl 0)) as (theta & E1 & E2). exists theta. specialize (G1 theta). destruct (band_ratio bt (normalised wn fs) theta) as [a b]. cbn [fst snd] in *.
  rewrite (proj1 G1 E2). rewrite E1. unfold Rdiv at 2. rewrite !Rmult_0_l, pow_i by lia. field.
Qed.
(** A digital Butterworth filter in sections has energy gain one: no signal comes out with
    more energy, and no smaller factor would do. *)
Theorem C121_butter_energy epsilon sort N wn bt analog fs :
  0 <= epsilon -> is_sort sort -> (0 < N)%nat -> analog <> Some true -> valid_digital bt (normalised wn fs) ->
  clear_of_tolerance epsilon bt N 1 1 (normalised wn fs) ->
  exists l, butter_dyn epsilon sort N wn (Some bt) analog (Some OutSos) fs = Ok (DSos l) /\ energy_gain l 1.
Proof.
  intros He Hso HN Ha Hv HC. destruct (C57_butter_digital epsilon sort N wn bt analog fs HN Ha Hv) as [f [Ef _]].
  destruct (C82_butter_clear epsilon sort N wn bt analog fs f He HN Ha Hv HC Ef) as [Hz Hp]. exact (butter_energy_sep epsilon sort N wn bt analog fs f He Hso HN Ha Hv Ef Hz Hp).
Qed.
Print Assumptions C121_butter_energy.

Lemma cheby1_energy_sep epsilon sort N rp wn bt analog fs f :
  0 <= epsilon -> is_sort sort -> (0 < N)%nat -> 0 < rp -> analog <> Some true -> valid_digital bt (normalised wn fs) ->
  cheby1_dyn epsilon sort N rp wn (Some bt) analog (Some OutZpk) fs = Ok (DZpk f) -> separated epsilon (zk_z f) -> separated epsilon (zk_p f) ->
  exists l, cheby1_dyn epsilon sort N rp wn (Some bt) analog (Some OutSos) fs = Ok (DSos l) /\ energy_gain l 1.
Proof.
  intros He Hso HN Hrp Ha Hv Ef Hz Hp.
  destruct (C67_sos_output epsilon sort N wn bt analog fs rp He Hso Ha Hv) as [_ Q]. destruct (Q HN Hrp) as [f' [Ef' Q']]. clear Q. rename Q' into Q. rewrite Ef in Ef'. injection Ef' as <-.
  destruct (Q Hz Hp) as [l [El [_ [Fs [Hx Hd]]]]].
  destruct (C64_cheby1_digital epsilon sort N rp wn bt analog fs HN Hrp Ha Hv) as [f' [Ef' [Hst [_ [_ [_ [G1 _]]]]]]]. rewrite Ef in Ef'. injection Ef' as <-.
  exists l. split; [exact El|]. apply (design_energy f l Hst Fs Hx Hd).
  - intros theta. specialize (G1 theta). destruct (band_ratio bt (normalised wn fs) theta) as [a b]. destruct G1 as (_ & _ & A1 & A2).
    destruct (Rle_dec (Rabs a) (Rabs b)) as [Y|Y]; [apply (A1 Y)|]. eapply Rle_trans; [apply A2; lra|]. apply Rlt_le.
    replace (- rp / 10) with (- (rp / 10)) by field. rewrite <- (Rpower_O 10) by lra. apply Rpower_lt; lra.
  - assert (HN' : 0 < INR N) by (apply lt_0_INR; lia). assert (1 <= INR N) by (apply (le_INR 1); lia). pose proof PI_RGT_0.
    assert (Hr : 0 <= cos (PI / (2 * INR N))).
    { assert (0 < PI / (2 * INR N)) by (apply Rdiv_lt_0_compat; lra). apply cos_ge_0; [lra|]. apply Rmult_le_compat_l; [lra|]. apply Rinv_le_contravar; lra. }
    destruct (ratio_hit bt _ _ Hv Hr) as (theta & E1 & E2). exists theta. specialize (G1 theta). destruct (band_ratio bt (normalised wn fs) theta) as [a b]. cbn [fst snd] in *.
    rewrite (proj1 G1 E2). rewrite E1. replace (cos (PI / (2 * INR N)) * b / b) with (cos (PI / (2 * INR N))) by (field; exact E2).
    rewrite chebT_cos. replace (INR N * (PI / (2 * INR N))) with (PI / 2) by (field; lra). rewrite cos_PI2. cbn [pow]. field.
Qed.
Theorem C121_cheby1_energy epsilon sort N rp wn bt analog fs :
  0 <= epsilon -> is_sort sort -> (0 < N)%nat -> 0 < rp -> analog <> Some true -> valid_digital bt (normalised wn fs) ->
  clear_of_tolerance epsilon bt N (cosh (cheb_axis N rp)) (sinh (cheb_axis N rp)) (normalised wn fs) ->
  exists l, cheby1_dyn epsilon sort N rp wn (Some bt) analog (Some OutSos) fs = Ok (DSos l) /\ energy_gain l 1.
Proof.
  intros He Hso HN Hrp Ha Hv HC. destruct (C64_cheby1_digital epsilon sort N rp wn bt analog fs HN Hrp Ha Hv) as [f [Ef _]].
  destruct (C82_cheby1_clear epsilon sort N rp wn bt analog fs f He HN Hrp Ha Hv HC Ef) as [Hz Hp]. exact (cheby1_energy_sep epsilon sort N rp wn bt analog fs f He Hso HN Hrp Ha Hv Ef Hz Hp).
Qed.
Print Assumptions C121_cheby1_energy.

Lemma cheby2_energy_sep epsilon sort N rp rs wn bt analog fs :
  0 <= epsilon -> is_sort sort -> (0 < N)%nat -> 0 <= rp -> 0 < rs -> analog <> Some true -> valid_digital bt (normalised wn fs) -> bt = Lowpass \/ bt = Bandpass ->
  (forall f, iirfilter_dyn epsilon sort N wn (Some rp) (Some rs) (Some bt) (Some ChebyshevII) analog (Some OutZpk) fs = Ok (DZpk f) -> separated epsilon (zk_z f) /\ separated epsilon (zk_p f)) ->
  exists l, iirfilter_dyn epsilon sort N wn (Some rp) (Some rs) (Some bt) (Some ChebyshevII) analog (Some OutSos) fs = Ok (DSos l) /\ energy_gain l 1.
Proof.
  intros He Hso HN Hrp Hr Ha Hv Hb HC.
  destruct (C78_cheby2_digital_partial epsilon sort N rp rs wn bt analog fs Hso He HN Hrp Hr Ha Hv Hb) as [f [Ef [Hst [Hrf [Lz [Lp [G1 _]]]]]]].
  destruct (HC f Ef) as [Sz Sp].
  destruct (sos_agrees epsilon sort N f He Hso Hrf Hst Lz Sz Sp) as [l [El [Ll [Fs [Hx Hd]]]]].
  exists l. split.
  { rewrite cheby2_reduced in * by assumption.
    destruct (apply_band bt _ (map warp (normalised wn fs))) as [f1| | |]; cbn [bind] in *; try discriminate Ef.
    destruct (bilinear_zpk_dyn f1 2) as [f2| | |]; cbn [bind] in *; try discriminate Ef.
    assert (f2 = f) as -> by (unfold finish in Ef; cbn [unwrap_or] in Ef; apply (f_equal (fun x => match x with Ok (DZpk g) => g | _ => f2 end)) in Ef; exact Ef). exact El. }
  apply (design_energy f l Hst Fs Hx Hd).
  - intros theta. specialize (G1 theta). destruct (band_ratio bt (normalised wn fs) theta) as [a b]. destruct G1 as (_ & _ & _ & A1 & A2).
    destruct (Rle_dec (Rabs a) (Rabs b)) as [Y|Y]; [apply (A2 Y)|]. eapply Rle_trans; [apply A1; lra|]. apply Rlt_le.
    replace (- rs / 10) with (- (rs / 10)) by field. rewrite <- (Rpower_O 10) by lra. apply Rpower_lt; lra.
  - destruct (ratio_hit bt _ 0 Hv (Rle_refl 0)) as (theta & E1 & E2). exists theta. specialize (G1 theta). destruct (band_ratio bt (normalised wn fs) theta) as [a b]. cbn [fst snd] in *.
    apply G1. rewrite E1. ring.
Qed.
Theorem C121_cheby2_energy epsilon sort N rp rs wn bt analog fs :
  0 <= epsilon -> is_sort sort -> (0 < N)%nat -> 0 <= rp -> 0 < rs -> analog <> Some true -> valid_digital bt (normalised wn fs) -> bt = Lowpass \/ bt = Bandpass ->
  clear_of_tolerance2 epsilon bt N (cosh (cheb2_axis N rs)) (sinh (cheb2_axis N rs)) (normalised wn fs) ->
  exists l, iirfilter_dyn epsilon sort N wn (Some rp) (Some rs) (Some bt) (Some ChebyshevII) analog (Some OutSos) fs = Ok (DSos l) /\ energy_gain l 1.
Proof.
  intros He Hso HN Hrp Hr Ha Hv Hb HC. apply cheby2_energy_sep; try assumption. intros f Ef.
  exact (C118_cheby2_clear epsilon sort N rp rs wn bt analog fs f He HN Hrp Hr Ha Hv Hb HC Ef).
Qed.
Print Assumptions C121_cheby2_energy.

(** ** Non-vacuity *)
(** The smoother y(n) = (x(n) + y(n-1)) / 2 is stable, at rest, and has energy gain one. *)
Example C121_smoother_ex : let l := [mkSos (1 / 2) 0 0 1 (- (1 / 2)) 0 0 0] in
  stable_sections l /\ Forall (fun s : Sos R => zi0 s = 0 /\ zi1 s = 0) l /\ energy_gain l 1.
Proof.
  set (l := [mkSos (1 / 2) 0 0 1 (- (1 / 2)) 0 0 0]).
  assert (Ed : forall a b, sos_den l (a, b) = (a ^ 2 - b ^ 2 - a / 2, 2 * a * b - b / 2)) by (intros a b; apply C_ext; cbn; field).
  assert (En : forall a b, sos_num l (a, b) = ((a ^ 2 - b ^ 2) / 2, a * b)) by (intros a b; apply C_ext; cbn; field).
  assert (SS : stable_sections l).
  { split; [repeat constructor|]. intros [a b] Q. rewrite Ed in Q. injection Q as Q1 Q2. unfold cnorm_sqr. cbn. assert (b = 0 \/ a = / 4) as [Hb|Ha] by (destruct (Req_dec b 0); [left; assumption|right; nra]); nra. }
  assert (Z : Forall (fun s : Sos R => zi0 s = 0 /\ zi1 s = 0) l) by (repeat constructor).
  split; [exact SS|]. split; [exact Z|]. intros G HG. rewrite (C121_energy_and_gain l G SS Z HG).
  assert (Q : forall theta, let z := (cos theta, sin theta) in cnorm (sos_num l z / sos_den l z)%C * cnorm (sos_num l z / sos_den l z)%C * (5 / 4 - cos theta) = 1 / 4).
  { intros theta z. rewrite cnorm_sq. unfold z. pose proof (sin2_cos2 theta) as SC. unfold Rsqr in SC. pose proof (COS_bound theta).
    assert (Hd : sos_den l (cos theta, sin theta) <> C0). { intros X. apply (proj2 SS) in X. unfold cnorm_sqr in X. cbn in X. lra. }
    rewrite cnorm_sqr_div by exact Hd. rewrite En, Ed. unfold cnorm_sqr. cbn [cre cim fst snd nadd nmul RNum]. set (c := cos theta) in *. set (s := sin theta) in *.
    replace ((c ^ 2 - s ^ 2 - c / 2) * (c ^ 2 - s ^ 2 - c / 2) + (2 * c * s - s / 2) * (2 * c * s - s / 2)) with (5 / 4 - c).
    2:{ transitivity ((c ^ 2 + s ^ 2) ^ 2 - c * (c ^ 2 + s ^ 2) + (c ^ 2 + s ^ 2) / 4); [replace (c ^ 2 + s ^ 2) with 1 by lra; field|field]. }
    replace ((c ^ 2 - s ^ 2) / 2 * ((c ^ 2 - s ^ 2) / 2) + c * s * (c * s)) with (1 / 4); [field; lra|]. transitivity ((c ^ 2 + s ^ 2) ^ 2 / 4); [replace (c ^ 2 + s ^ 2) with 1 by lra; field|field]. }
  split.
  - intros Y. specialize (Y 0). cbn zeta in Y. specialize (Q 0). cbn zeta in Q. set (k := cnorm _) in *. rewrite cos_0 in Q. assert (0 <= k) by apply cnorm_pos. nra.
  - intros Y theta. cbn zeta. specialize (Q theta). cbn zeta in Q. set (k := cnorm _) in *. pose proof (COS_bound theta). assert (0 <= k) by apply cnorm_pos. nra.
Qed.
(** The design theorems apply in double precision to every Butterworth low-pass and high-pass
    of order up to 1000. *)
Example C121_butter_ex N w bt : bt = Lowpass \/ bt = Highpass -> (0 < N <= 1000)%nat -> 3 / 10 ^ 11 <= w <= 1 - 3 / 10 ^ 11 ->
  exists l, butter_dyn (1 / 2 ^ 52) isort N [w] (Some bt) None (Some OutSos) None = Ok (DSos l) /\ energy_gain l 1.
Proof.
  intros Hb HN Hw. apply C121_butter_energy.
  - lra.
  - apply isort_is_sort.
  - lia.
  - discriminate.
  - split; [destruct Hb as [-> | ->]; reflexivity|]. cbn [normalised]. split; [repeat constructor; lra|repeat constructor].
  - cbn [normalised]. apply C82_lowpass_ex; assumption.
Qed.
