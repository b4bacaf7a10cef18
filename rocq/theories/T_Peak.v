(** C123: how large filtered signals can get, and that boundedness is stability. *)
From Coq Require Import List Arith ZArith Reals Lra Lia SpecFloat.
From Verif Require Import Base Num Trans M_Complex M_Filter M_Design Cx RSum S_Filter S_Design S_Stable S_Float S_Energy S_Peak P_Sosfilt P_Transfer T_Convolve P_Stable T_Stable T_FloatFilt P_Unique T_Unique P_Energy T_Energy P_Peak.
Import ListNotations.
Local Open Scope R_scope.

Lemma ir_pure l N G : (exists h, impulse_response l N h /\ abs_sum h <= G) <-> rsum (S N) (fun k => Rabs (ir l k)) <= G.
Proof.
  rewrite <- ir_sum. split.
  - intros (h & (l' & E) & B). rewrite sosfilt_dyn_pure in E. destruct (filt (1 :: repeat 0 N) l) as [h2 l2]. injection E as <- _. exact B.
  - intros B. exists (fst (filt (1 :: repeat 0 N) l)). split; [|exact B]. exists (snd (filt (1 :: repeat 0 N) l)). rewrite sosfilt_dyn_pure. f_equal. apply surjective_pairing.
Qed.

(** For sections at rest - stable or not - a factor bounds the growth of every signal exactly
    when it bounds the sum of the magnitudes of the impulse response. *)
Theorem C123_peak_and_impulse_response (l : list (Sos R)) (G : R) : Forall (fun s => zi0 s = 0 /\ zi1 s = 0) l ->
  (peak_bound l G <-> forall N, exists h, impulse_response l N h /\ abs_sum h <= G).
Proof. intros Z. rewrite (peak_iff l G Z). split; intros Q N; apply ir_pure, Q. Qed.
Print Assumptions C123_peak_and_impulse_response.

(** For stable sections there is a smallest factor; the sums approach it geometrically. *)
Theorem C123_peak_gain (l : list (Sos R)) : stable_sections l -> Forall (fun s => zi0 s = 0 /\ zi1 s = 0) l ->
  exists g, peak_gain l g /\ exists K rho, 0 < rho < 1 /\
    forall N h, impulse_response l N h -> g - K * rho ^ N <= abs_sum h <= g.
Proof.
  intros Sl Z. destruct (peak_exists l Sl Z) as (g & K & rho & _ & Hr & P & Q). exists g. split; [exact P|]. exists K, rho. split; [exact Hr|].
  intros N h (l' & E). rewrite sosfilt_dyn_pure in E. specialize (Q N). rewrite <- ir_sum in Q. destruct (filt (1 :: repeat 0 N) l) as [h2 l2]. injection E as <- _. exact Q.
Qed.
Print Assumptions C123_peak_gain.

(** The peak gain is at least the gain at every frequency, hence at least the energy gain. *)
Theorem C123_peak_above_response (l : list (Sos R)) (G : R) : stable_sections l -> Forall (fun s => zi0 s = 0 /\ zi1 s = 0) l -> peak_bound l G ->
  (forall theta, let z := (cos theta, sin theta) in cnorm (sos_num l z / sos_den l z)%C <= G) /\ (forall e, energy_gain l e -> e <= G).
Proof.
  intros Sl Z Q. rewrite (peak_iff l G Z) in Q. assert (A : forall theta, let z := (cos theta, sin theta) in cnorm (sos_num l z / sos_den l z)%C <= G) by (intros theta; exact (gain_below l G theta Sl Z Q)).
  split; [exact A|]. intros e He. assert (HG : 0 <= G). { eapply Rle_trans; [|exact (A 0)]. apply cnorm_pos. } apply (He G HG). apply (C121_energy_and_gain l G Sl Z HG). exact A.
Qed.
Print Assumptions C123_peak_above_response.

(** Bounded growth leaves no pole on or outside the unit circle that a zero does not cancel. *)
Theorem C123_bounded_only_if_cancelled (l : list (Sos R)) (G : R) : normalised_at_rest l -> peak_bound l G ->
  forall z, 1 <= cnorm_sqr z -> sos_den l z = C0 -> sos_num l z = C0.
Proof.
  intros H Q z Hz. destruct (at_rest_split l H) as [A Z]. rewrite (peak_iff l G Z) in Q. apply (uncancelled l G z Z A Q).
  rewrite cnorm_def. replace 1 with (sqrt 1) by apply sqrt_1. apply sqrt_le_1_alt. exact Hz.
Qed.
Print Assumptions C123_bounded_only_if_cancelled.

(** When numerator and denominator have no common root on or outside the unit circle, the output stays bounded for every
    bounded signal if and only if the sections are stable. *)
Theorem C123_bounded_iff_stable (l : list (Sos R)) : normalised_at_rest l -> (forall z, 1 <= cnorm_sqr z -> sos_den l z = C0 -> sos_num l z <> C0) ->
  ((exists G, peak_bound l G) <-> stable_sections l).
Proof.
  intros H Hc. destruct (at_rest_split l H) as [A Z]. split.
  - intros [G Q]. split; [exact A|]. intros z Hz. apply Rnot_le_lt. intros H1. exact (Hc z H1 Hz (C123_bounded_only_if_cancelled l G H Q z H1 Hz)).
  - intros Sl. destruct (peak_exists l Sl Z) as (g & K & rho & _ & _ & P & _). exists g. apply P. lra.
Qed.
Print Assumptions C123_bounded_iff_stable.

(** In floats: every output is finite and at most the peak gain times the largest sample, up to
    rounding errors that do not grow with the signal. *)
Theorem C123_peak_in_floats (l : list (Sos R)) (g : R) : stable_sections l -> Forall (fun s => zi0 s = 0 /\ zi1 s = 0) l -> peak_gain l g -> exists K, 1 <= K /\
  forall prec emax szero lf (x : list spec_float) X, (1 < prec < emax)%Z ->
  map sos_val lf = l -> Forall (finite_sos prec emax) lf -> Forall (finite prec emax) x -> 0 <= X -> Forall (fun v => Rabs (fval v) <= X) x ->
  K * uround prec <= 1 -> K * (X + ftiny prec emax) <= fmax prec emax ->
  exists yf lf', @sosfilt_dyn _ (SFNum prec emax szero) x lf = Ok (yf, lf') /\ length yf = length x /\ Forall (finite prec emax) yf /\
    forall v, In v yf -> Rabs (fval v) <= g * X + K * (uround prec * X + ftiny prec emax).
Proof.
  intros Sl Z Pg. destruct (C77_filter_rounding l Sl) as (K & HK & Q). exists K. split; [exact HK|]. intros prec emax szero lf x X Hp El Fl Fx HX Bx Ku Ko.
  assert (Bz : Forall (fun s => Rabs (fval (zi0 s)) <= X /\ Rabs (fval (zi1 s)) <= X) lf).
  { rewrite <- El in Z. clear -Z HX. induction lf as [|s lf IH]; constructor; inversion Z as [|s' lf' [Z0 Z1] Zr]; subst; [|apply IH; exact Zr]. cbn in Z0, Z1. rewrite Z0, Z1, Rabs_R0. lra. }
  destruct (Q prec emax szero lf x X Hp ltac:(rewrite El; unfold same_coefs; reflexivity) Fl Fx HX Bx Bz Ku Ko) as (yf & lf' & y & l' & E1 & E2 & L1 & L2 & F & D).
  exists yf, lf'. split; [exact E1|]. split; [exact L1|]. split; [exact F|]. intros v Hv. destruct (In_nth _ _ (S754_zero false) Hv) as (n & Hn & <-). specialize (D n ltac:(lia)).
  assert (Pb : peak_bound l g) by (apply Pg; lra). rewrite El in E2. destruct (Pb (map fval x) X) as (y2 & l2 & E3 & L3 & B3).
  { intros w Hw. apply in_map_iff in Hw. destruct Hw as (u & <- & Hu). rewrite Forall_forall in Bx. exact (Bx u Hu). }
  rewrite E3 in E2. injection E2 as <- <-. specialize (B3 (nth n y2 0) ltac:(apply nth_In; lia)).
  pose proof (Rabs_triang (fval (nth n yf (S754_zero false)) - nth n y2 0) (nth n y2 0)) as T. replace (fval (nth n yf (S754_zero false)) - nth n y2 0 + nth n y2 0) with (fval (nth n yf (S754_zero false))) in T by ring. lra.
Qed.
Print Assumptions C123_peak_in_floats.

Lemma section_recurrence (s : Sos R) (f : nat -> R) : op (cascade_den [s]) f 0 = a0 s * f 0%nat /\ forall k, op (cascade_den [s]) f (S k) = a0 s * f (S k) + a1 s * f k + a2 s * match k with O => 0 | S j => f j end.
Proof. split; [cbn; ring|]. intros k. destruct k as [|[|[|k]]]; cbn; ring. Qed.
(** A smoother has peak gain 1; an accumulator is not bounded; and a section with a cancelled
    pole at 2 passes every signal unchanged although it is not stable. *)
Example C123_ex : let smoother := [mkSos (1 / 2) 0 0 1 (- (1 / 2)) 0 0 0] in let accumulator := [mkSos 1 0 0 1 (- 1) 0 0 0] in let cancelled := [mkSos 1 (- 2) 0 1 (- 2) 0 0 0] in
  (stable_sections smoother /\ Forall (fun s : Sos R => zi0 s = 0 /\ zi1 s = 0) smoother /\ peak_gain smoother 1) /\
  (normalised_at_rest accumulator /\ (forall z, 1 <= cnorm_sqr z -> sos_den accumulator z = C0 -> sos_num accumulator z <> C0) /\ forall G, ~ peak_bound accumulator G) /\
  (normalised_at_rest cancelled /\ peak_bound cancelled 1 /\ ~ stable_sections cancelled).
Proof.
  cbv zeta. split; [|split].
  - destruct C121_smoother_ex as (Sl & Z & En). split; [exact Sl|]. split; [exact Z|]. set (l := [mkSos (1 / 2) 0 0 1 (- (1 / 2)) 0 0 0]) in *.
    assert (A : Forall (fun s : Sos R => a0 s = 1) l) by (repeat constructor).
    assert (I : forall k, ir l k = (1 / 2) ^ S k).
    { induction k as [|k IH].
      - pose proof (ir_equation l 0 Z A) as Q. unfold l at 1 in Q. rewrite (proj1 (section_recurrence _ _)) in Q. cbn [a0] in Q. replace (nth 0 (cascade_num l) 0) with (1 / 2) in Q by (cbn; field). cbn [pow]. lra.
      - pose proof (ir_equation l (S k) Z A) as Q. unfold l at 1 in Q. rewrite (proj2 (section_recurrence _ _)) in Q. cbn [a0 a1 a2] in Q. rewrite IH in Q. replace (nth (S k) (cascade_num l) 0) with 0 in Q by (destruct k as [|[|[|k]]]; cbn; ring). cbn [pow] in *. lra. }
    assert (Sm : forall N, rsum N (fun k => Rabs (ir l k)) = 1 - (1 / 2) ^ N).
    { induction N as [|N IH]; cbn [rsum]; [cbn; lra|]. rewrite IH, I, Rabs_pos_eq by (apply pow_le; lra). cbn [pow]. field. }
    assert (P1 : peak_bound l 1). { apply (peak_iff l 1 Z). intros N. rewrite Sm. assert (0 <= (1 / 2) ^ S N) by (apply pow_le; lra). lra. }
    intros G. split; [intros Q; exact (proj2 (C123_peak_above_response l G Sl Z Q) 1 En)|].
    intros H x M B. destruct (P1 x M B) as (y & l' & E & L & P). exists y, l'. split; [exact E|]. split; [exact L|]. intros v Hv. specialize (P v Hv). pose proof (Rabs_pos v). nra.
  - set (l := [mkSos 1 0 0 1 (- 1) 0 0 0]). assert (Nl : normalised_at_rest l) by (repeat constructor).
    assert (Cp : forall z, 1 <= cnorm_sqr z -> sos_den l z = C0 -> sos_num l z <> C0).
    { intros [a b] H1 _ Q. assert (En : sos_num l (a, b) = (a ^ 2 - b ^ 2, 2 * a * b)) by (apply C_ext; cbn; field). rewrite En in Q. injection Q as Q1 Q2. unfold cnorm_sqr in H1. cbn in H1. nra. }
    split; [exact Nl|]. split; [exact Cp|]. intros G Q. assert (Sl : stable_sections l) by (apply (C123_bounded_iff_stable l Nl Cp); exists G; exact Q).
    destruct Sl as [_ Sl]. specialize (Sl C1). assert (D1 : sos_den l C1 = C0) by (apply C_ext; cbn; ring). specialize (Sl D1). unfold cnorm_sqr in Sl. cbn in Sl. lra.
  - set (l := [mkSos 1 (- 2) 0 1 (- 2) 0 0 0]). assert (Nl : normalised_at_rest l) by (repeat constructor). destruct (at_rest_split l Nl) as [A Z].
    split; [exact Nl|]. split.
    + assert (I : forall k, ir l k = match k with O => 1 | S _ => 0 end).
      { induction k as [|k IH].
        - pose proof (ir_equation l 0 Z A) as Q. unfold l at 1 in Q. rewrite (proj1 (section_recurrence _ _)) in Q. cbn [a0] in Q. replace (nth 0 (cascade_num l) 0) with 1 in Q by (cbn; ring). cbn [pow]. lra.
        - pose proof (ir_equation l (S k) Z A) as Q. unfold l at 1 in Q. rewrite (proj2 (section_recurrence _ _)) in Q. cbn [a0 a1 a2] in Q. rewrite IH in Q. replace (nth (S k) (cascade_num l) 0) with (-2 * match k with O => 1 | S _ => 0 end) in Q by (destruct k as [|[|[|k]]]; cbn; ring). lra. }
      apply (peak_iff l 1 Z). intros N. rewrite rsum_first, I, Rabs_R1. rewrite rsum_zero; [lra|]. intros i _. rewrite I. apply Rabs_R0.
    + intros [_ Sl]. specialize (Sl (RtoC 2)). assert (D1 : sos_den l (RtoC 2) = C0) by (apply C_ext; cbn; ring). specialize (Sl D1). unfold cnorm_sqr in Sl. cbn in Sl. lra.
Qed.
