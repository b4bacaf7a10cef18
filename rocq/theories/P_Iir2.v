(** End-to-end lemmas about [iirfilter_dyn] for all-pole prototypes. *)
From Coq Require Import List Arith ZArith Reals Permutation Sorted Lra Lia.
From Verif Require Import Base Num Trans M_Complex M_Filter M_Design Cx S_Bessel S_Design P_Bessel P_Poly P_Lp P_Proto P_Cheb P_Iir.
Import ListNotations.
Local Open Scope R_scope.

Section D.
Variable epsilon : R.
Variable sort : forall A : Type, (A -> A -> bool) -> list A -> list A.

Definition ripple_ok (ft : FilterType) (rp rs : option R) : Prop :=
  (forall r, rp = Some r -> 0 <= r) /\ (forall r, rs = Some r -> 0 <= r) /\
  match ft with Butterworth => True | ChebyshevI => rp <> None | ChebyshevII => rp <> None /\ rs <> None | _ => False end.

Lemma normalised_length wn fs : length (normalised wn fs) = length wn.
Proof. destruct fs; [apply map_length|reflexivity]. Qed.

Lemma valid_not_bad bt wn fs analog rp rs ft :
  valid_freqs bt (normalised wn fs) -> (analog = false -> Forall (fun x => x < 1) (normalised wn fs)) -> (analog = true -> fs = None) ->
  ripple_ok ft rp rs -> ~ bad' wn rp rs bt ft analog fs.
Proof.
  intros [Hl [Hp Hs]] H1 Hfs [Hrp [Hrs Hft]]. rewrite normalised_length in Hl. rewrite Forall_forall in Hp.
  unfold bad', bad_arguments. intros [B|B].
  - destruct B as [B|[B|[B|[B|[B|[B|[B|[B|[B|[B|[B|B]]]]]]]]]]].
    + destruct bt; cbn in Hl; lia.
    + destruct B as [B1 B2]. apply B1, Hfs, B2.
    + destruct B as [x [Hx B]]. apply Hp in Hx. lra.
    + destruct B as [w0 [w1 [E0 [E1 B]]]]. destruct (normalised wn fs) as [|u [|v l]]; try discriminate. cbn in E0, E1.
      injection E0 as <-. injection E1 as <-. inversion Hs as [|? ? _ HF]; subst. inversion HF; subst. lra.
    + destruct B as [r [E' B]]. apply Hrp in E'. lra.
    + destruct B as [r [E' B]]. apply Hrs in E'. lra.
    + destruct B as [E' [x [Hx B]]]. specialize (H1 E'). rewrite Forall_forall in H1. apply H1 in Hx. lra.
    + contradiction.
    + destruct B as [-> ->]. apply Hft. reflexivity.
    + destruct B as [-> ->]. apply (proj2 Hft). reflexivity.
    + rewrite B in Hft. exact Hft.
    + rewrite B in Hft. exact Hft.
  - destruct B as [-> ->]. apply (proj1 Hft). reflexivity.
Qed.

Lemma iir_good order wn rp rs btype ftype analog output fs :
  ~ bad' wn rp rs (unwrap_or btype Bandpass) (unwrap_or ftype Butterworth) (unwrap_or analog false) fs ->
  iirfilter_dyn epsilon sort order wn rp rs btype ftype analog output fs =
  reduced epsilon sort order wn rp rs (unwrap_or btype Bandpass) (unwrap_or ftype Butterworth) (unwrap_or analog false) output fs.
Proof. intros Hn. destruct (iir_cases epsilon sort order wn rp rs btype ftype analog output fs) as [[B _]|[_ E']]; [contradiction|exact E']. Qed.

Lemma valid_digital_freqs bt w : valid_digital bt w -> valid_freqs bt w /\ Forall (fun x => x < 1) w.
Proof.
  intros [Hl [Hf Hs]]. split; [split; [exact Hl|split; [|exact Hs]]|]; (revert Hf; apply Forall_impl; intros; lra).
Qed.

(** all-pole prototypes *)
Section AllPole.
Variable ft : FilterType.
Variable n : nat.
Variable rp rs : option R.
Variable p : list C.
Variable k : R.
Hypothesis Hpr : proto ft n rp rs = mkZpk [] p k.
Hypothesis Hs : Forall (fun r => cre r < 0) p.
Hypothesis Hc : conj_closed p.
Hypothesis Hr : ripple_ok ft rp rs.

Lemma digital_design bt wn btype ftype analog fs :
  unwrap_or btype Bandpass = bt -> unwrap_or ftype Butterworth = ft -> unwrap_or analog false = false ->
  valid_digital bt (normalised wn fs) ->
  exists f, (forall output, iirfilter_dyn epsilon sort n wn rp rs btype ftype analog output fs = finish epsilon sort n false output f) /\
    real_filter f /\ stable_digital f /\
    length (zk_z f) = (band_arity bt * length p)%nat /\ length (zk_p f) = (band_arity bt * length p)%nat /\
    forall t, dgain_sqr f t = k * k * (snd (band_ratio bt (normalised wn fs) t) * snd (band_ratio bt (normalised wn fs) t)) ^ length p /
                   cnorm_sqr (hom p (0, fst (band_ratio bt (normalised wn fs) t)) (RtoC (snd (band_ratio bt (normalised wn fs) t)))).
Proof.
  intros Eb Et Ea Hv.
  destruct (digital_spec p k Hs Hc bt (map warp (normalised wn fs)) (valid_warp _ _ Hv)) as [f [E' [Q1 [Q2 [Q3 [Q4 Q5]]]]]].
  exists f. split.
  - intros output. rewrite iir_good.
    2:{ rewrite Eb, Et, Ea. destruct (valid_digital_freqs _ _ Hv). apply valid_not_bad; [assumption|intros _; assumption|discriminate|exact Hr]. }
    rewrite Eb, Et, Ea. unfold reduced. cbv zeta. rewrite Hpr.
    destruct (apply_band bt (mkZpk [] p k) (map warp (normalised wn fs))) as [f1| | |]; cbn [bind] in *; try discriminate E'.
    rewrite E'. reflexivity.
  - split; [exact Q1|]. split; [exact Q2|]. split; [exact Q3|]. split; [exact Q4|].
    intros t. apply (dgain_digital p k bt (normalised wn fs) f t); assumption.
Qed.

(** Analog: prototype frequency as a pair. *)
Lemma analog_design bt wn btype ftype analog :
  unwrap_or btype Bandpass = bt -> unwrap_or ftype Butterworth = ft -> unwrap_or analog false = true ->
  valid_freqs bt wn ->
  exists f, (forall output, iirfilter_dyn epsilon sort n wn rp rs btype ftype analog output None = finish epsilon sort n true output f) /\
    proper f /\ real_filter f /\ stable_analog f /\
    length (zk_p f) = (band_arity bt * length p)%nat /\
    forall s, H f s = (RtoC k * cpow (snd (XY bt wn s C1)) (length p) / hom p (fst (XY bt wn s C1)) (snd (XY bt wn s C1)))%C.
Proof.
  intros Eb Et Ea Hv.
  assert (Hw : valid_warped bt wn).
  { destruct Hv as [Hl [Hf Hso]]. destruct bt; cbn in Hl |- *; destruct wn as [|a [|b [|? ?]]]; try discriminate Hl; cbn [nth].
    - inversion Hf; assumption.
    - inversion Hf; assumption.
    - inversion Hf; subst. inversion Hso as [|? ? _ HF]; subst. inversion HF; subst. split; assumption.
    - inversion Hf; subst. inversion Hso as [|? ? _ HF]; subst. inversion HF; subst. split; assumption. }
  destruct (band_spec p k Hs Hc bt wn Hw) as [f [E' [Q1 [Q2 [Q3 [Q4 [_ [K [HK Q5]]]]]]]]].
  exists f. split.
  - intros output. rewrite iir_good.
    2:{ rewrite Eb, Et, Ea. apply valid_not_bad; [exact Hv|discriminate|reflexivity|exact Hr]. }
    rewrite Eb, Et, Ea. unfold reduced. cbv zeta. rewrite Hpr. cbn [normalised]. rewrite E'. reflexivity.
  - split; [exact Q1|]. split; [exact Q2|]. split; [exact Q3|]. split; [exact Q4|].
    intros s. rewrite H_numden. destruct (Q5 s C1) as [-> ->]. apply cdiv_cancel. exact HK.
Qed.
End AllPole.
End D.

Lemma analog_ratio_XY bt wn w : exists u sg, u <> C0 /\ (sg = 1 \/ sg = -1) /\
  XY bt wn (0, w) C1 = ((u * (0, fst (analog_ratio bt wn w))%R)%C, (u * RtoC (sg * snd (analog_ratio bt wn w))%R)%C).
Proof.
  destruct bt; cbn [XY analog_ratio fst snd].
  - exists C1, 1. split; [apply C10|]. split; [left; reflexivity|]. f_equal; cx.
  - exists (0, -1), (-1). split; [intros Q; apply (f_equal snd) in Q; cbn in Q; lra|]. split; [right; reflexivity|]. f_equal; cx.
  - exists (0, -1), (-1). split; [intros Q; apply (f_equal snd) in Q; cbn in Q; lra|]. split; [right; reflexivity|]. f_equal; cx.
  - exists C1, 1. split; [apply C10|]. split; [left; reflexivity|]. f_equal; cx.
Qed.
Lemma gain_of_XY p k X Y a b u sg : conj_closed p -> u <> C0 -> (sg = 1 \/ sg = -1) ->
  X = (u * (0, a)%R)%C -> Y = (u * RtoC (sg * b)%R)%C ->
  cnorm_sqr (RtoC k * cpow Y (length p) / hom p X Y)%C = k * k * (b * b) ^ length p / cnorm_sqr (hom p (0, a) (RtoC b)).
Proof.
  intros Hc Hu Hsg -> ->. rewrite ratio_scale by exact Hu. rewrite cnorm_sqr_div0, cnorm_sqr_mul, cnorm_sqr_pow, !cnorm_sqr_RtoC.
  destruct Hsg as [-> | ->].
  - rewrite Rmult_1_l. reflexivity.
  - replace (-1 * b) with (- b) by ring. rewrite hom_even by exact Hc. replace (- b * - b) with (b * b) by ring. reflexivity.
Qed.

(** ** Totality *)
Lemma apply_band_proper bt g w : proper g -> exists f1, apply_band bt g w = Ok f1 /\ proper f1.
Proof.
  intros Hp. unfold apply_band, lp2lp_zpk_dyn, lp2hp_zpk_dyn, lp2bp_zpk_dyn, lp2bs_zpk_dyn. unfold proper in Hp.
  rewrite (relative_degree_le _ _ Hp). destruct bt; cbn [bind]; (eexists; split; [reflexivity|]); unfold proper; cbn [zk_z zk_p];
    rewrite ?app_length, ?map_length, ?repeat_length, ?app_length, ?map_length; lia.
Qed.
Lemma zm_length n : (length (zm n) <= n)%nat.
Proof.
  destruct n as [|n]; [apply Nat.le_refl|]. destruct (zm_spec (S n) (Nat.lt_0_succ n)) as [A [B [E1 [E2 _]]]].
  apply (f_equal (@length R)) in E1, E2. rewrite map_length, app_length in E1. rewrite map_length, seq_length, !app_length in E2. lia.
Qed.
Lemma cheb2_proper n rs : proper (@cheb2ap_dyn R RNum RTrans n rs).
Proof.
  destruct n as [|n]; [unfold proper; cbn; lia|]. unfold proper, cheb2ap_dyn. cbv zeta. cbn [zk_z zk_p].
  rewrite !map_length.
  change (length (zm (S n)) <= length (step2 (- Z.of_nat (S n) + 1) (Z.of_nat (S n))))%nat. rewrite step2_seq, map_length, seq_length. apply zm_length.
Qed.
Lemma proto_proper ft n rp rs : proper (proto ft n rp rs).
Proof.
  destruct ft; cbn [proto]; try (unfold proper; cbn; lia).
  - unfold proper. destruct n; cbn; lia.
  - apply cheb2_proper.
Qed.
Lemma reduced_total epsilon sort order wn rp rs bt ft analog output fs : is_sort sort -> unwrap_or output OutBa <> OutSos ->
  exists d, reduced epsilon sort order wn rp rs bt ft analog output fs = Ok d.
Proof.
  intros Hs Ho. unfold reduced. cbv zeta.
  destruct (apply_band_proper bt (proto ft order rp rs) (if analog then normalised wn fs else map warp (normalised wn fs)) (proto_proper _ _ _ _)) as [f1 [-> P1]].
  cbn [bind]. assert (E2 : exists f2, (if analog then Ok f1 else bilinear_zpk_dyn f1 2) = Ok f2) by (destruct analog; [eexists; reflexivity|apply bilinear_total, P1]).
  destruct E2 as [f2 ->]. cbn [bind]. unfold finish. destruct (unwrap_or output OutBa); [|eexists; reflexivity|contradiction Ho; reflexivity].
  rewrite (zpk2tf_ok sort Hs). eexists. reflexivity.
Qed.
