(** Sums of tones through a cascade at rest, in exact arithmetic, and from the rounding
    bound of a filter to sums of tones in floats. *)
From Coq Require Import List Arith ZArith Reals SpecFloat Lra Lia.
From Verif Require Import Base Num Trans M_Complex M_Filter M_Design Cx S_Filter S_Design S_Stable S_Float S_Mix P_Sosfilt P_Filtfilt P_Transfer P_Lp P_Proto P_Sos T_Sos P_Stable T_Stable P_ZeroPhase T_Unique
  P_Float P_FloatStats P_FloatZi P_Tone P_ToneZero.
Import ListNotations.
Local Open Scope R_scope.

Lemma total_pos ts : Forall (fun t => 0 <= t_amp t) ts -> 0 <= total ts.
Proof. induction 1 as [|t ts Ht F IH]; cbn; [lra|]. fold (total ts). lra. Qed.
Lemma mix_bound ts n : Forall (fun t => 0 <= t_amp t) ts -> Rabs (mix ts n) <= total ts.
Proof.
  induction 1 as [|t ts Ht F IH]; cbn; [rewrite Rabs_R0; lra|]. fold (total ts) (mix ts n). eapply Rle_trans; [apply Rabs_triang|].
  rewrite Rabs_mult, (Rabs_right (t_amp t)) by lra. pose proof (COS_bound (angle t n)) as CB. assert (Rabs (cos (angle t n)) <= 1) by (apply Rabs_le; lra). pose proof (Rabs_pos (cos (angle t n))). nra.
Qed.

(** The signal without the first tone. *)
Lemma peel_nth t x k : (k < length x)%nat ->
  nth k (lincomb 1 (-1) x (sinusoid (t_amp t) (t_freq t) (t_phase t) (length x))) 0 = nth k x 0 - t_amp t * cos (angle t k).
Proof.
  intros Hk. rewrite nth_lincomb by (unfold sinusoid; rewrite map_length, seq_length; reflexivity).
  assert (E : nth k (sinusoid (t_amp t) (t_freq t) (t_phase t) (length x)) 0 = t_amp t * cos (angle t k)).
  { unfold sinusoid, angle. rewrite (nth_indep _ 0 ((fun n => t_amp t * cos (t_freq t * INR n + t_phase t)) 0%nat)) by (rewrite map_length, seq_length; exact Hk).
    rewrite (map_nth (fun n => t_amp t * cos (t_freq t * INR n + t_phase t))), seq_nth by exact Hk. reflexivity. }
  rewrite E. ring.
Qed.
Lemma sin_nth t N k : (k < N)%nat -> nth k (sinusoid (t_amp t) (t_freq t) (t_phase t) N) 0 = t_amp t * cos (angle t k).
Proof.
  intros Hk. unfold sinusoid, angle. rewrite (nth_indep _ 0 ((fun n => t_amp t * cos (t_freq t * INR n + t_phase t)) 0%nat)) by (rewrite map_length, seq_length; exact Hk).
  rewrite (map_nth (fun n => t_amp t * cos (t_freq t * INR n + t_phase t))), seq_nth by exact Hk. reflexivity.
Qed.

Lemma mix_core f : stable_digital f -> length (zk_z f) = length (zk_p f) -> (exists l0, realises l0 f) ->
  exists K rho, 0 <= K /\ 0 < rho < 1 /\ forall l, realises l f -> forall ts d x, Forall (fun t => 0 <= t_amp t) ts -> 0 <= d ->
    (forall n, (n < length x)%nat -> Rabs (nth n x 0 - mix ts n) <= d) ->
    forall n, (n < length x)%nat -> Rabs (nth n (fst (filt x l)) 0 - mix_response (fun theta => H f (cos theta, sin theta)) ts n) <= K * (d + total ts * rho ^ n).
Proof.
  intros Hs Hl Ex. destruct (tone_core f Hs Hl Ex) as (K & rho & HK & Hr & Q). exists K, rho. split; [exact HK|]. split; [exact Hr|].
  intros l Rl ts d. assert (Z : Forall zero_state l) by (destruct Rl as [F _]; eapply Forall_impl; [|exact F]; intros s X; split; apply X).
  induction ts as [|t ts IH]; intros x F Hd Hx n Hn.
  - destruct (Q 0) as (g & psi & _ & _ & _ & B). pose proof (B l Rl 0 0 x d (fst (filt x l)) (snd (filt x l)) (Rle_refl 0) Hd) as B1.
    rewrite sosfilt_dyn_pure, <- surjective_pairing in B1. cbn [mix_response fold_right total]. rewrite Rmult_0_l.
    assert (B2 := B1 ltac:(intros k Hk; specialize (Hx k Hk); cbn [mix fold_right] in Hx; rewrite Rmult_0_l; exact Hx) eq_refl n Hn). rewrite !Rmult_0_l in B2. exact B2.
  - pose proof (Forall_inv F) as Ft. pose proof (Forall_inv_tail F) as F'. cbn beta in Ft.
    set (s := sinusoid (t_amp t) (t_freq t) (t_phase t) (length x)). assert (Ls : length s = length x) by (unfold s, sinusoid; rewrite map_length; apply seq_length).
    set (e := lincomb 1 (-1) x s). assert (Le : length e = length x) by (unfold e, lincomb; rewrite map_length, combine_length, Ls; apply Nat.min_id).
    assert (B1 := IH e F' Hd). rewrite Le in B1.
    assert (He : forall k, (k < length x)%nat -> Rabs (nth k e 0 - mix ts k) <= d).
    { intros k Hk. unfold e, s. rewrite peel_nth by exact Hk. specialize (Hx k Hk). cbn [mix fold_right] in Hx. fold (mix ts k) in Hx.
      replace (nth k x 0 - t_amp t * cos (angle t k) - mix ts k) with (nth k x 0 - (t_amp t * cos (angle t k) + mix ts k)) by ring. exact Hx. }
    specialize (B1 He n Hn).
    assert (De : nth n (fst (filt e l)) 0 = nth n (fst (filt x l)) 0 - nth n (fst (filt s l)) 0) by (unfold e; rewrite filt_lincomb by (try exact Z; symmetry; exact Ls); ring).
    destruct (Q (t_freq t)) as (g & psi & _ & EH & _ & B). pose proof (B l Rl (t_amp t) (t_phase t) s 0 (fst (filt s l)) (snd (filt s l)) Ft (Rle_refl 0)) as B2.
    rewrite sosfilt_dyn_pure, <- surjective_pairing, Ls in B2.
    assert (B3 := B2 ltac:(intros k Hk; unfold s; rewrite sin_nth by exact Hk; unfold angle; rewrite Rminus_diag_eq, Rabs_R0 by reflexivity; lra) eq_refl n Hn). clear B2.
    cbn [mix_response fold_right total]. fold (mix_response (fun theta => H f (cos theta, sin theta)) ts n). fold (total ts). rewrite EH. cbn [fst snd].
    replace (t_amp t * (g * cos psi * cos (angle t n) - g * sin psi * sin (angle t n))) with (t_amp t * g * cos (t_freq t * INR n + t_phase t + psi)) by (rewrite cos_plus; unfold angle; ring).
    set (m := mix_response _ ts n) in *. set (c := t_amp t * g * cos (t_freq t * INR n + t_phase t + psi)) in *.
    replace (nth n (fst (filt x l)) 0 - (c + m)) with ((nth n (fst (filt e l)) 0 - m) + (nth n (fst (filt s l)) 0 - c)) by (rewrite De; ring).
    eapply Rle_trans; [apply Rabs_triang|]. lra.
Qed.

Lemma filtfilt_same x y l z : length x = length y -> sosfiltfilt_dyn x l = Ok z -> exists zy, sosfiltfilt_dyn y l = Ok zy.
Proof.
  intros L. rewrite !sosfiltfilt_eq, L. destruct (length y <=? 3 * taps l)%nat; [discriminate|]. destruct (sosfilt_zi_dyn l) as [i| | |]; cbn [bind]; try discriminate. intros _. eexists. reflexivity.
Qed.
Lemma filtfilt_len x l z : sosfiltfilt_dyn x l = Ok z -> length z = length x.
Proof.
  rewrite sosfiltfilt_eq. destruct (length x <=? 3 * taps l)%nat; [discriminate|]. destruct (sosfilt_zi_dyn l) as [i| | |]; cbn [bind]; try discriminate. intros E. injection E as <-. apply filtfilt_length.
Qed.
Lemma filtfilt_lin l c d x y zx zy : length x = length y -> sosfiltfilt_dyn x l = Ok zx -> sosfiltfilt_dyn y l = Ok zy -> sosfiltfilt_dyn (lincomb c d x y) l = Ok (lincomb c d zx zy).
Proof.
  intros H. rewrite !sosfiltfilt_eq. rewrite lincomb_length by exact H. rewrite <- H.
  destruct (length x <=? 3 * taps l)%nat; [discriminate|]. destruct (sosfilt_zi_dyn l) as [init| | |]; cbn [bind]; try discriminate.
  intros E1 E2. injection E1 as <-. injection E2 as <-. rewrite filtfilt_linear by exact H. reflexivity.
Qed.

Lemma zero_mix_core h m : stable_digital h -> length (zk_z h) = length (zk_p h) -> (exists l0, realises l0 h /\ taps l0 = m) ->
  exists K rho, 1 <= K /\ 0 < rho < 1 /\ forall l, realises l h -> taps l = m -> forall ts d x y, Forall (fun t => 0 <= t_amp t) ts -> 0 <= d ->
    (forall n, (n < length x)%nat -> Rabs (nth n x 0 - mix ts n) <= d) -> sosfiltfilt_dyn x l = Ok y ->
    forall n, (n < length x)%nat -> Rabs (nth n y 0 - mix_gain (dgain_sqr h) ts n) <= K * (d + total ts * (rho ^ n + rho ^ (length x - 1 - n))).
Proof.
  intros Hs Hl Ex. destruct (zero_core h m Hs Hl Ex) as (K & rho & HK & Hr & Q). exists K, rho. split; [exact HK|]. split; [exact Hr|].
  intros l Rl Tl ts d. induction ts as [|t ts IH]; intros x y F Hd Hx Ey n Hn.
  - pose proof (Q 0 l 0 0 d x y Rl Tl (Rle_refl 0) Hd) as B. cbn [mix_gain fold_right total]. rewrite Rmult_0_l.
    assert (B2 := B ltac:(intros k Hk; specialize (Hx k Hk); cbn [mix fold_right] in Hx; rewrite Rmult_0_l; exact Hx) Ey n Hn). rewrite !Rmult_0_l in B2. exact B2.
  - pose proof (Forall_inv F) as Ft. pose proof (Forall_inv_tail F) as F'. cbn beta in Ft.
    set (s := sinusoid (t_amp t) (t_freq t) (t_phase t) (length x)). assert (Ls : length s = length x) by (unfold s, sinusoid; rewrite map_length; apply seq_length).
    set (e := lincomb 1 (-1) x s). assert (Le : length e = length x) by (unfold e, lincomb; rewrite map_length, combine_length, Ls; apply Nat.min_id).
    destruct (filtfilt_same x s l y (eq_sym Ls) Ey) as [ys Es]. pose proof (filtfilt_lin l 1 (-1) x s y ys (eq_sym Ls) Ey Es) as Ee. fold e in Ee.
    assert (He : forall k, (k < length x)%nat -> Rabs (nth k e 0 - mix ts k) <= d).
    { intros k Hk. unfold e, s. rewrite peel_nth by exact Hk. specialize (Hx k Hk). cbn [mix fold_right] in Hx. fold (mix ts k) in Hx.
      replace (nth k x 0 - t_amp t * cos (angle t k) - mix ts k) with (nth k x 0 - (t_amp t * cos (angle t k) + mix ts k)) by ring. exact Hx. }
    assert (B1 := IH e (lincomb 1 (-1) y ys) F' Hd). rewrite Le in B1. specialize (B1 He Ee n Hn).
    rewrite nth_lincomb in B1 by (rewrite (filtfilt_len _ _ _ Ey), (filtfilt_len _ _ _ Es); symmetry; exact Ls).
    pose proof (Q (t_freq t) l (t_amp t) (t_phase t) 0 s ys Rl Tl Ft (Rle_refl 0)) as B2. rewrite Ls in B2.
    assert (B3 := B2 ltac:(intros k Hk; unfold s; rewrite sin_nth by exact Hk; unfold angle; rewrite Rminus_diag_eq, Rabs_R0 by reflexivity; lra) Es n Hn). clear B2.
    cbn [mix_gain fold_right total]. fold (mix_gain (dgain_sqr h) ts n). fold (total ts). change (t_freq t * INR n + t_phase t) with (angle t n) in B3.
    set (g := mix_gain (dgain_sqr h) ts n) in *. set (c := t_amp t * dgain_sqr h (t_freq t) * cos (angle t n)) in *.
    replace (nth n y 0 - (c + g)) with ((1 * nth n y 0 + -1 * nth n ys 0 - g) + (nth n ys 0 - c)) by ring.
    eapply Rle_trans; [apply Rabs_triang|]. lra.
Qed.

(** ** From the rounding bound to sums of tones *)
Lemma mix_input ts d (x : list spec_float) : Forall (fun t => 0 <= t_amp t) ts -> 0 <= d ->
  (forall n, (n < length x)%nat -> Rabs (fval (nth n x (S754_zero false)) - mix ts n) <= d) ->
  Forall (fun v => Rabs (fval v) <= total ts + d) x /\
  forall n, (n < length (map fval x))%nat -> Rabs (nth n (map fval x) 0 - mix ts n) <= d.
Proof.
  intros F Hd Hx. split.
  - apply Forall_forall. intros v Hv. apply (In_nth _ _ (S754_zero false)) in Hv. destruct Hv as [n [Hn <-]]. specialize (Hx n Hn).
    pose proof (mix_bound ts n F) as B. set (v := fval (nth n x (S754_zero false))) in *.
    replace v with (mix ts n + (v - mix ts n)) by ring. eapply Rle_trans; [apply Rabs_triang|]. lra.
  - intros n Hn. rewrite map_length in Hn. change 0 with (fval (S754_zero false)). rewrite map_nth. apply Hx, Hn.
Qed.

Lemma mix_float h Kf : 1 <= Kf -> stable_digital h -> length (zk_z h) = length (zk_p h) -> (exists l0, realises l0 h) ->
  exists K rho, 1 <= K /\ Kf <= K /\ 0 < rho < 1 /\
  forall prec emax szero lf l, (1 < prec < emax)%Z -> realises l h ->
    (forall x X, Forall (finite prec emax) x -> 0 <= X -> Forall (fun v => Rabs (fval v) <= X) x -> Kf * (X + ftiny prec emax) <= fmax prec emax ->
    exists yf lf' y l',
      @sosfilt_dyn _ (SFNum prec emax szero) x lf = Ok (yf, lf') /\ sosfilt_dyn (map fval x) l = Ok (y, l') /\
      length yf = length x /\ length y = length x /\ Forall (finite prec emax) yf /\
      forall n, (n < length x)%nat -> Rabs (fval (nth n yf (S754_zero false)) - nth n y 0) <= Kf * (uround prec * X + ftiny prec emax)) ->
    mixture_passes prec emax szero K rho (fun theta => H h (cos theta, sin theta)) lf.
Proof.
  intros HKf Sh Lh Ex. destruct (mix_core h Sh Lh Ex) as (Kt & rho & HKt & Hr & Q).
  exists (Kf + Kt), rho. split; [lra|]. split; [lra|]. split; [exact Hr|].
  intros prec emax szero lf l Hpe Rl F ts d x HA Hd Fx Hx HM. pose proof (tiny_pos prec emax) as TP. change (0 < ftiny prec emax) in TP. destruct (u_half prec (proj1 Hpe)) as [U0 U1].
  pose proof (total_pos ts HA) as TT. destruct (mix_input ts d x HA Hd Hx) as (BX & Hx').
  destruct (F x (total ts + d) Fx ltac:(lra) BX) as (yf & lf' & y & l' & E1 & E2 & L1 & L2 & F2 & B).
  { eapply Rle_trans; [|exact HM]. apply Rmult_le_compat_r; lra. }
  exists yf, lf'. split; [exact E1|]. split; [exact L1|]. split; [exact F2|]. intros n Hn. specialize (B n Hn).
  assert (Hn' : (n < length (map fval x))%nat) by (rewrite map_length; exact Hn).
  pose proof (Q l Rl ts d _ HA Hd Hx' n Hn') as T. rewrite sosfilt_dyn_pure in E2. injection E2 as E2. rewrite E2 in T. cbn [fst] in T.
  set (m := mix_response _ ts n) in *. set (A := total ts) in *.
  replace (fval (nth n yf (S754_zero false)) - m) with ((fval (nth n yf (S754_zero false)) - nth n y 0) + (nth n y 0 - m)) by ring.
  eapply Rle_trans; [apply Rabs_triang|].
  assert (P : 0 <= A * rho ^ n) by (apply Rmult_le_pos; [exact TT|apply pow_le; lra]).
  assert (UA : 0 <= uround prec * A) by (apply Rmult_le_pos; lra).
  assert (UD : uround prec * d <= d) by nra.
  assert (Kf * (uround prec * (A + d) + ftiny prec emax) <= Kf * (uround prec * A + d + ftiny prec emax)) by (apply Rmult_le_compat_l; lra).
  assert (0 <= Kf * (A * rho ^ n)) by (apply Rmult_le_pos; lra). assert (0 <= Kt * (uround prec * A + ftiny prec emax)) by (apply Rmult_le_pos; lra). nra.
Qed.

Lemma zero_mix_float h Kf : 1 <= Kf -> stable_digital h -> length (zk_z h) = length (zk_p h) -> (exists l0, realises l0 h /\ taps l0 = S (length (zk_p h))) ->
  exists K rho, 1 <= K /\ Kf <= K /\ 0 < rho < 1 /\
  forall prec emax szero pad lf l, (1 < prec < emax)%Z -> realises l h -> taps l = S (length (zk_p h)) ->
    (forall x X, (pad < length x)%nat -> Forall (finite prec emax) x -> Forall (fun v => Rabs (fval v) <= X) x -> Kf * (X + ftiny prec emax) <= fmax prec emax ->
    exists yf y,
      @sosfiltfilt_dyn _ (SFNum prec emax szero) x lf = Ok yf /\ sosfiltfilt_dyn (map fval x) l = Ok y /\
      length yf = length x /\ length y = length x /\ Forall (finite prec emax) yf /\
      forall n, (n < length x)%nat -> Rabs (fval (nth n yf (S754_zero false)) - nth n y 0) <= Kf * (uround prec * X + ftiny prec emax)) ->
    mixture_zero_phase prec emax szero pad K rho (dgain_sqr h) lf.
Proof.
  intros HKf Sh Lh Ex. destruct (zero_mix_core h _ Sh Lh Ex) as (Kt & rho & HKt & Hr & Q).
  exists (Kf + Kt), rho. split; [lra|]. split; [lra|]. split; [exact Hr|].
  intros prec emax szero pad lf l Hpe Rl Tl F ts d x HL HA Hd Fx Hx HM. pose proof (tiny_pos prec emax) as TP. change (0 < ftiny prec emax) in TP. destruct (u_half prec (proj1 Hpe)) as [U0 U1].
  pose proof (total_pos ts HA) as TT. destruct (mix_input ts d x HA Hd Hx) as (BX & Hx').
  destruct (F x (total ts + d) HL Fx BX) as (yf & y & E1 & E2 & L1 & L2 & F2 & B).
  { eapply Rle_trans; [|exact HM]. apply Rmult_le_compat_r; lra. }
  exists yf. split; [exact E1|]. split; [exact L1|]. split; [exact F2|]. intros n Hn. specialize (B n Hn).
  assert (Hn' : (n < length (map fval x))%nat) by (rewrite map_length; exact Hn).
  pose proof (Q l Rl Tl ts d _ y HA Hd Hx' E2 n Hn') as T. rewrite map_length in T. set (r := rho ^ n + rho ^ (length x - 1 - n)) in *.
  set (m := mix_gain _ ts n) in *. set (A := total ts) in *.
  replace (fval (nth n yf (S754_zero false)) - m) with ((fval (nth n yf (S754_zero false)) - nth n y 0) + (nth n y 0 - m)) by ring.
  eapply Rle_trans; [apply Rabs_triang|].
  assert (P : 0 <= A * r) by (apply Rmult_le_pos; [exact TT|]; apply Rplus_le_le_0_compat; apply pow_le; lra).
  assert (UA : 0 <= uround prec * A) by (apply Rmult_le_pos; lra).
  assert (UD : uround prec * d <= d) by nra.
  assert (Kf * (uround prec * (A + d) + ftiny prec emax) <= Kf * (uround prec * A + d + ftiny prec emax)) by (apply Rmult_le_compat_l; lra).
  assert (0 <= Kf * (A * r)) by (apply Rmult_le_pos; lra). assert (0 <= Kt * (uround prec * A + ftiny prec emax)) by (apply Rmult_le_pos; lra). nra.
Qed.
