(** Infinities and NaN absorb: sums, differences, products, and quotients with a non-finite
    numerator. *)
From Coq Require Import List Arith ZArith SpecFloat Lia.
From Verif Require Import Base Num M_Filter M_Stats S_NonFinite P_Sosfilt.
Import ListNotations.

Section NF.
Variables (prec emax : Z) (szero : bool).
#[local] Instance NN : Num spec_float := SFNum prec emax szero.

Ltac nf := match goal with
  | Q : not_finite ?a |- not_finite (?f ?a ?b) => destruct Q as [->|[[] ->]]; destruct b as [[]|[]| |[] ? ?]
  | Q : not_finite ?b |- not_finite (?f ?a ?b) => destruct Q as [->|[[] ->]]; destruct a as [[]|[]| |[] ? ?]
  | Q : not_finite ?a |- not_finite (?f ?a) => destruct Q as [->|[[] ->]]
  end; first [left; reflexivity|right; eexists; reflexivity].
Lemma nf_add_l a b : not_finite a -> not_finite (nadd a b). Proof. intros; nf. Qed.
Lemma nf_add_r a b : not_finite b -> not_finite (nadd a b). Proof. intros; nf. Qed.
Lemma nf_sub_l a b : not_finite a -> not_finite (nsub a b). Proof. intros; nf. Qed.
Lemma nf_sub_r a b : not_finite b -> not_finite (nsub a b). Proof. intros; nf. Qed.
Lemma nf_mul_l a b : not_finite a -> not_finite (nmul a b). Proof. intros; nf. Qed.
Lemma nf_mul_r a b : not_finite b -> not_finite (nmul a b). Proof. intros; nf. Qed.
Lemma nf_div_l a b : not_finite a -> not_finite (ndiv a b). Proof. intros; nf. Qed.
Lemma nf_sqrt a : not_finite a -> not_finite (nsqrt a). Proof. intros; nf. Qed.
Lemma nan_add_l b : nadd S754_nan b = S754_nan. Proof. destruct b; reflexivity. Qed.
Lemma nan_add_r a : nadd a S754_nan = S754_nan. Proof. destruct a; reflexivity. Qed.
Lemma nan_sub_l b : nsub S754_nan b = S754_nan. Proof. destruct b; reflexivity. Qed.
Lemma nan_sub_r a : nsub a S754_nan = S754_nan. Proof. destruct a; reflexivity. Qed.
Lemma nan_mul_l b : nmul S754_nan b = S754_nan. Proof. destruct b; reflexivity. Qed.
Lemma nan_mul_r a : nmul a S754_nan = S754_nan. Proof. destruct a; reflexivity. Qed.
Lemma nan_div_l b : ndiv S754_nan b = S754_nan. Proof. destruct b; reflexivity. Qed.
Lemma nan_div_r a : ndiv a S754_nan = S754_nan. Proof. destruct a; reflexivity. Qed.

(** ** Sections *)
Lemma fold_input x s : not_finite x -> not_finite (fst (biquad_fold x s)) /\ not_finite (zi0 (snd (biquad_fold x s))) /\ not_finite (zi1 (snd (biquad_fold x s))).
Proof.
  intros H. unfold biquad_fold. cbn [fst snd set_state zi0 zi1]. split; [apply nf_add_l, nf_mul_r, H|].
  split; [apply nf_add_l, nf_sub_l, nf_mul_r, H|apply nf_sub_l, nf_mul_r, H].
Qed.
Lemma fold_state x s : not_finite (zi0 s) -> not_finite (fst (biquad_fold x s)) /\ not_finite (zi0 (snd (biquad_fold x s))) /\ not_finite (zi1 (snd (biquad_fold x s))).
Proof.
  intros H. unfold biquad_fold. cbn [fst snd set_state zi0 zi1]. assert (Y : not_finite (nadd (nmul (b0 s) x) (zi0 s))) by apply nf_add_r, H.
  split; [exact Y|]. split; [apply nf_add_l, nf_sub_r, nf_mul_r, Y|apply nf_sub_r, nf_mul_r, Y].
Qed.
Lemma item_input sos : forall x, not_finite x -> not_finite (fst (sosfilt_item x sos)) /\ poisoned (snd (sosfilt_item x sos)).
Proof.
  induction sos as [|s sos IH]; intros x H; [split; [exact H|constructor]|]. cbn [sosfilt_item]. pose proof (fold_input x s H) as (A & B & C).
  destruct (biquad_fold x s) as [y s']. cbn [fst snd] in *. specialize (IH y A). destruct (sosfilt_item y sos) as [o r]. cbn [fst snd] in *.
  split; [apply IH|]. constructor; [split; assumption|apply IH].
Qed.
Lemma item_state sos : forall x, poisoned sos -> sos <> [] -> not_finite (fst (sosfilt_item x sos)) /\ poisoned (snd (sosfilt_item x sos)).
Proof.
  destruct sos as [|s sos]; intros x P H; [contradiction H; reflexivity|]. cbn [sosfilt_item]. inversion P as [|? ? [P0 P1] P2]; subst. pose proof (fold_state x s P0) as (A & B & C).
  destruct (biquad_fold x s) as [y s']. cbn [fst snd] in *. pose proof (item_input sos y A) as IH. destruct (sosfilt_item y sos) as [o r]. cbn [fst snd] in *.
  split; [apply IH|]. constructor; [split; assumption|apply IH].
Qed.
Lemma filt_state x : forall sos, poisoned sos -> sos <> [] -> Forall not_finite (fst (filt x sos)) /\ poisoned (snd (filt x sos)).
Proof.
  induction x as [|v x IH]; intros sos P H; [split; [constructor|exact P]|]. cbn [filt]. pose proof (item_state sos v P H) as [A B]. pose proof (item_length v sos) as L.
  destruct (sosfilt_item v sos) as [o s']. cbn [fst snd] in *. specialize (IH s' B ltac:(intros ->; destruct sos; [apply H; reflexivity|discriminate L])).
  destruct (filt x s') as [os s'']. cbn [fst snd] in *. split; [constructor; [exact A|apply IH]|apply IH].
Qed.
Lemma filt_input x : forall sos k, sos <> [] -> (k < length x)%nat -> not_finite (nth k x nzero) ->
  (forall n, (k <= n < length x)%nat -> not_finite (nth n (fst (filt x sos)) nzero)) /\ poisoned (snd (filt x sos)).
Proof.
  induction x as [|v x IH]; intros sos k H Hk Hx; [cbn in Hk; lia|]. cbn [filt]. pose proof (item_length v sos) as L.
  assert (Hs : snd (sosfilt_item v sos) <> []) by (intros Q; rewrite Q in L; destruct sos; [apply H; reflexivity|discriminate L]).
  destruct k as [|k].
  - cbn [nth] in Hx. pose proof (item_input sos v Hx) as [A B]. destruct (sosfilt_item v sos) as [o s']. cbn [fst snd] in *.
    pose proof (filt_state x s' B Hs) as [C D]. pose proof (filt_length_out x s') as Lo. destruct (filt x s') as [os s'']. cbn [fst snd] in *. split; [|exact D].
    intros [|n] Hn; [exact A|]. cbn [nth]. cbn [length] in Hn. rewrite Forall_forall in C. apply C, nth_In. lia.
  - cbn [nth] in Hx. cbn [length] in Hk. destruct (sosfilt_item v sos) as [o s']. cbn [fst snd] in *. destruct (IH s' k Hs ltac:(lia) Hx) as [C D].
    destruct (filt x s') as [os s'']. cbn [fst snd] in *. split; [|exact D]. intros [|n] Hn; [lia|]. cbn [nth]. apply C. cbn [length] in Hn. lia.
Qed.

(** The same for NaN. *)
Definition nan_state (s : Sos spec_float) : Prop := zi0 s = S754_nan /\ zi1 s = S754_nan.
Lemma fold_nan x s : x = S754_nan \/ zi0 s = S754_nan -> fst (biquad_fold x s) = S754_nan /\ nan_state (snd (biquad_fold x s)).
Proof.
  intros H. unfold biquad_fold, nan_state. cbn [fst snd set_state zi0 zi1].
  assert (Y : nadd (nmul (b0 s) x) (zi0 s) = S754_nan) by (destruct H as [-> | ->]; rewrite ?nan_mul_r, ?nan_add_l, ?nan_add_r; reflexivity).
  rewrite Y, !nan_mul_r, !nan_sub_r, nan_add_l. repeat split.
Qed.
Lemma item_nan sos : forall x, x = S754_nan -> fst (sosfilt_item x sos) = S754_nan /\ Forall nan_state (snd (sosfilt_item x sos)).
Proof.
  induction sos as [|s sos IH]; intros x H; [split; [exact H|constructor]|]. cbn [sosfilt_item]. pose proof (fold_nan x s (or_introl H)) as (A & B).
  destruct (biquad_fold x s) as [y s']. cbn [fst snd] in *. specialize (IH y A). destruct (sosfilt_item y sos) as [o r]. cbn [fst snd] in *.
  split; [apply IH|]. constructor; [exact B|apply IH].
Qed.
Lemma filt_nan_state x : forall sos, Forall nan_state sos -> sos <> [] -> Forall (eq S754_nan) (fst (filt x sos)) /\ Forall nan_state (snd (filt x sos)).
Proof.
  induction x as [|v x IH]; intros sos P H; [split; [constructor|exact P]|]. cbn [filt]. pose proof (item_length v sos) as L.
  assert (Q : fst (sosfilt_item v sos) = S754_nan /\ Forall nan_state (snd (sosfilt_item v sos))).
  { destruct sos as [|s sos]; [contradiction H; reflexivity|]. cbn [sosfilt_item]. inversion P as [|? ? P0 P2]; subst. pose proof (fold_nan v s (or_intror (proj1 P0))) as (A & B).
    destruct (biquad_fold v s) as [y s']. cbn [fst snd] in *. pose proof (item_nan sos y A) as IH'. destruct (sosfilt_item y sos) as [o r]. cbn [fst snd] in *.
    split; [apply IH'|]. constructor; [exact B|apply IH']. }
  destruct Q as [A B]. destruct (sosfilt_item v sos) as [o s']. cbn [fst snd] in *. specialize (IH s' B ltac:(intros ->; destruct sos; [apply H; reflexivity|discriminate L])).
  destruct (filt x s') as [os s'']. cbn [fst snd] in *. split; [constructor; [symmetry; exact A|apply IH]|apply IH].
Qed.
Lemma filt_nan x : forall sos k, sos <> [] -> (k < length x)%nat -> nth k x nzero = S754_nan ->
  (forall n, (k <= n < length x)%nat -> nth n (fst (filt x sos)) nzero = S754_nan) /\ Forall nan_state (snd (filt x sos)).
Proof.
  induction x as [|v x IH]; intros sos k H Hk Hx; [cbn in Hk; lia|]. cbn [filt]. pose proof (item_length v sos) as L.
  assert (Hs : snd (sosfilt_item v sos) <> []) by (intros Q; rewrite Q in L; destruct sos; [apply H; reflexivity|discriminate L]).
  destruct k as [|k].
  - cbn [nth] in Hx. pose proof (item_nan sos v Hx) as [A B]. destruct (sosfilt_item v sos) as [o s']. cbn [fst snd] in *.
    pose proof (filt_nan_state x s' B Hs) as [C D]. pose proof (filt_length_out x s') as Lo. destruct (filt x s') as [os s'']. cbn [fst snd] in *. split; [|exact D].
    intros [|n] Hn; [exact A|]. cbn [nth]. cbn [length] in Hn. rewrite Forall_forall in C. symmetry. apply C, nth_In. lia.
  - cbn [nth] in Hx. cbn [length] in Hk. destruct (sosfilt_item v sos) as [o s']. cbn [fst snd] in *. destruct (IH s' k Hs ltac:(lia) Hx) as [C D].
    destruct (filt x s') as [os s'']. cbn [fst snd] in *. split; [|exact D]. intros [|n] Hn; [lia|]. cbn [nth]. apply C. cbn [length] in Hn. lia.
Qed.
Lemma filt_prefix x : forall (sos : list (Sos spec_float)) k, firstn k (fst (filt x sos)) = fst (filt (firstn k x) sos).
Proof.
  induction x as [|v x IH]; intros sos [|k]; try reflexivity. cbn [firstn filt]. destruct (sosfilt_item v sos) as [o s']. specialize (IH s' k).
  destruct (filt x s') as [os s'']. cbn [fst] in *. destruct (filt (firstn k x) s') as [os2 s2]. cbn [fst firstn] in *. rewrite IH. reflexivity.
Qed.

(** ** Sums *)
Lemma fold_sum_nf l : forall a, not_finite a \/ (exists v, In v l /\ not_finite v) -> not_finite (fold_left nadd l a).
Proof.
  induction l as [|v l IH]; intros a H; cbn [fold_left]; [destruct H as [H|(v & [] & _)]; exact H|]. apply IH.
  destruct H as [H|(w & [-> | Hi] & Hw)]; [left; apply nf_add_l, H|left; apply nf_add_r, Hw|right; exists w; split; assumption].
Qed.
Lemma nsum_nf l v : In v l -> not_finite v -> not_finite (nsum l).
Proof. intros Hi Hv. unfold nsum. apply fold_sum_nf. right. exists v. split; assumption. Qed.
Lemma fold_sum_nan l : forall a, a = S754_nan \/ In S754_nan l -> fold_left nadd l a = S754_nan.
Proof.
  induction l as [|v l IH]; intros a H; cbn [fold_left]; [destruct H as [H|[]]; exact H|]. apply IH.
  destruct H as [-> | [-> | Hi]]; [left; apply nan_add_l|left; apply nan_add_r|right; exact Hi].
Qed.
Lemma nsum_nan l : In S754_nan l -> nsum l = S754_nan.
Proof. intros Hi. unfold nsum. apply fold_sum_nan. right. exact Hi. Qed.

Lemma mean_fold y : forall a n, fold_left (fun (acc : spec_float * nat) yi => (nadd (fst acc) yi, S (snd acc))) y (a, n) = (fold_left nadd y a, (n + length y)%nat).
Proof. induction y as [|v y IH]; intros a n; cbn [fold_left fst snd length]; [rewrite Nat.add_0_r; reflexivity|]. rewrite IH. f_equal. lia. Qed.
Lemma mean_eq (y : list spec_float) : y <> [] -> mean y = (ndiv (fold_left nadd y nzero) (nofZ (Z.of_nat (length y))), length y).
Proof. intros H. unfold mean. rewrite mean_fold. cbn [Nat.add]. destruct y; [contradiction H; reflexivity|]. reflexivity. Qed.
Lemma mean_nf y v : In v y -> not_finite v -> not_finite (fst (mean y)) /\ (v = S754_nan -> fst (mean y) = S754_nan).
Proof.
  intros Hi Hv. rewrite mean_eq by (intros ->; destruct Hi). cbn [fst]. split; [apply nf_div_l, fold_sum_nf; right; exists v; split; assumption|].
  intros ->. rewrite fold_sum_nan by (right; exact Hi). apply nan_div_l.
Qed.

(** A sum with an infinite term of sign s is NaN or infinite of sign s; so is the mean. *)
Definition sided (s : bool) (a : spec_float) : Prop := a = S754_nan \/ a = S754_infinity s.
Lemma fold_sided s l : forall a, sided s a -> sided s (fold_left nadd l a) .
Proof.
  induction l as [|v l IH]; intros a H; cbn [fold_left]; [exact H|]. apply IH. destruct H as [-> | ->]; [left; apply nan_add_l|].
  destruct v as [| [] | |]; destruct s; cbn; first [right; reflexivity|left; reflexivity].
Qed.
Lemma fold_sided_in s l : forall a, In (S754_infinity s) l -> sided s (fold_left nadd l a).
Proof.
  induction l as [|v l IH]; intros a H; [destruct H|]. cbn [fold_left]. destruct H as [-> | H]; [|apply IH, H]. apply fold_sided.
  destruct a as [| [] | |]; destruct s; cbn; first [right; reflexivity|left; reflexivity].
Qed.

Lemma round_sign m e : match binary_round prec emax false m e with S754_zero s | S754_infinity s | S754_finite s _ _ => s = false | S754_nan => True end.
Proof.
  unfold binary_round. destruct (shl_align m e _) as [mz ez]. unfold binary_round_aux.
  destruct (shr_fexp prec emax (Zpos mz) ez loc_Exact) as [mrs e']. destruct (shr_fexp prec emax _ e' loc_Exact) as [mrs'' e'']. destruct (shr_m mrs'') as [|q|q]; try exact I; try reflexivity.
  destruct (Z.leb e'' (emax - prec)); reflexivity.
Qed.
Lemma div_sided s a n : sided s a -> sided s (ndiv a (nofZ (Zpos n))).
Proof.
  intros [-> | ->]; [left; apply nan_div_l|]. cbn [nofZ NN SFNum ndiv]. change (binary_normalize prec emax (Zpos n) 0 false) with (binary_round prec emax false n 0).
  pose proof (round_sign n 0) as Q. destruct (binary_round prec emax false n 0) as [b|b| |b m e]; try (subst b); destruct s; first [left; reflexivity|right; reflexivity].
Qed.
Lemma mean_sided y s : In (S754_infinity s) y -> sided s (fst (mean y)).
Proof.
  intros Hi. rewrite mean_eq by (intros ->; destruct Hi). cbn [fst]. destruct y as [|v y]; [destruct Hi|]. cbn [length]. rewrite Nat2Z.inj_succ, <- Zpos_P_of_succ_nat. apply div_sided, fold_sided_in, Hi.
Qed.
Lemma mean_minus y v : In v y -> not_finite v -> nsub v (fst (mean y)) = S754_nan.
Proof.
  intros Hi [-> | [s ->]]; [apply nan_sub_l|]. destruct (mean_sided y s Hi) as [-> | ->]; [apply nan_sub_r|]. destruct s; reflexivity.
Qed.
Lemma mean_count (y : list spec_float) : snd (mean y) = length y.
Proof. destruct y as [|v y]; [reflexivity|]. rewrite mean_eq by discriminate. reflexivity. Qed.
Lemma variance_nan y v : In v y -> not_finite v -> variance y = (S754_nan, length y).
Proof.
  intros Hi Hv. unfold variance. pose proof (mean_count y) as L. pose proof (mean_minus y v Hi Hv) as Q. destruct (mean y) as [avg n]. cbn [fst snd] in *. subst n.
  destruct y as [|w y]; [destruct Hi|]. cbn [length Nat.ltb Nat.leb]. rewrite nsum_nan; [rewrite nan_div_l; reflexivity|].
  apply in_map_iff. exists v. split; [cbn zeta; rewrite Q; apply nan_mul_l|exact Hi].
Qed.
Lemma stdev_nan y v : In v y -> not_finite v -> stdev y = (S754_nan, length y).
Proof. intros Hi Hv. unfold stdev. rewrite (variance_nan y v Hi Hv). destruct y; [destruct Hi|]. reflexivity. Qed.

(** Chunks of four and the remainder hold every sample. *)
Lemma in_tiles (y : list spec_float) v : In v y -> (exists c, In c (chunks4 y) /\ In v c) \/ In v (rem4 y).
Proof.
  remember (length y) as n eqn:E. revert y E. induction n as [n IH] using (well_founded_induction lt_wf). intros y -> Hi.
  destruct y as [|a [|b [|c [|d y]]]]; try (right; exact Hi). cbn [chunks4 rem4].
  destruct Hi as [H|[H|[H|[H|H]]]]; try (left; exists [a; b; c; d]; split; [left; reflexivity|subst; cbn; tauto]).
  destruct (IH (length y) ltac:(cbn; lia) y eq_refl H) as [(q & Hq & Hv)|Hr]; [left; exists q; split; [right; exact Hq|exact Hv]|right; exact Hr].
Qed.
Lemma rms_nf y v : In v y -> not_finite v -> not_finite (rms_fast32 y).
Proof.
  intros Hi Hv. unfold rms_fast32. apply nf_sqrt, nf_div_l. destruct (in_tiles y v Hi) as [(c & Hc & Hvc)|Hr].
  - apply nf_add_r. eapply nsum_nf; [apply in_map_iff; exists c; split; [reflexivity|exact Hc]|]. eapply nsum_nf; [apply in_map_iff; exists v; split; [reflexivity|exact Hvc]|]. apply nf_mul_l, Hv.
  - apply nf_add_l. eapply nsum_nf; [apply in_map_iff; exists v; split; [reflexivity|exact Hr]|]. apply nf_mul_l, Hv.
Qed.
Lemma windows_hit (y : list spec_float) v : In v y -> (2 <= length y)%nat -> exists p, In p (tuple_windows y) /\ (fst p = v \/ snd p = v).
Proof.
  induction y as [|a [|b y] IH]; intros Hi L; [destruct Hi|cbn in L; lia|]. cbn [tuple_windows]. destruct Hi as [-> | Hi]; [exists (v, b); split; [left; reflexivity|left; reflexivity]|].
  destruct y as [|c y].
  - destruct Hi as [-> | []]. exists (a, v). split; [left; reflexivity|right; reflexivity].
  - destruct (IH Hi ltac:(cbn; lia)) as (p & Hp & Q). exists p. split; [right; exact Hp|exact Q].
Qed.
Lemma rmssd_nf y v : In v y -> not_finite v -> (2 <= length y)%nat -> not_finite (rmssd y).
Proof.
  intros Hi Hv L. unfold rmssd. destruct (windows_hit y v Hi L) as (p & Hp & Q).
  set (sq := map (fun p : spec_float * spec_float => powi2 (nsub (snd p) (fst p))) (tuple_windows y)).
  assert (M : not_finite (fst (mean sq))).
  { eapply mean_nf; [unfold sq; apply in_map_iff; exists p; split; [reflexivity|exact Hp]|]. unfold powi2. apply nf_mul_l. destruct Q as [<- | <-]; [apply nf_sub_r, Hv|apply nf_sub_l, Hv]. }
  destruct (mean sq) as [m n]. cbn [fst] in M. apply nf_sqrt, M.
Qed.
End NF.
