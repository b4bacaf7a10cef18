(** Convolution as an operation on signals, and filtering as convolution with the impulse
    response; exact arithmetic. *)
From Coq Require Import Reals ZArith List Lia Lra.
From Verif Require Import Base Num M_Complex M_Fourier M_Filter M_Stats Cx RSum S_Filter S_Fourier S_Stats P_Fourier P_Sosfilt P_Stats T_Fourier T_Filter T_Stats.
Import ListNotations.
Local Open Scope R_scope.

Definition convZ (x y : list R) (i : Z) : R := rsum (length x) (fun j => at_ x (Z.of_nat j) * at_ y (i - Z.of_nat j)).
Lemma at_nat x k : at_ x (Z.of_nat k) = nth k x 0.
Proof. unfold at_. destruct (Z.ltb_spec (Z.of_nat k) 0); [lia|]. rewrite Nat2Z.id. reflexivity. Qed.
Lemma at_out x i : (i < 0 \/ Z.of_nat (length x) <= i)%Z -> at_ x i = 0.
Proof. intros H. unfold at_. destruct (Z.ltb_spec i 0); [reflexivity|]. apply nth_overflow. lia. Qed.
Lemma at_neg x i : (i < 0)%Z -> at_ x i = 0.
Proof. intros H. apply at_out. lia. Qed.
Lemma convZ_ext x y i N : (length x <= N)%nat -> convZ x y i = rsum N (fun j => at_ x (Z.of_nat j) * at_ y (i - Z.of_nat j)).
Proof.
  intros H. unfold convZ. replace N with (length x + (N - length x))%nat by lia. rewrite rsum_add, (rsum_zero (N - length x)); [ring|].
  intros j _. rewrite (at_out x) by lia. ring.
Qed.
Lemma full_length x y : length (full x y) = (length x + length y - 1)%nat.
Proof. unfold full. rewrite map_length, seq_length. reflexivity. Qed.
Lemma at_full x y i : x <> [] -> y <> [] -> at_ (full x y) i = convZ x y i.
Proof.
  intros Hx Hy. assert (length x <> 0 /\ length y <> 0)%nat as [Lx Ly] by (split; rewrite length_zero_iff_nil; assumption).
  destruct (Z.ltb_spec i 0) as [N|N].
  - rewrite at_neg by exact N. unfold convZ. rewrite rsum_zero; [reflexivity|]. intros j _. rewrite (at_neg y) by lia. ring.
  - destruct (Z.ltb_spec i (Z.of_nat (length x + length y - 1))) as [S|S].
    + rewrite <- (Z2Nat.id i) by exact N. rewrite at_nat. unfold full. rewrite nth_map_seq0 by lia. reflexivity.
    + rewrite at_out by (rewrite full_length; lia). unfold convZ. rewrite rsum_zero; [reflexivity|]. intros j Hj. rewrite (at_out y) by lia. ring.
Qed.
Lemma convZ_tri x y i : convZ x y (Z.of_nat i) = rsum (S i) (fun j => nth j x 0 * nth (i - j) y 0).
Proof.
  rewrite (convZ_ext x y _ (length x + S i)) by lia. replace (length x + S i)%nat with (S i + length x)%nat by lia.
  rewrite rsum_add, (rsum_zero (length x)).
  - rewrite Rplus_0_r. apply rsum_ext. intros j Hj. rewrite at_nat. replace (Z.of_nat i - Z.of_nat j)%Z with (Z.of_nat (i - j)) by lia. rewrite at_nat. reflexivity.
  - intros j _. rewrite (at_neg y) by lia. ring.
Qed.
Lemma convZ_comm x y i : convZ x y i = convZ y x i.
Proof.
  destruct (Z.ltb_spec i 0) as [N|N].
  - unfold convZ. rewrite !rsum_zero; [reflexivity| |]; intros j _; [rewrite (at_neg x) by lia|rewrite (at_neg y) by lia]; ring.
  - rewrite <- (Z2Nat.id i) by exact N. set (k := Z.to_nat i). clearbody k. rewrite !convZ_tri. rewrite rsum_rev. apply rsum_ext. intros j Hj.
    replace (S k - 1 - j)%nat with (k - j)%nat by lia. replace (k - (k - j))%nat with j by lia. ring.
Qed.
Lemma full_ext x y u v : length (full x y) = length (full u v) -> (forall i, (i < length (full x y))%nat -> convZ x y (Z.of_nat i) = convZ u v (Z.of_nat i)) -> full x y = full u v.
Proof.
  intros L H. apply (nth_ext _ _ 0 0); [exact L|]. intros i Hi. rewrite full_length in L, Hi. rewrite full_length in L. unfold full. rewrite !nth_map_seq0 by lia.
  apply H. rewrite full_length. exact Hi.
Qed.
Lemma convolve_full fft ifft x y : is_fft fft -> is_ifft ifft -> x <> [] -> y <> [] -> convolve fft ifft x y Full = Ok (full x y).
Proof.
  intros Hf Hi Hx Hy. assert (length x <> 0 /\ length y <> 0)%nat by (split; rewrite length_zero_iff_nil; assumption).
  unfold convolve. rewrite (fftconvolve_eq fft ifft Hf Hi) by lia. reflexivity.
Qed.
Lemma full_nonnil x y : x <> [] -> y <> [] -> full x y <> [].
Proof.
  intros Hx Hy E. apply length_zero_iff_nil in E. rewrite full_length in E.
  assert (length x <> 0 /\ length y <> 0)%nat by (split; rewrite length_zero_iff_nil; assumption). lia.
Qed.

(** * C99: the algebra of convolution *)
Theorem C99_commutative fft ifft (x y : list R) : is_fft fft -> is_ifft ifft -> x <> [] -> y <> [] ->
  convolve fft ifft x y Full = convolve fft ifft y x Full.
Proof.
  intros Hf Hi Hx Hy. rewrite !convolve_full by assumption. f_equal. apply full_ext; [rewrite !full_length; lia|]. intros i _. apply convZ_comm.
Qed.
Print Assumptions C99_commutative.
Theorem C99_associative fft ifft (x y z : list R) : is_fft fft -> is_ifft ifft -> x <> [] -> y <> [] -> z <> [] ->
  (let! u := convolve fft ifft x y Full in convolve fft ifft u z Full) =
  (let! v := convolve fft ifft y z Full in convolve fft ifft x v Full).
Proof.
  intros Hf Hi Hx Hy Hz. rewrite !convolve_full by assumption. cbn [bind]. rewrite !convolve_full by (assumption || (apply full_nonnil; assumption)). f_equal.
  assert (length x <> 0 /\ length y <> 0 /\ length z <> 0)%nat as [Lx [Ly Lz]] by (repeat split; rewrite length_zero_iff_nil; assumption).
  apply full_ext; [rewrite !full_length; lia|]. intros i _. generalize (Z.of_nat i). clear i. intros i.
  unfold convZ at 1. rewrite full_length.
  rewrite (rsum_ext _ _ (fun k => rsum (length x) (fun j => at_ x (Z.of_nat j) * (at_ y (Z.of_nat k - Z.of_nat j) * at_ z (i - Z.of_nat k))))).
  2:{ intros k _. rewrite at_full by assumption. unfold convZ. rewrite <- rsum_scale_r. apply rsum_ext. intros; ring. }
  rewrite rsum_swap. unfold convZ. apply rsum_ext. intros j Hj. rewrite rsum_scale. f_equal. rewrite at_full by assumption.
  replace (length x + length y - 1)%nat with (j + (length x + length y - 1 - j))%nat by lia.
  rewrite rsum_add, (rsum_zero j).
  - rewrite Rplus_0_l. rewrite (convZ_ext y z _ (length x + length y - 1 - j)) by lia. apply rsum_ext. intros m _. f_equal; f_equal; lia.
  - intros k Hk. rewrite (at_neg y) by lia. ring.
Qed.
Print Assumptions C99_associative.
(** A single 1 is the identity, and k zeros before it delay by k samples. *)
Theorem C99_identity_and_delay fft ifft (x : list R) k : is_fft fft -> is_ifft ifft -> x <> [] ->
  convolve fft ifft (repeat 0 k ++ [1]) x Full = Ok (repeat 0 k ++ x).
Proof.
  intros Hf Hi Hx. rewrite convolve_full; try assumption; [|destruct k; discriminate]. f_equal.
  apply (nth_ext _ _ 0 0); [rewrite full_length, !app_length, repeat_length; cbn [length]; lia|].
  intros i Hi'. rewrite full_length, app_length, repeat_length in Hi'. cbn [length] in Hi'. unfold full.
  rewrite nth_map_seq0 by (rewrite app_length, repeat_length; cbn [length]; lia).
  change (convolution (repeat 0 k ++ [1]) x i) with (convZ (repeat 0 k ++ [1]) x (Z.of_nat i)).
  unfold convZ. rewrite app_length, repeat_length. cbn [length]. rewrite (rsum_single _ k); [|lia|].
  - rewrite at_nat. rewrite app_nth2, repeat_length, Nat.sub_diag by (rewrite repeat_length; lia). cbn [nth]. rewrite Rmult_1_l.
    destruct (Nat.lt_ge_cases i k) as [Lt|Ge].
    + rewrite at_neg by lia. rewrite app_nth1 by (rewrite repeat_length; lia). symmetry. apply nth_repeat.
    + rewrite app_nth2, repeat_length by (rewrite repeat_length; lia). replace (Z.of_nat i - Z.of_nat k)%Z with (Z.of_nat (i - k)) by lia. apply at_nat.
  - intros j Hj Hne. rewrite at_nat, app_nth1 by (rewrite repeat_length; lia). rewrite nth_repeat. ring.
Qed.
Print Assumptions C99_identity_and_delay.
Theorem C99_linear fft ifft (x y z : list R) c d : is_fft fft -> is_ifft ifft -> length x = length y -> x <> [] -> z <> [] ->
  exists u v, convolve fft ifft x z Full = Ok u /\ convolve fft ifft y z Full = Ok v /\
    convolve fft ifft (lincomb c d x y) z Full = Ok (lincomb c d u v).
Proof.
  intros Hf Hi L Hx Hz. assert (Lx : (length x <> 0)%nat) by (rewrite length_zero_iff_nil; assumption).
  assert (Hy : y <> []) by (intros ->; apply Lx; exact L).
  assert (Nl : forall (u v : list R) j, length u = length v -> nth j (lincomb c d u v) 0 = c * nth j u 0 + d * nth j v 0).
  { intros u v j Huv. unfold lincomb. pose proof (map_nth (fun p : R * R => c * fst p + d * snd p) (combine u v) (0, 0) j) as M.
    rewrite combine_nth in M by exact Huv. cbn [fst snd] in M. rewrite <- M. f_equal. ring. }
  assert (Ll : length (lincomb c d x y) = length x) by (unfold lincomb; rewrite map_length, combine_length; lia).
  exists (full x z), (full y z). rewrite !convolve_full; try assumption; [|intros E; rewrite E in Ll; cbn in Ll; lia].
  split; [reflexivity|]. split; [reflexivity|]. f_equal.
  apply (nth_ext _ _ 0 0); [unfold lincomb at 2; rewrite map_length, combine_length, !full_length; lia|].
  intros i Hi'. rewrite full_length, Ll in Hi'. rewrite Nl by (rewrite !full_length; lia). unfold full. rewrite !nth_map_seq0 by lia.
  unfold convolution. rewrite Ll, <- L, <- !rsum_scale, <- rsum_plus. apply rsum_ext. intros j _. rewrite !at_nat, Nl by exact L. ring.
Qed.
Print Assumptions C99_linear.
(** The samples of a convolution add up to the product of the sums. *)
Theorem C99_sum fft ifft (x y : list R) : is_fft fft -> is_ifft ifft -> x <> [] -> y <> [] ->
  exists r, convolve fft ifft x y Full = Ok r /\ Rsum r = Rsum x * Rsum y.
Proof.
  intros Hf Hi Hx Hy. exists (full x y). split; [apply convolve_full; assumption|].
  assert (length x <> 0 /\ length y <> 0)%nat as [Lx Ly] by (split; rewrite length_zero_iff_nil; assumption).
  rewrite !Rsum_nth, full_length. rewrite (rsum_ext _ _ (fun i => rsum (length x) (fun j => nth j x 0 * at_ y (Z.of_nat i - Z.of_nat j)))).
  2:{ intros i Hi'. unfold full. rewrite nth_map_seq0 by exact Hi'. unfold convolution. apply rsum_ext. intros j _. rewrite at_nat. reflexivity. }
  rewrite rsum_swap, <- rsum_scale_r. apply rsum_ext. intros j Hj. rewrite rsum_scale. f_equal.
  replace (length x + length y - 1)%nat with (j + (length y + (length x - 1 - j)))%nat by lia. rewrite rsum_add, (rsum_zero j), rsum_add, (rsum_zero (length x - 1 - j)).
  - rewrite Rplus_0_l, Rplus_0_r. apply rsum_ext. intros k Hk. replace (Z.of_nat (j + k) - Z.of_nat j)%Z with (Z.of_nat k) by lia. apply at_nat.
  - intros k Hk. apply at_out. lia.
  - intros k Hk. apply at_neg. lia.
Qed.
Print Assumptions C99_sum.
(** Swapping the arguments of correlate reverses the result. *)
Theorem C99_correlate_reversed fft ifft (x y : list R) : is_fft fft -> is_ifft ifft -> x <> [] -> y <> [] ->
  exists r, correlate fft ifft x y Full = Ok r /\ correlate fft ifft y x Full = Ok (rev r).
Proof.
  intros Hf Hi Hx Hy. destruct (C39_correlate_full fft ifft x y Hf Hi Hx Hy) as [r [E [L N]]].
  destruct (C39_correlate_full fft ifft y x Hf Hi Hy Hx) as [s [E' [L' N']]].
  exists r. split; [exact E|]. rewrite E'. f_equal. apply (nth_ext _ _ 0 0); [rewrite rev_length; lia|]. intros i Hi'.
  assert (length x <> 0 /\ length y <> 0)%nat as [Lx Ly] by (split; rewrite length_zero_iff_nil; assumption).
  rewrite rev_nth, N, N' by lia. unfold correlation. rewrite L.
  set (d := (Z.of_nat (length x) - 1 - Z.of_nat i)%Z).
  rewrite (rsum_ext (length y) _ (fun j => at_ y (Z.of_nat j) * at_ (rev x) (- d + Z.of_nat (length x) - 1 - Z.of_nat j))).
  2:{ intros j _. rewrite at_rev. f_equal. f_equal. unfold d. lia. }
  change (rsum (length y) _) with (convZ y (rev x) (- d + Z.of_nat (length x) - 1)). rewrite convZ_comm. unfold convZ. rewrite rev_length, rsum_rev.
  apply rsum_ext. intros j Hj. rewrite at_rev. f_equal; f_equal; unfold d; lia.
Qed.
Print Assumptions C99_correlate_reversed.
(** Autocorrelation is the correlation of the centred signal with itself, divided by its
    value at lag 0. *)
Theorem C99_autocorr_correlate fft ifft (y : list R) : is_fft fft -> is_ifft ifft -> not_all_equal y ->
  let c := map (fun v => v - fst (mean y)) y in
  exists r, correlate fft ifft c c Full = Ok r /\
    forall k, (k < length y)%nat -> autocorr y k = nth (length y - 1 - k) r 0 / nth (length y - 1) r 0.
Proof.
  intros Hf Hi NE c. assert (Hy : y <> []) by (destruct NE as [a [b [Ha _]]]; intros ->; destruct Ha).
  assert (Ly : (length y <> 0)%nat) by (rewrite length_zero_iff_nil; assumption).
  assert (Lc : length c = length y) by (unfold c; apply map_length).
  assert (Hc : c <> []) by (intros E; rewrite E in Lc; cbn in Lc; lia).
  destruct (C39_correlate_full fft ifft c c Hf Hi Hc Hc) as [r [E [L N]]]. exists r. split; [exact E|].
  destruct (C09_autocorr y NE) as [_ [_ [_ A]]].
  assert (Q : forall k, (k < length y)%nat -> nth (length y - 1 - k) r 0 = lag_sum c k).
  { intros k Hk. rewrite N by lia. unfold correlation, lag_sum. rewrite Rsum_seq, Lc.
    replace (length y) with ((length y - k) + k)%nat at 1 by lia. rewrite rsum_add, (rsum_zero k).
    - rewrite Rplus_0_r. apply rsum_ext. intros j Hj. rewrite at_nat. cbn [Nat.add].
      replace (Z.of_nat j - Z.of_nat (length y - 1 - k) + Z.of_nat (length y) - 1)%Z with (Z.of_nat (j + k)) by lia. rewrite at_nat. reflexivity.
    - intros j Hj. rewrite (at_out c (_ + _ - 1)) by lia. ring. }
  assert (M : fst (mean y) = Rmean y) by (destruct (C05_mean y) as [M _]; rewrite (M Hy); reflexivity).
  assert (Ec : c = map (fun x => x - Rmean y) y) by (unfold c; rewrite M; reflexivity).
  assert (NV : Rvar y <> 0). { destruct (C06_variance y Hy) as [_ [_ [_ [_ VZ]]]]. intros V. destruct NE as [a [b [Ha [Hb Hab]]]]. apply Hab. apply (proj1 VZ V); assumption. }
  assert (NN : INR (length y) <> 0) by (apply not_0_INR; exact Ly).
  intros k Hk. rewrite Q by exact Hk. pose proof (Q 0%nat ltac:(lia)) as Q0. rewrite Nat.sub_0_r in Q0. rewrite Q0.
  assert (V0 : lag_sum c 0 = INR (length y) * Rvar y).
  { pose proof (A 0%nat) as A0. destruct (C09_autocorr y NE) as [O _]. rewrite O, <- Ec in A0. 
    replace (lag_sum c 0) with (lag_sum c 0 / INR (length y) / Rvar y * (INR (length y) * Rvar y)) by (field; split; assumption). rewrite <- A0. ring. }
  rewrite V0, A, <- Ec. field. split; assumption.
Qed.
Print Assumptions C99_autocorr_correlate.

(** * C98: filtering is convolution with the impulse response *)
Definition impulse (n : nat) : list R := 1 :: repeat 0 (n - 1).
Definition ir (l : list (Sos R)) (k : nat) : R := nth k (fst (filt (impulse (S k)) l)) 0.
Lemma firstn_repeat' {A} (a : A) k n : firstn k (repeat a n) = repeat a (Nat.min k n).
Proof. revert n. induction k as [|k IH]; intros [|n]; cbn; try reflexivity. f_equal. apply IH. Qed.
Lemma ir_nth l n k : (k < n)%nat -> nth k (fst (filt (impulse n) l)) 0 = ir l k.
Proof.
  intros H. unfold ir. pose proof (filt_causal (impulse n) (impulse (S k)) l (S k)) as C.
  assert (E : firstn (S k) (impulse n) = firstn (S k) (impulse (S k))).
  { unfold impulse. cbn [firstn]. f_equal. rewrite !firstn_repeat'. f_equal. lia. }
  specialize (C E). rewrite <- (nth_firstn_lt _ (S k)), C, nth_firstn_lt by lia. reflexivity.
Qed.
Lemma lincomb_state_zero c d (l : list (Sos R)) : Forall zero_state l -> lincomb_state c d l l = l.
Proof.
  intros H. unfold lincomb_state. induction H as [|s l [Z0 Z1] Hl IH]; [reflexivity|]. cbn [combine map]. rewrite IH. f_equal.
  destruct s as [? ? ? ? ? ? z0 z1]. cbn in *. unfold set_state. cbn. subst. f_equal; ring.
Qed.
Lemma filt_ir (l : list (Sos R)) : Forall zero_state l -> forall x i, (i < length x)%nat ->
  nth i (fst (filt x l)) 0 = rsum (S i) (fun j => nth j x 0 * ir l (i - j)).
Proof.
  intros Z. induction x as [|a x IH]; intros i Hi; [cbn in Hi; lia|].
  assert (E : a :: x = lincomb a 1 (impulse (S (length x))) (0 :: x)).
  { unfold impulse, lincomb. cbn [combine map fst snd]. f_equal; [ring|]. replace (S (length x) - 1)%nat with (length x) by lia.
    clear. induction x as [|b x IH]; [reflexivity|]. cbn [length repeat combine map fst snd]. f_equal; [ring|exact IH]. }
  pose proof (filt_lin a 1 (impulse (S (length x))) (0 :: x) l l eq_refl ltac:(unfold impulse; cbn [length]; rewrite repeat_length; lia)) as FL.
  rewrite (lincomb_state_zero a 1 l Z), <- E in FL. rewrite FL.
  cbn [fst]. change (0 :: x) with (repeat 0 1 ++ x). rewrite filt_shift by exact Z. cbn [fst repeat app].
  assert (Nl : forall (u v : list R) j, length u = length v -> nth j (lincomb a 1 u v) 0 = a * nth j u 0 + 1 * nth j v 0).
  { intros u v j Huv. unfold lincomb. pose proof (map_nth (fun p : R * R => a * fst p + 1 * snd p) (combine u v) (0, 0) j) as M.
    rewrite combine_nth in M by exact Huv. cbn [fst snd] in M. rewrite <- M. f_equal. ring. }
  rewrite Nl by (cbn [length]; rewrite !filt_length_out; unfold impulse; cbn [length]; rewrite repeat_length; lia).
  rewrite ir_nth by exact Hi. rewrite rsum_first. cbn [nth]. rewrite Nat.sub_0_r. apply f_equal2; [reflexivity|]. rewrite Rmult_1_l.
  destruct i as [|i]; [reflexivity|]. rewrite IH by (cbn in Hi; lia). apply rsum_ext. intros j _. reflexivity.
Qed.

(** The output for any input is the beginning of the convolution of the input with the
    output for a unit impulse. *)
Theorem C98_filter_is_convolution fft ifft (l : list (Sos R)) (x : list R) : is_fft fft -> is_ifft ifft ->
  Forall zero_state l -> x <> [] ->
  exists h l1 y l2 r,
    sosfilt_dyn (1 :: repeat 0 (length x - 1)) l = Ok (h, l1) /\
    sosfilt_dyn x l = Ok (y, l2) /\
    convolve fft ifft x h Full = Ok r /\ y = firstn (length x) r.
Proof.
  intros Hf Hi Z Hx. assert (Lx : (length x <> 0)%nat) by (rewrite length_zero_iff_nil; assumption).
  rewrite !sosfilt_dyn_pure. fold (impulse (length x)). set (h := fst (filt (impulse (length x)) l)).
  assert (Lh : length h = length x) by (unfold h; rewrite filt_length_out; unfold impulse; cbn [length]; rewrite repeat_length; lia).
  assert (Hh : h <> []) by (intros E; rewrite E in Lh; cbn in Lh; lia).
  exists h, (snd (filt (impulse (length x)) l)), (fst (filt x l)), (snd (filt x l)), (full x h).
  split; [f_equal; apply surjective_pairing|]. split; [f_equal; apply surjective_pairing|]. split; [apply convolve_full; assumption|].
  apply (nth_ext _ _ 0 0); [rewrite filt_length_out, firstn_length, full_length; lia|]. intros i Hi'. rewrite filt_length_out in Hi'.
  rewrite nth_firstn_lt by exact Hi'. unfold full. rewrite nth_map_seq0 by lia. change (convolution x h i) with (convZ x h (Z.of_nat i)). rewrite convZ_tri.
  rewrite filt_ir by assumption. apply rsum_ext. intros j Hj. f_equal. unfold h. rewrite ir_nth by lia. reflexivity.
Qed.
Print Assumptions C98_filter_is_convolution.

Lemma fir_tail b0 b1 b2 a0 z0 z1 n k : nth k (fst (filt (repeat 0 n) [mkSos b0 b1 b2 a0 0 0 z0 z1])) 0 = if (k <? n)%nat then nth k [z0; z1] 0 else 0.
Proof.
  revert k z0 z1. induction n as [|n IH]; intros k z0 z1; [destruct k; reflexivity|]. cbn [repeat]. rewrite filt_one. unfold biquad_fold, set_state.
  cbn [fst snd M_Filter.b0 M_Filter.b1 M_Filter.b2 M_Filter.a0 M_Filter.a1 M_Filter.a2 zi0 zi1 nadd nmul nsub RNum].
  destruct k as [|k]; cbn [nth].
  - change (0 <? S n)%nat with true. cbv iota. ring.
  - rewrite IH. change (S k <? S n)%nat with (k <? n)%nat. destruct (k <? n)%nat; [|reflexivity].
    destruct k as [|[|k]]; cbn [nth]; try ring. destruct k; ring.
Qed.
(** A section without feedback convolves with its three numerator coefficients. *)
Theorem C98_fir_section fft ifft (s : Sos R) (x : list R) : is_fft fft -> is_ifft ifft ->
  zero_state s -> a1 s = 0 -> a2 s = 0 -> x <> [] ->
  exists y s' r, sosfilt_dyn x [s] = Ok (y, s') /\ convolve fft ifft x [b0 s; b1 s; b2 s] Full = Ok r /\ y = firstn (length x) r.
Proof.
  intros Hf Hi Z A1 A2 Hx. assert (Lx : (length x <> 0)%nat) by (rewrite length_zero_iff_nil; assumption).
  rewrite sosfilt_dyn_pure. exists (fst (filt x [s])), (snd (filt x [s])), (full x [b0 s; b1 s; b2 s]).
  split; [f_equal; apply surjective_pairing|]. split; [apply convolve_full; try assumption; discriminate|].
  apply (nth_ext _ _ 0 0); [rewrite filt_length_out, firstn_length, full_length; cbn [length]; lia|]. intros i Hi'. rewrite filt_length_out in Hi'.
  rewrite nth_firstn_lt by exact Hi'. unfold full. rewrite nth_map_seq0 by (cbn [length]; lia).
  change (convolution x [b0 s; b1 s; b2 s] i) with (convZ x [b0 s; b1 s; b2 s] (Z.of_nat i)). rewrite convZ_tri.
  rewrite filt_ir; [|constructor; [exact Z|constructor]|exact Hi']. apply rsum_ext. intros j Hj. f_equal. generalize (i - j)%nat. intros k. unfold ir, impulse. cbn [Nat.sub].
  rewrite Nat.sub_0_r, filt_one. destruct s as [c0 c1 c2 d0 d1 d2 z0 z1]. destruct Z as [Z0 Z1]. cbn in Z0, Z1, A1, A2. subst.
  unfold biquad_fold, set_state. cbn [fst snd M_Filter.b0 M_Filter.b1 M_Filter.b2 M_Filter.a0 M_Filter.a1 M_Filter.a2 zi0 zi1 nadd nmul nsub RNum].
  destruct k as [|k]; cbn [nth]; [ring|]. rewrite fir_tail. destruct (Nat.ltb_spec k (S k)); [|lia].
  destruct k as [|[|k]]; cbn [nth]; try ring; destruct k; ring.
Qed.
Print Assumptions C98_fir_section.

Example C98_ex : Forall zero_state [mkSos 1 2 1 1 (1/2) (1/4) 0 0; mkSos 1 0 (-1) 1 0 (1/3) 0 0] /\ ([3; 1; 4]%R : list R) <> [] /\
  zero_state (mkSos 1 2 1 1 0 0 0 0) /\ not_all_equal [3; 1; 4].
Proof. repeat split; try (repeat constructor; fail); try discriminate. exists 3, 1. cbn. intuition lra. Qed.
