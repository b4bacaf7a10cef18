(** Zero-phase filtering of any signal: both passes as one symmetric convolution. *)
From Coq Require Import List Arith Bool Lia Reals Lra Psatz.
From Verif Require Import Base Num Trans M_Complex M_Linalg M_Filter M_Design S_Filter ListUtil RSum P_Sosfilt P_Filtfilt P_Transfer Cx S_Design S_Stable S_ZeroKernel
  T_Convolve P_Stable T_Stable P_ZeroPhase P_Energy P_Peak.
Import ListNotations.
Local Open Scope R_scope.

(** ** Sums with geometric tails *)
Lemma rsum_sum_f f n : sum_f_R0 f n = rsum (S n) f.
Proof. induction n as [|n IH]; [cbn; ring|]. cbn [sum_f_R0]. rewrite IH. reflexivity. Qed.
Lemma geo_cv f C rho : 0 <= C -> 0 < rho < 1 -> (forall k, Rabs (f k) <= C * rho ^ k) ->
  {s | infinite_sum f s /\ forall P, Rabs (rsum P f - s) <= C / (1 - rho) * rho ^ P}.
Proof.
  intros HC Hr Hf. assert (D : 0 <= C / (1 - rho)) by (apply Rmult_le_pos; [exact HC|left; apply Rinv_0_lt_compat; lra]).
  assert (T : forall P m, Rabs (rsum (P + m) f - rsum P f) <= C / (1 - rho) * rho ^ P).
  { intros P m. rewrite rsum_add. replace (rsum P f + rsum m (fun i => f (P + i)%nat) - rsum P f) with (rsum m (fun i => f (P + i)%nat)) by ring.
    eapply Rle_trans; [apply rsum_abs|]. apply geom_tail; assumption. }
  assert (Pm : forall a b, (a <= b)%nat -> C / (1 - rho) * rho ^ b <= C / (1 - rho) * rho ^ a).
  { intros a b H. apply Rmult_le_compat_l; [exact D|]. replace b with (a + (b - a))%nat by lia. rewrite pow_add. rewrite <- (Rmult_1_r (rho ^ a)) at 2. apply Rmult_le_compat_l; [apply pow_le; lra|].
    rewrite <- (pow1 (b - a)). apply pow_incr. lra. }
  destruct (R_complete (fun n => rsum n f)) as [s Hs].
  { intros e He. destruct (small_pow rho (e / (C / (1 - rho) + 1)) Hr ltac:(apply Rdiv_lt_0_compat; lra)) as [n0 H0]. specialize (H0 n0 (le_n n0)).
    assert (Q : C / (1 - rho) * rho ^ n0 < e).
    { apply Rle_lt_trans with ((C / (1 - rho) + 1) * rho ^ n0); [assert (0 < rho ^ n0) by (apply pow_lt; lra); lra|].
      apply Rlt_le_trans with ((C / (1 - rho) + 1) * (e / (C / (1 - rho) + 1))); [apply Rmult_lt_compat_l; lra|right; field; lra]. }
    exists n0. intros n m Hn Hm. unfold R_dist. destruct (le_ge_dec n m) as [L|L].
    - rewrite Rabs_minus_sym. replace m with (n + (m - n))%nat by lia. eapply Rle_lt_trans; [apply T|]. eapply Rle_lt_trans; [apply (Pm n0); exact Hn|exact Q].
    - replace n with (m + (n - m))%nat by lia. eapply Rle_lt_trans; [apply T|]. eapply Rle_lt_trans; [apply (Pm n0); exact Hm|exact Q]. }
  exists s. split.
  - intros e He. destruct (Hs e He) as [n0 H0]. exists n0. intros n Hn. rewrite rsum_sum_f. apply H0. lia.
  - intros P. apply Rnot_lt_le. intros Q. destruct (Hs (Rabs (rsum P f - s) - C / (1 - rho) * rho ^ P) ltac:(lra)) as [n0 H0]. specialize (H0 (P + n0)%nat ltac:(lia)). unfold R_dist in H0. specialize (T P n0).
    pose proof (Rabs_triang (rsum P f - rsum (P + n0) f) (rsum (P + n0) f - s)) as Y. replace (rsum P f - rsum (P + n0) f + (rsum (P + n0) f - s)) with (rsum P f - s) in Y by ring. rewrite (Rabs_minus_sym (rsum P f) (rsum (P + n0) f)) in Y. lra.
Qed.

(** ** The two passes *)
(** h a at lag [a - j], 0 before the impulse. *)
Definition hp (h : nat -> R) (a j : nat) : R := if (j <=? a)%nat then h (a - j)%nat else 0.
Definition padded (e : nat) (x : list R) (k : nat) : R := if (k <? e)%nat then 0 else nth (k - e) x 0.

Lemma conv_padded h e x a : rsum (S (e + a)) (fun k => padded e x k * h (e + a - k)%nat) = rsum (length x) (fun j => nth j x 0 * hp h a j).
Proof.
  replace (S (e + a)) with (e + S a)%nat by lia. rewrite rsum_add. rewrite rsum_zero.
  2:{ intros i Hi. unfold padded. destruct (Nat.ltb_spec i e); [ring|lia]. }
  rewrite Rplus_0_l. rewrite (rsum_ext (S a) _ (fun j => nth j x 0 * hp h a j)).
  2:{ intros i Hi. unfold padded, hp. destruct (Nat.ltb_spec (e + i) e); [lia|]. destruct (Nat.leb_spec i a); [|lia]. f_equal; f_equal; lia. }
  destruct (le_ge_dec (S a) (length x)) as [L|L].
  - replace (length x) with (S a + (length x - S a))%nat by lia. rewrite rsum_add, (rsum_zero (length x - S a)); [ring|]. intros i _. unfold hp. destruct (Nat.leb_spec (S a + i) a); [lia|ring].
  - replace (S a) with (length x + (S a - length x))%nat by lia. rewrite rsum_add, (rsum_zero (S a - length x)); [ring|]. intros i _. rewrite nth_overflow by lia. ring.
Qed.

Section Kernel.
Variable h : nat -> R.
Variables C rho : R.
Hypothesis HC : 0 <= C.
Hypothesis Hr : 0 < rho < 1.
Hypothesis Hh : forall k, Rabs (h k) <= C * rho ^ k.
Variable r : nat -> R.
Hypothesis Hrm : forall m P, Rabs (rsum P (fun k => h k * h (k + m)%nat) - r m) <= C * C / (1 - rho) * rho ^ P.

Lemma kernel_partial n j P : (j <= P)%nat -> Rabs (rsum P (fun i => h i * hp h (n + i) j) - r (dist n j)) <= C * C / (1 - rho) * rho ^ (P - j).
Proof.
  intros HP. assert (D : 0 <= C * C / (1 - rho)) by (apply Rmult_le_pos; [nra|left; apply Rinv_0_lt_compat; lra]).
  assert (Pm : forall a b, (a <= b)%nat -> C * C / (1 - rho) * rho ^ b <= C * C / (1 - rho) * rho ^ a).
  { intros a b H. apply Rmult_le_compat_l; [exact D|]. replace b with (a + (b - a))%nat by lia. rewrite pow_add. rewrite <- (Rmult_1_r (rho ^ a)) at 2. apply Rmult_le_compat_l; [apply pow_le; lra|].
    rewrite <- (pow1 (b - a)). apply pow_incr. lra. }
  unfold dist. destruct (le_ge_dec j n) as [L|L].
  - replace (n - j + (j - n))%nat with (n - j)%nat by lia. rewrite (rsum_ext P _ (fun k => h k * h (k + (n - j))%nat)).
    + eapply Rle_trans; [apply Hrm|]. apply Pm. lia.
    + intros i _. unfold hp. destruct (Nat.leb_spec j (n + i)); [|lia]. f_equal. f_equal. lia.
  - set (m := (j - n)%nat). replace (n - j + m)%nat with m by lia. replace P with (m + (P - m))%nat at 1 by lia. rewrite rsum_add, rsum_zero.
    2:{ intros i Hi. unfold hp. destruct (Nat.leb_spec j (n + i)); [unfold m in Hi; lia|ring]. }
    rewrite Rplus_0_l, (rsum_ext (P - m) _ (fun k => h k * h (k + m)%nat)).
    + eapply Rle_trans; [apply Hrm|]. apply Pm. unfold m. lia.
    + intros i _. unfold hp. destruct (Nat.leb_spec j (n + (m + i))); [|unfold m in *; lia]. replace (n + (m + i) - j)%nat with i by (unfold m; lia). replace (i + m)%nat with (m + i)%nat by lia. ring.
Qed.
End Kernel.

Lemma rev_sum k (h g : nat -> R) : rsum (S k) (fun j => g j * h (k - j)%nat) = rsum (S k) (fun i => h i * g (k - i)%nat).
Proof. rewrite <- (rsum_flip k (fun i => h i * g (k - i)%nat)). apply rsum_ext. intros j Hj. replace (k - (k - j))%nat with j by lia. ring. Qed.

Lemma filtfilt_kernel l init rho : Forall (roots_within rho) l -> 0 < rho < 1 -> (forall r, rho <= r -> Forall (roots_within r) l) -> same_coefs init l ->
  let h := ir (at_rest l) in
  exists K r, 0 <= K /\ (forall k, Rabs (h k) <= K * rho ^ k) /\ (forall m, infinite_sum (fun k => h k * h (k + m)%nat) (r m)) /\ (forall m, Rabs (r m) <= K * rho ^ m) /\
  forall x M n, 0 <= M -> (forall k, Rabs (nth k x 0) <= M) -> (n < length x)%nat ->
    Rabs (nth n (filtfilt x l init) 0 - rsum (length x) (fun j => nth j x 0 * r (dist n j))) <= K * M * (rho ^ n + rho ^ (length x - 1 - n)).
Proof.
  intros HF Hr HR HI h. destruct (cascade_bound l rho HF ltac:(lra)) as [G [HG B]]. destruct (cascade_size l (HR 1 ltac:(lra))) as [G2 [HG2 B2]].
  assert (ZR : Forall zero_state (at_rest l)) by (unfold at_rest; apply Forall_forall; intros s Hs; apply in_map_iff in Hs; destruct Hs as (t & <- & _); split; reflexivity).
  assert (Pr : forall n, 0 < rho ^ n) by (intros n; apply pow_lt; lra).
  assert (Pr1 : forall n, rho ^ n <= 1) by (intros n; rewrite <- (pow1 n); apply pow_incr; lra).
  assert (Pm : forall a b, (a <= b)%nat -> rho ^ b <= rho ^ a).
  { intros a b H. replace b with (a + (b - a))%nat by lia. rewrite pow_add. rewrite <- (Rmult_1_r (rho ^ a)) at 2. apply Rmult_le_compat_l; [left; apply Pr|apply Pr1]. }
  assert (Hh : forall k, Rabs (h k) <= G * rho ^ k).
  { intros k. pose proof (B (at_rest l) (at_rest l) (fun j => match j with O => 1 | S _ => 0 end) (fun _ => 0) 1 (at_rest_coefs l) (at_rest_coefs l) ltac:(lra)) as Q.
    assert (Q1 : forall n, Rabs (match n with O => 1 | S _ => 0 end - 0) <= 1 * rho ^ n). { intros [|n]; [cbn [pow]; rewrite Rminus_0_r, Rabs_R1; lra|]. rewrite Rminus_0_r, Rabs_R0. pose proof (Pr (S n)). lra. }
    specialize (Q Q1 k). rewrite at_rest_zero, at_rest_size, Rminus_0_r, cout_ir in Q by exact ZR. rewrite rsum_first, rsum_zero in Q by (intros; ring). rewrite Nat.sub_0_r in Q. fold h in Q.
    replace (1 * h k + 0) with (h k) in Q by ring. replace (G * (1 + 0 + 0)) with G in Q by ring. exact Q. }
  assert (Hex : forall m, {s | infinite_sum (fun k => h k * h (k + m)%nat) s /\ (forall P, Rabs (rsum P (fun k => h k * h (k + m)%nat) - s) <= G * G / (1 - rho) * rho ^ P) /\ Rabs s <= G * G / (1 - rho) * rho ^ m}).
  { intros m. destruct (geo_cv (fun k => h k * h (k + m)%nat) (G * G * rho ^ m) rho) as [s [S1 S2]]; [apply Rmult_le_pos; [nra|left; apply Pr]|exact Hr| |].
    - intros k. rewrite Rabs_mult. apply Rle_trans with ((G * rho ^ k) * (G * rho ^ (k + m))); [apply Rmult_le_compat; try apply Rabs_pos; apply Hh|]. rewrite pow_add.
      replace (G * rho ^ k * (G * (rho ^ k * rho ^ m))) with (G * G * rho ^ m * rho ^ k * rho ^ k) by ring. rewrite <- (Rmult_1_r (G * G * rho ^ m * rho ^ k)) at 2. apply Rmult_le_compat_l; [|apply Pr1].
      apply Rmult_le_pos; [apply Rmult_le_pos; [nra|left; apply Pr]|left; apply Pr].
    - assert (Eq : G * G * rho ^ m / (1 - rho) = G * G / (1 - rho) * rho ^ m) by (field; lra). rewrite Eq in S2. assert (D : 0 <= G * G / (1 - rho)) by (apply Rmult_le_pos; [nra|left; apply Rinv_0_lt_compat; lra]).
      exists s. split; [exact S1|]. split.
      + intros P. eapply Rle_trans; [apply S2|]. apply Rmult_le_compat_r; [left; apply Pr|]. rewrite <- (Rmult_1_r (G * G / (1 - rho))) at 2. apply Rmult_le_compat_l; [exact D|apply Pr1].
      + specialize (S2 0%nat). cbn [rsum pow] in S2. rewrite Rminus_0_l, Rabs_Ropp, Rmult_1_r in S2. exact S2. }
  set (Zi := state_size init). assert (HZi : 0 <= Zi) by apply state_size_pos. set (I1 := / (1 - rho)). assert (HI1 : 0 < I1) by (apply Rinv_0_lt_compat; lra).
  set (Bw := G2 * (3 + 3 * Zi)). assert (HBw : 0 <= Bw) by (apply Rmult_le_pos; lra).
  set (K1 := G * (3 + 3 * Zi)). assert (HK1 : 0 <= K1) by (apply Rmult_le_pos; lra).
  set (K := G + G * G * I1 + G * K1 * I1 + G * (2 * Bw) * I1 + G * Bw * I1 + G * (Bw * Zi)).
  assert (P1 : 0 <= G * G * I1) by (apply Rmult_le_pos; [nra|lra]). assert (P2 : 0 <= G * K1 * I1) by (apply Rmult_le_pos; [apply Rmult_le_pos; assumption|lra]).
  assert (P3 : 0 <= G * (2 * Bw) * I1) by (apply Rmult_le_pos; [apply Rmult_le_pos; lra|lra]). assert (P4 : 0 <= G * Bw * I1) by (apply Rmult_le_pos; [apply Rmult_le_pos; assumption|lra]).
  assert (P5 : 0 <= G * (Bw * Zi)) by (apply Rmult_le_pos; [assumption|apply Rmult_le_pos; assumption]).
  assert (Hchoice : exists r, forall m, infinite_sum (fun k => h k * h (k + m)%nat) (r m) /\ (forall P, Rabs (rsum P (fun k => h k * h (k + m)%nat) - r m) <= G * G / (1 - rho) * rho ^ P) /\ Rabs (r m) <= G * G / (1 - rho) * rho ^ m).
  { exists (fun m => proj1_sig (Hex m)). intros m. exact (proj2_sig (Hex m)). }
  destruct Hchoice as [r Hk]. exists K, r. split; [unfold K; lra|]. split; [intros k; eapply Rle_trans; [apply Hh|]; apply Rmult_le_compat_r; [left; apply Pr|unfold K; lra]|].
  split; [intros m; apply Hk|]. split; [intros m; eapply Rle_trans; [apply Hk|]; apply Rmult_le_compat_r; [left; apply Pr|unfold K, I1, Rdiv in *; lra]|].
  intros x M n HM Hx Hn. set (N := length x) in *. unfold filtfilt. cbn zeta. set (e := (3 * taps l)%nat). fold N. set (ext := odd_extension e x).
  assert (Lx : length ext = (N + 2 * e)%nat) by (unfold ext; rewrite odd_extension_length; reflexivity).
  assert (Bx : forall k, Rabs (nth k ext 0) <= 3 * M) by (apply ext_bound; assumption).
  set (l0 := scale_state (nth 0 ext nzero) init).
  assert (C0' : same_coefs l0 l) by (unfold same_coefs, l0; rewrite scale_coefs; exact HI).
  assert (S0 : state_size l0 <= 3 * M * Zi) by (unfold l0; rewrite scale_size; apply Rmult_le_compat_r; [exact HZi|apply Bx]).
  set (v := fst (filt ext l0)). assert (Lv : length v = (N + 2 * e)%nat) by (unfold v; rewrite filt_length_out; exact Lx).
  set (w := fun i => cout (at_rest l) (padded e x) i).
  assert (Bp : forall k, Rabs (padded e x k) <= M) by (intros k; unfold padded; destruct (k <? e)%nat; [rewrite Rabs_R0; exact HM|apply Hx]).
  assert (BV : forall k, Rabs (nth k v 0) <= Bw * M).
  { intros k. destruct (Nat.lt_ge_cases k (N + 2 * e)) as [L|L].
    - unfold v. rewrite filt_cout by lia. eapply Rle_trans; [apply (B2 l0 _ (3 * M)); [exact C0'|lra|exact Bx]|].
      unfold Bw. rewrite Rmult_assoc. apply Rmult_le_compat_l; [exact HG2|]. lra.
    - rewrite nth_overflow, Rabs_R0 by lia. apply Rmult_le_pos; assumption. }
  assert (BWw : forall k, Rabs (w k) <= Bw * M).
  { intros k. unfold w. eapply Rle_trans; [apply (B2 (at_rest l) _ M); [apply at_rest_coefs|exact HM|exact Bp]|]. rewrite at_rest_size. unfold Bw. rewrite Rmult_assoc. apply Rmult_le_compat_l; [exact HG2|]. assert (0 <= Zi * M) by (apply Rmult_le_pos; assumption). lra. }
  assert (D1 : forall k, (k < N)%nat -> Rabs (nth (e + k) v 0 - w (e + k)%nat) <= K1 * M * rho ^ k).
  { intros k Hk'. unfold v. rewrite filt_cout by lia. unfold w. set (Q := fun i => if (i <? e + N)%nat then nth i ext 0 else 0).
    rewrite (cout_local l0 (fun j => nth j ext 0) Q) by (intros j Hj; unfold Q; destruct (Nat.ltb_spec j (e + N)); [reflexivity|lia]).
    assert (Pir : 0 < / rho) by (apply Rinv_0_lt_compat; lra).
    pose proof (B l0 (at_rest l) Q (padded e x) (3 * M * (/ rho) ^ e) C0' (at_rest_coefs l)) as T. rewrite at_rest_size, Rplus_0_r in T.
    assert (Hpe : 0 < (/ rho) ^ e) by (apply pow_lt, Pir).
    eapply Rle_trans; [apply T|].
    - apply Rmult_le_pos; lra.
    - intros i. unfold Q, padded. destruct (Nat.ltb_spec i e) as [L|L].
      + destruct (Nat.ltb_spec i (e + N)); [|lia]. rewrite Rminus_0_r. eapply Rle_trans; [apply Bx|]. rewrite Rmult_assoc. rewrite <- (Rmult_1_r (3 * M)) at 1. apply Rmult_le_compat_l; [lra|].
        replace e with (i + (e - i))%nat by lia. rewrite pow_add, (Rmult_comm ((/ rho) ^ i)), Rmult_assoc, <- Rpow_mult_distr, Rinv_l, pow1, Rmult_1_r by lra.
        apply pow_R1_Rle. apply Rmult_le_reg_r with rho; [lra|]. rewrite Rinv_l by lra. lra.
      + assert (Z0 : 0 <= 3 * M * (/ rho) ^ e * rho ^ i) by (apply Rmult_le_pos; [apply Rmult_le_pos; lra|left; apply Pr]).
        destruct (Nat.ltb_spec i (e + N)) as [L'|L'].
        * replace i with (e + (i - e))%nat at 1 by lia. unfold ext. rewrite ext_mid by (unfold N in L'; lia). rewrite Rminus_diag_eq, Rabs_R0 by reflexivity. exact Z0.
        * rewrite nth_overflow by (unfold N in L'; lia). rewrite Rminus_0_r, Rabs_R0. exact Z0.
    - rewrite pow_add. replace (G * (3 * M * (/ rho) ^ e + state_size l0) * (rho ^ e * rho ^ k)) with (G * (3 * M * (rho ^ e * (/ rho) ^ e) + state_size l0 * rho ^ e) * rho ^ k) by ring.
      rewrite <- Rpow_mult_distr, Rinv_r, pow1, Rmult_1_r by lra. apply Rmult_le_compat_r; [left; apply Pr|]. unfold K1. rewrite Rmult_assoc. apply Rmult_le_compat_l; [exact HG|].
      pose proof (Pr e). pose proof (Pr1 e). pose proof (state_size_pos l0). assert (state_size l0 * rho ^ e <= state_size l0 * 1) by (apply Rmult_le_compat_l; assumption). lra. }
  set (l1 := scale_state (nth 0 (rev v) nzero) init).
  assert (NR : forall k, (k < N + 2 * e)%nat -> nth k (rev v) 0 = nth (N + 2 * e - S k) v 0) by (intros k Hk'; rewrite rev_nth by lia; rewrite Lv; reflexivity).
  assert (BR : forall k, Rabs (nth k (rev v) 0) <= Bw * M).
  { intros k. destruct (Nat.lt_ge_cases k (N + 2 * e)) as [L|L]; [rewrite NR by exact L; apply BV|].
    rewrite nth_overflow, Rabs_R0 by (rewrite rev_length; lia). apply Rmult_le_pos; assumption. }
  assert (C1' : same_coefs l1 l) by (unfold same_coefs, l1; rewrite scale_coefs; exact HI).
  assert (S1 : state_size l1 <= Bw * M * Zi) by (unfold l1; rewrite scale_size; apply Rmult_le_compat_r; [exact HZi|apply BR]).
  rewrite rev_nth by (rewrite firstn_length, skipn_length, filt_length_out, rev_length, Lv; lia).
  replace (length (firstn N (skipn e (fst (filt (rev v) l1))))) with N by (rewrite firstn_length, skipn_length, filt_length_out, rev_length, Lv; lia).
  set (j := (N - S n)%nat). assert (Hj : (j < N)%nat) by (unfold j; lia).
  assert (NT : nth j (firstn N (skipn e (fst (filt (rev v) l1)))) 0 = nth (e + j) (fst (filt (rev v) l1)) 0).
  { rewrite <- (firstn_skipn e (fst (filt (rev v) l1))) at 2.
    rewrite app_nth2; rewrite firstn_length, filt_length_out, rev_length, Lv; [|lia].
    replace (e + j - Nat.min e (N + 2 * e))%nat with j by lia. rewrite <- (firstn_skipn N (skipn e _)) at 2.
    rewrite app_nth1; [reflexivity|]. rewrite firstn_length, skipn_length, filt_length_out, rev_length, Lv. lia. }
  rewrite NT, filt_cout by (rewrite rev_length, Lv; lia). set (k := (e + j)%nat). set (p := (e + n)%nat).
  set (y := cout l1 (fun i => nth i (rev v) 0) k).
  assert (E1 : Rabs (y - rsum (S k) (fun i => h i * nth (p + i) v 0)) <= G * (Bw * Zi) * M * rho ^ k).
  { pose proof (B l1 (at_rest l) (fun i => nth i (rev v) 0) (fun i => nth i (rev v) 0) 0 C1' (at_rest_coefs l) ltac:(lra)) as T. rewrite at_rest_size in T.
    assert (T1 : forall i, Rabs (nth i (rev v) 0 - nth i (rev v) 0) <= 0 * rho ^ i) by (intros i; rewrite Rminus_diag_eq, Rabs_R0 by reflexivity; lra).
    specialize (T T1 k). fold y in T. rewrite (cout_ir (at_rest l)) in T by exact ZR. fold h in T. rewrite (rev_sum k h (fun i => nth i (rev v) 0)) in T.
    rewrite (rsum_ext (S k) _ (fun i => h i * nth (p + i) v 0)) in T.
    - eapply Rle_trans; [exact T|]. apply Rmult_le_compat_r; [left; apply Pr|]. rewrite !Rmult_assoc. apply Rmult_le_compat_l; [exact HG|]. lra.
    - intros i Hi. rewrite NR by (unfold k, j in *; lia). f_equal. f_equal. unfold p, k, j in *. lia. }
  assert (Hkn : (N - 1 - n <= k)%nat) by (unfold k, j; lia).
  assert (Split : (S k = (N - n) + e)%nat) by (unfold k, j; lia).
  assert (E2 : Rabs (rsum (S k) (fun i => h i * (nth (p + i) v 0 - w (p + i)%nat))) <= G * K1 * I1 * M * rho ^ n + G * (2 * Bw) * I1 * M * rho ^ (N - 1 - n)).
  { rewrite Split, rsum_add. eapply Rle_trans; [apply Rabs_triang|]. apply Rplus_le_compat.
    - eapply Rle_trans; [apply rsum_abs|]. pose proof (geom_tail (G * K1 * M * rho ^ n) rho (fun i => G * K1 * M * rho ^ n * rho ^ i)) as T.
      assert (Pc : 0 <= G * K1 * M * rho ^ n) by (apply Rmult_le_pos; [apply Rmult_le_pos; [apply Rmult_le_pos; assumption|exact HM]|left; apply Pr]).
      specialize (T Pc Hr ltac:(intros q; rewrite Rabs_pos_eq; [lra|apply Rmult_le_pos; [exact Pc|left; apply Pr]]) (N - n)%nat 0%nat). cbn [Nat.add pow] in T.
      eapply Rle_trans; [apply rsum_le|eapply Rle_trans; [exact T|unfold I1, Rdiv; right; ring]].
      intros i Hi. cbv beta. rewrite Rabs_mult, (Rabs_pos_eq (G * K1 * M * rho ^ n * rho ^ i)) by (apply Rmult_le_pos; [exact Pc|left; apply Pr]).
      replace (p + i)%nat with (e + (n + i))%nat by (unfold p; lia). apply Rle_trans with (G * rho ^ i * (K1 * M * rho ^ (n + i))).
      + apply Rmult_le_compat; try apply Rabs_pos; [apply Hh|apply D1; lia].
      + replace (G * K1 * M * rho ^ n * rho ^ i) with (G * rho ^ i * (K1 * M * rho ^ n)) by ring. apply Rmult_le_compat_l; [apply Rmult_le_pos; [exact HG|left; apply Pr]|]. apply Rmult_le_compat_l; [apply Rmult_le_pos; assumption|apply Pm; lia].
    - eapply Rle_trans; [apply rsum_abs|]. assert (Pc : 0 <= G * (2 * Bw) * M) by (apply Rmult_le_pos; [apply Rmult_le_pos; lra|exact HM]).
      pose proof (geom_tail (G * (2 * Bw) * M) rho (fun i => G * (2 * Bw) * M * rho ^ i) Pc Hr ltac:(intros q; rewrite Rabs_pos_eq; [lra|apply Rmult_le_pos; [exact Pc|left; apply Pr]]) e (N - n)%nat) as T.
      eapply Rle_trans; [apply rsum_le|eapply Rle_trans; [exact T|]].
      + intros i Hi. cbv beta. rewrite Rabs_mult, (Rabs_pos_eq (G * (2 * Bw) * M * rho ^ (N - n + i))) by (apply Rmult_le_pos; [exact Pc|left; apply Pr]).
        apply Rle_trans with (G * rho ^ (N - n + i) * (2 * Bw * M)); [|right; ring]. apply Rmult_le_compat; try apply Rabs_pos; [apply Hh|].
        pose proof (BV (p + (N - n + i))%nat) as Q1. pose proof (BWw (p + (N - n + i))%nat) as Q2. apply Rabs_le. apply abs_le_inv in Q1, Q2. lra.
      + unfold Rdiv. fold I1. replace (G * (2 * Bw) * M * I1) with (G * (2 * Bw) * I1 * M) by ring. apply Rmult_le_compat_l; [apply Rmult_le_pos; assumption|apply Pm; lia]. }
  assert (E3 : forall P, Rabs (rsum (S k + P) (fun i => h i * w (p + i)%nat) - rsum (S k) (fun i => h i * w (p + i)%nat)) <= G * Bw * I1 * M * rho ^ (N - 1 - n)).
  { intros P. rewrite rsum_add. match goal with |- Rabs (?a + ?b - ?a) <= _ => replace (a + b - a) with b by ring end. eapply Rle_trans; [apply rsum_abs|].
    assert (Pc : 0 <= G * Bw * M) by (apply Rmult_le_pos; [apply Rmult_le_pos; assumption|exact HM]).
    eapply Rle_trans; [apply (geom_tail (G * Bw * M) rho (fun i => h i * w (p + i)%nat) Pc Hr)|].
    - intros q. rewrite Rabs_mult. apply Rle_trans with (G * rho ^ q * (Bw * M)); [apply Rmult_le_compat; try apply Rabs_pos; [apply Hh|apply BWw]|right; ring].
    - unfold Rdiv. fold I1. replace (G * Bw * M * I1) with (G * Bw * I1 * M) by ring. apply Rmult_le_compat_l; [apply Rmult_le_pos; assumption|apply Pm; lia]. }
  set (bound := K * M * (rho ^ n + rho ^ (N - 1 - n))).
  assert (E4 : forall P, Rabs (y - rsum (S k + P) (fun i => h i * w (p + i)%nat)) <= bound).
  { intros P. specialize (E3 P). set (a1 := rsum (S k) (fun i => h i * nth (p + i) v 0)) in *. set (a2 := rsum (S k) (fun i => h i * w (p + i)%nat)) in *. set (a3 := rsum (S k + P) _) in *.
    assert (A12 : rsum (S k) (fun i => h i * (nth (p + i) v 0 - w (p + i)%nat)) = a1 - a2) by (unfold a1, a2; rewrite <- rsum_minus; apply rsum_ext; intros; ring). rewrite A12 in E2.
    assert (E1' : Rabs (y - a1) <= G * (Bw * Zi) * M * rho ^ (N - 1 - n)). { eapply Rle_trans; [exact E1|]. apply Rmult_le_compat_l; [apply Rmult_le_pos; assumption|apply Pm; exact Hkn]. }
    assert (T : Rabs (y - a3) <= Rabs (y - a1) + Rabs (a1 - a2) + Rabs (a3 - a2)).
    { replace (y - a3) with ((y - a1) + ((a1 - a2) + - (a3 - a2))) by ring. eapply Rle_trans; [apply Rabs_triang|]. pose proof (Rabs_triang (a1 - a2) (- (a3 - a2))) as T2. rewrite Rabs_Ropp in T2. lra. }
    eapply Rle_trans; [exact T|]. unfold bound. set (u1 := rho ^ n) in *. set (u2 := rho ^ (N - 1 - n)) in *. assert (U1 : 0 < u1) by apply Pr. assert (U2 : 0 < u2) by apply Pr.
    assert (F1 : G * K1 * I1 * (M * u1) <= K * (M * u1)) by (apply Rmult_le_compat_r; [apply Rmult_le_pos; lra|unfold K; lra]).
    assert (F2 : (G * (2 * Bw) * I1 + G * Bw * I1 + G * (Bw * Zi)) * (M * u2) <= K * (M * u2)) by (apply Rmult_le_compat_r; [apply Rmult_le_pos; lra|unfold K; lra]). lra. }
  assert (E5 : forall P, rsum P (fun i => h i * w (p + i)%nat) = rsum N (fun q => nth q x 0 * rsum P (fun i => h i * hp h (n + i) q))).
  { intros P. rewrite (rsum_ext P _ (fun i => rsum N (fun q => h i * (nth q x 0 * hp h (n + i) q)))).
    - rewrite rsum_swap. apply rsum_ext. intros q _. rewrite <- rsum_scale. apply rsum_ext. intros i _. ring.
    - intros i _. rewrite rsum_scale. f_equal. unfold w. rewrite cout_ir by exact ZR. fold h. replace (p + i)%nat with (e + (n + i))%nat by (unfold p; lia). rewrite conv_padded. reflexivity. }
  set (target := rsum N (fun q => nth q x 0 * r (dist n q))). set (CC := INR N * (M * (G * G / (1 - rho)))).
  assert (HCC : 0 <= CC). { apply Rmult_le_pos; [apply pos_INR|]. apply Rmult_le_pos; [exact HM|]. unfold Rdiv. fold I1. exact P1. }
  assert (E6 : forall P, (N <= P)%nat -> Rabs (rsum P (fun i => h i * w (p + i)%nat) - target) <= CC * rho ^ (P - N)).
  { intros P HP. rewrite E5. unfold target. rewrite <- rsum_minus. eapply Rle_trans; [apply rsum_abs|]. unfold CC. rewrite Rmult_assoc, <- rsum_const. apply rsum_le. intros q Hq.
    rewrite <- Rmult_minus_distr_l, Rabs_mult. rewrite (Rmult_assoc M). apply Rmult_le_compat; try apply Rabs_pos; [apply Hx|].
    eapply Rle_trans; [apply (kernel_partial h G rho Hr r (fun m => proj1 (proj2 (Hk m)))); lia|]. apply Rmult_le_compat_l; [unfold Rdiv; fold I1; exact P1|apply Pm; lia]. }
  apply Rnot_lt_le. intros Hlt. fold target bound in Hlt. set (gap := Rabs (y - target) - bound) in *. assert (Hgap : 0 < gap) by (unfold gap; lra).
  destruct (small_pow rho (gap / (CC + 1)) Hr ltac:(apply Rdiv_lt_0_compat; lra)) as [n0 H0]. specialize (H0 n0 (le_n n0)).
  specialize (E4 (N + n0)%nat). specialize (E6 (S k + (N + n0))%nat ltac:(lia)). set (z := rsum (S k + (N + n0)) _) in *.
  assert (Q : CC * rho ^ (S k + (N + n0) - N) < gap).
  { apply Rle_lt_trans with ((CC + 1) * rho ^ n0).
    - apply Rle_trans with (CC * rho ^ n0); [apply Rmult_le_compat_l; [exact HCC|apply Pm; lia]|pose proof (Pr n0); lra].
    - apply Rlt_le_trans with ((CC + 1) * (gap / (CC + 1))); [apply Rmult_lt_compat_l; lra|right; field; lra]. }
  pose proof (Rabs_triang (y - z) (z - target)) as T. replace (y - z + (z - target)) with (y - target) in T by ring. unfold gap in *. lra.
Qed.

Lemma infinite_sum_le f s B : infinite_sum f s -> (forall P, Rabs (rsum P f) <= B) -> Rabs s <= B.
Proof.
  intros Hs HB. apply Rnot_lt_le. intros Q. destruct (Hs (Rabs s - B) ltac:(lra)) as [n0 H0]. specialize (H0 n0 (le_n n0)). rewrite rsum_sum_f in H0. unfold R_dist in H0. specialize (HB (S n0)).
  pose proof (Rabs_triang (rsum (S n0) f) (s - rsum (S n0) f)) as T. replace (rsum (S n0) f + (s - rsum (S n0) f)) with s in T by ring. rewrite (Rabs_minus_sym s) in T. lra.
Qed.
Lemma partial_le f s P : infinite_sum f s -> (forall k, 0 <= f k) -> rsum P f <= s.
Proof.
  intros Hs Hf. apply Rnot_lt_le. intros Q. destruct (Hs (rsum P f - s) ltac:(lra)) as [n0 H0]. specialize (H0 (P + n0)%nat ltac:(lia)). rewrite rsum_sum_f in H0. unfold R_dist in H0.
  replace (S (P + n0)) with (P + S n0)%nat in H0 by lia. rewrite rsum_add in H0. assert (0 <= rsum (S n0) (fun i => f (P + i)%nat)) by (apply rsum_nonneg; intros; apply Hf). apply Rabs_def2 in H0. lra.
Qed.
Lemma kernel_peak h r : (forall m, infinite_sum (fun k => h k * h (k + m)%nat) (r m)) -> forall m, Rabs (r m) <= r 0%nat.
Proof.
  intros Hr m. apply (infinite_sum_le _ _ _ (Hr m)). intros P.
  assert (H0 : infinite_sum (fun k => h k * h k) (r 0%nat)). { intros e He. destruct (Hr 0%nat e He) as [n0 Q]. exists n0. intros n Hn. specialize (Q n Hn). rewrite rsum_sum_f in *. rewrite (rsum_ext _ _ (fun k => h k * h (k + 0)%nat)) by (intros; rewrite Nat.add_0_r; reflexivity). exact Q. }
  assert (Sq : forall k, 0 <= h k * h k) by (intros k; pose proof (Rle_0_sqr (h k)) as Q; exact Q).
  pose proof (partial_le _ _ P H0 Sq) as Q1. pose proof (partial_le _ _ (m + P)%nat H0 Sq) as Q2. rewrite rsum_add in Q2. assert (Q3 : 0 <= rsum m (fun k => h k * h k)) by (apply rsum_nonneg; intros; apply Sq).
  eapply Rle_trans; [apply rsum_abs|]. apply Rle_trans with (rsum P (fun k => / 2 * (h k * h k) + / 2 * (h (m + k)%nat * h (m + k)%nat))).
  - apply rsum_le. intros i _. replace (i + m)%nat with (m + i)%nat by lia. apply Rabs_le. pose proof (Rle_0_sqr (h i - h (m + i)%nat)) as A. pose proof (Rle_0_sqr (h i + h (m + i)%nat)) as D. unfold Rsqr in A, D. lra.
  - rewrite rsum_plus, !rsum_scale. lra.
Qed.
