(** C117: second-order sections of analog Butterworth and Chebyshev I filters. *)
From Coq Require Import List Arith ZArith Reals Permutation Lra Lia Sorted.
From Verif Require Import Base Num Trans M_Complex M_Design M_Filter RSum Cx ListUtil S_Design S_Bessel S_Filter S_Stable S_Margin S_AnalogSos P_Bessel P_Savgol P_Poly P_Lp P_CPoly P_Proto P_Cheb P_Iir P_Iir2 P_Sos P_Sos2 P_Stable P_Margin P_AnalogSos T_Iir T_Sos T_Stable T_ZeroPhase T_Margin.
Import ListNotations.
Local Open Scope R_scope.

Lemma analog_steps epsilon sort ft N wn rp rs bt p k f :
  proto ft N rp rs = mkZpk [] p k -> ripple_ok ft rp rs -> valid_freqs bt wn ->
  iirfilter_dyn epsilon sort N wn rp rs (Some bt) (Some ft) (Some true) (Some OutZpk) None = Ok (DZpk f) ->
  apply_band bt (mkZpk [] p k) wn = Ok f.
Proof.
  intros Hpr Hro Hv E. rewrite iir_good in E.
  2:{ cbn [unwrap_or]. apply valid_not_bad; [exact Hv|discriminate|reflexivity|exact Hro]. }
  cbn [unwrap_or] in E. unfold reduced in E. cbv zeta in E. rewrite Hpr in E. cbn [normalised] in E.
  destruct (apply_band bt (mkZpk [] p k) wn) as [f1| | |] eqn:E1; cbn [bind] in E; try discriminate.
  f_equal. unfold finish in E. cbn [unwrap_or] in E. apply (f_equal (fun x => match x with Ok (DZpk g) => g | _ => f1 end)) in E. exact E.
Qed.

(** The section output, given the zeros of the band transform and separated poles. *)
Lemma analog_sections_ok epsilon sort N bt p k wn f : 0 <= epsilon -> is_sort sort -> (0 < N)%nat -> length p = N ->
  apply_band bt (mkZpk [] p k) wn = Ok f -> real_filter f -> length (zk_p f) = (band_arity bt * N)%nat ->
  separated epsilon (zk_p f) ->
  analog_sections bt N (finish epsilon sort N true (Some OutSos) f) f.
Proof.
  intros He Hso HN Lp E1 Hr Lf Hsp. pose proof (band_zeros bt p k wn f E1) as Z. rewrite Lp in Z.
  assert (Hm : (None : option ZpkPairing) = Some Minimal \/ (None : option ZpkPairing) = None /\ Some true = Some true) by (right; split; reflexivity).
  assert (Main : separated epsilon (zk_z f) -> forall j, (length (zk_p f) - length (zk_z f) = j)%nat ->
    zpk2sos_dyn epsilon sort N f None (Some true) <> Panic -> sections_of (finish epsilon sort N true (Some OutSos) f) f j).
  { intros Hsz j Ej Hnp. assert (Hp0 : (0 < length (zk_p f))%nat) by (rewrite Lf; destruct bt; cbn; lia).
    destruct (C46_result_law epsilon sort N f None (Some true) He Hso Hm Hr Hsz Hsp Hp0) as [Q|[l [El [Ll [Fl [_ Hx]]]]]]; [contradiction|].
    exists l. unfold finish. cbn [unwrap_or]. rewrite El. split; [reflexivity|]. split; [exact Ll|]. split; [exact Fl|]. rewrite <- Ej. exact Hx. }
  assert (Rz : forall j, Forall (fun r : C => cim r = 0) (repeat C0 j)) by (intros j; apply Forall_forall; intros r Q; apply repeat_spec in Q; rewrite Q; reflexivity).
  assert (Sz : forall l, Forall (fun r : C => cim r = 0) l -> separated epsilon l).
  { intros l. apply Forall_impl. intros r Q. left. exact Q. }
  destruct bt; cbn [analog_sections band_arity] in *.
  - destruct (Nat.even N) eqn:Ev.
    + apply Main; [rewrite Z; constructor|rewrite Z, Lf; cbn; lia|]. apply Nat.even_spec in Ev.
      destruct (C46_fewer_zeros_law epsilon sort N f None (Some true)) as [l [-> _]]; try assumption; try discriminate.
      * unfold proper. rewrite Z. cbn. lia.
      * rewrite Z. constructor.
      * rewrite Z. exists 0%nat. reflexivity.
      * rewrite Lf, Nat.mul_1_l. exact Ev.
      * lia.
    + unfold finish. cbn [unwrap_or]. destruct f as [z q k0]. cbn [zk_z zk_p] in *. subst z.
      rewrite C46_odd_zero_free_refuted; [reflexivity|exact He|exact Hso|exact Hm|apply Hr|exact Hsp|]. rewrite Lf, Nat.mul_1_l.
      apply Nat.odd_spec. unfold Nat.odd. rewrite Ev. reflexivity.
  - apply Main; [rewrite Z; apply Sz, Rz|rewrite Z, Lf, repeat_length; lia|].
    destruct (C46_zpk2sos_analog_partial epsilon sort N f None (Some true)) as [l [-> _]]; try assumption; try discriminate.
    + rewrite Z. apply Sz, Rz.
    + rewrite Z, Lf, repeat_length. lia.
    + right. right. rewrite Z. apply Rz.
  - apply Main; [rewrite Z; apply Sz, Rz|rewrite Z, Lf, repeat_length; lia|]. destruct N as [|N]; [lia|].
    destruct (zpk2sos_even_real_zeros epsilon He sort Hso (S N) f None (Some true) N) as [l [-> _]]; try assumption; try discriminate.
    + rewrite Z. apply Sz, Rz.
    + rewrite Z, repeat_length. lia.
    + rewrite Z. apply Rz.
  - destruct Z as [m Z].
    assert (Hsz : separated epsilon (zk_z f)).
    { rewrite Z. apply Forall_forall. intros r Q. assert (Q' : cre r = 0) by (apply in_app_or in Q; destruct Q as [Q|Q]; apply repeat_spec in Q; rewrite Q; reflexivity).
      destruct (Req_dec (cim r) 0) as [Y|Y]; [left; exact Y|right]. rewrite Q', Rabs_R0, Rmult_0_r. apply Rabs_pos_lt, Y. }
    assert (Lz : length (zk_z f) = (2 * N)%nat) by (rewrite Z, app_length, !repeat_length; lia).
    apply Main; [exact Hsz|rewrite Lz, Lf; lia|].
    destruct (C46_zpk2sos_analog_partial epsilon sort N f None (Some true)) as [l [-> _]]; try assumption; try discriminate.
    + rewrite Lz, Lf. reflexivity.
    + left. exists N. exact Lf.
Qed.

(** For every order, band type and frequencies that meet the condition, what the Sos output of
    an analog Butterworth design is. *)
Theorem C117_butter_analog_sections epsilon sort N wn bt :
  0 <= epsilon -> is_sort sort -> (0 < N)%nat -> valid_freqs bt wn -> analog_clear epsilon bt N 1 1 wn ->
  let design output := butter_dyn epsilon sort N wn (Some bt) (Some true) (Some output) None in
  exists f, design OutZpk = Ok (DZpk f) /\ length (zk_p f) = (band_arity bt * N)%nat /\ analog_sections bt N (design OutSos) f.
Proof.
  intros He Hso HN Hv HC design.
  destruct (analog_design epsilon sort Butterworth N None None _ 1 (proto_butter N None None) (butter_poles_stable N) (buttap_closed N) butter_ripple_ok
              bt wn (Some bt) (Some Butterworth) (Some true) eq_refl eq_refl eq_refl Hv) as [f [E' [_ [Q1 [_ [Q3 _]]]]]].
  rewrite butter_poles_length in Q3.
  pose proof (analog_steps epsilon sort Butterworth N wn None None bt _ 1 f (proto_butter N None None) butter_ripple_ok Hv (E' (Some OutZpk))) as E1.
  exists f. unfold design, butter_dyn. cbn [unwrap_or]. rewrite !E'. split; [reflexivity|]. split; [exact Q3|].
  eapply analog_sections_ok; try eassumption; [apply butter_poles_length|]. rewrite bp_ep in E1.
  apply (analog_clear_poles N 1 1 epsilon HN Rlt_0_1 (Rle_refl 1) (Rle_refl 1) He 1 bt wn f Hv E1 HC).
Qed.
Print Assumptions C117_butter_analog_sections.
Theorem C117_cheby1_analog_sections epsilon sort N rp wn bt :
  0 <= epsilon -> is_sort sort -> (0 < N)%nat -> 0 < rp -> valid_freqs bt wn ->
  analog_clear epsilon bt N (cosh (cheb_axis N rp)) (sinh (cheb_axis N rp)) wn ->
  let design output := cheby1_dyn epsilon sort N rp wn (Some bt) (Some true) (Some output) None in
  exists f, design OutZpk = Ok (DZpk f) /\ length (zk_p f) = (band_arity bt * N)%nat /\ analog_sections bt N (design OutSos) f.
Proof.
  intros He Hso HN Hr Hv HC design.
  pose proof (eps1_pos rp Hr) as Hp. pose proof (sinh_mu N (eps1 rp) HN Hp) as Hsh.
  assert (St : Forall (fun r => cre r < 0) (map (cp N (eps1 rp)) (seq 0 N))).
  { apply Forall_forall. intros p Hin. apply in_map_iff in Hin. destruct Hin as [k [<- Hk]]. apply in_seq in Hk. apply cp_stable; [exact HN|exact Hp|lia]. }
  pose proof (cp_closed N (eps1 rp)) as Cc.
  destruct (analog_design epsilon sort ChebyshevI N (Some rp) None _ (k1 N rp) (cheb1ap_eq N rp HN) St Cc (cheby1_ripple_ok rp Hr)
              bt wn (Some bt) (Some ChebyshevI) (Some true) eq_refl eq_refl eq_refl Hv) as [f [E' [_ [Q1 [_ [Q3 _]]]]]].
  rewrite map_length, seq_length in Q3.
  pose proof (analog_steps epsilon sort ChebyshevI N wn (Some rp) None bt _ (k1 N rp) f (cheb1ap_eq N rp HN) (cheby1_ripple_ok rp Hr) Hv (E' (Some OutZpk))) as E1.
  exists f. unfold design, cheby1_dyn. cbn [unwrap_or]. rewrite !E'. split; [reflexivity|]. split; [exact Q3|].
  eapply analog_sections_ok; try eassumption; [rewrite map_length, seq_length; reflexivity|].
  change (cheb_axis N rp) with (mu N (eps1 rp)) in HC. set (u := mu N (eps1 rp)) in *.
  change (cp N (eps1 rp)) with (ep N (sinh u) (cosh u)) in *.
  assert (Ex : exp u * exp (- u) = 1) by (rewrite <- exp_plus, Rplus_opp_r; apply exp_0).
  pose proof (exp_pos u) as P1. pose proof (exp_pos (- u)) as P2.
  apply (analog_clear_poles N (sinh u) (cosh u) epsilon HN Hsh) with (k := k1 N rp) (bt := bt) (wn := wn); try assumption.
  - unfold sinh, cosh. lra.
  - unfold cosh. pose proof (Rle_0_sqr (exp u - exp (- u))) as Sq. unfold Rsqr in Sq. destruct (Rle_lt_dec 2 (exp u + exp (- u))) as [L|L]; [lra|exfalso; nra].
Qed.
Print Assumptions C117_cheby1_analog_sections.

(** The section output of an analog low-pass or band-pass design is never the filter that was
    asked for: the product of the sections differs from it by the factor s^N. *)
Theorem C117_analog_sections_refuted epsilon sort N wn bt :
  0 <= epsilon -> is_sort sort -> (0 < N)%nat -> valid_freqs bt wn -> analog_clear epsilon bt N 1 1 wn -> bt = Lowpass \/ bt = Bandpass ->
  exists f, butter_dyn epsilon sort N wn (Some bt) (Some true) (Some OutZpk) None = Ok (DZpk f) /\
    ~ sections_of (butter_dyn epsilon sort N wn (Some bt) (Some true) (Some OutSos) None) f 0.
Proof.
  intros He Hso HN Hv HC Hb. destruct (C117_butter_analog_sections epsilon sort N wn bt He Hso HN Hv HC) as [f [Ef [Lf HS]]].
  exists f. split; [exact Ef|]. intros [l [El [_ [_ Hl]]]].
  assert (HS' : sections_of (butter_dyn epsilon sort N wn (Some bt) (Some true) (Some OutSos) None) f N).
  { destruct Hb as [-> | ->]; cbn [analog_sections] in HS; [|exact HS]. destruct (Nat.even N); [exact HS|]. rewrite El in HS. discriminate HS. }
  destruct HS' as [l' [El' [_ [_ Hl']]]]. rewrite El in El'. injection El' as <-.
  (* the poles are in the left half plane: the point 2 tells the two apart *)
  destruct (analog_design epsilon sort Butterworth N None None _ 1 (proto_butter N None None) (butter_poles_stable N) (buttap_closed N) butter_ripple_ok
              bt wn (Some bt) (Some Butterworth) (Some true) eq_refl eq_refl eq_refl Hv) as [g [E' [_ [_ [Q2 [_ _]]]]]].
  assert (g = f) as ->.
  { unfold butter_dyn in Ef. cbn [unwrap_or] in Ef. rewrite E' in Ef. unfold finish in Ef. cbn [unwrap_or] in Ef. apply (f_equal (fun x => match x with Ok (DZpk h) => h | _ => g end)) in Ef. exact Ef. }
  assert (N2 : ~ In (RtoC 2) (zk_p f)).
  { intros Q. unfold stable_analog in Q2. rewrite Forall_forall in Q2. specialize (Q2 _ Q). cbn in Q2. lra. }
  assert (Z2 : RtoC 2 <> C0) by (intros Q; apply (f_equal fst) in Q; cbn in Q; lra).
  destruct (Hl _ Z2 N2) as [_ A]. destruct (Hl' _ Z2 N2) as [_ B]. rewrite A in B. cbn [cpow] in B.
  assert (HN0 : H f (RtoC 2) <> C0).
  { pose proof (analog_steps epsilon sort Butterworth N wn None None bt _ 1 f (proto_butter N None None) butter_ripple_ok Hv (E' (Some OutZpk))) as E1.
    assert (K : zk_k f <> 0) by (eapply band_gain; [exact E1|exact Hv|lra|exact Hb]).
    unfold H. intros Q. assert (D := root_product_neq0 _ _ N2). apply (Cmul_neq0 (RtoC (zk_k f)) (root_product (zk_z f) (RtoC 2))).
    - intros Q'. apply K. apply (f_equal fst) in Q'. exact Q'.
    - apply root_product_neq0. intros Q'. pose proof (band_zeros _ _ _ _ _ E1) as Z.
      assert (Q0 : RtoC 2 = C0); [|contradiction]. destruct Hb as [-> | ->]; rewrite Z in Q'; [destruct Q'|apply repeat_spec in Q'; exact Q'].
    - transitivity (RtoC (zk_k f) * root_product (zk_z f) (RtoC 2) / root_product (zk_p f) (RtoC 2) * root_product (zk_p f) (RtoC 2))%C; [field; exact D|]. rewrite Q. ring. }
  assert (P1 : cpow (RtoC 2) N = C1).
  { transitivity (H f (RtoC 2) * cpow (RtoC 2) N / H f (RtoC 2))%C; [field; exact HN0|]. rewrite <- B. field. exact HN0. }
  assert (P2 : forall j, cpow (RtoC 2) j = RtoC (2 ^ j)).
  { induction j as [|j IH]; [reflexivity|]. cbn [cpow pow]. rewrite IH. apply C_ext; cbn; ring. }
  rewrite P2 in P1. apply (f_equal fst) in P1. cbn in P1. assert (1 < 2 ^ N) by (apply Rlt_pow_R1; [lra|exact HN]). lra.
Qed.
Print Assumptions C117_analog_sections_refuted.

(** The condition is met: with the tolerance of double precision (2^-52) by every low-pass and
    high-pass order below 10^13, and by a band-pass and a band-stop of order 5. *)
Example C117_low_order N w : (0 < N)%nat -> INR N <= 10 ^ 13 -> 0 < w ->
  analog_clear (/ 2 ^ 52) Lowpass N 1 1 [w] /\ analog_clear (/ 2 ^ 52) Highpass N 1 1 [w].
Proof.
  intros _ HN _. assert (100 * / 2 ^ 52 * INR N * 1 < 1); [|split; exact H].
  apply Rle_lt_trans with (100 * / 2 ^ 52 * 10 ^ 13); [|lra]. rewrite Rmult_1_r. apply Rmult_le_compat_l; [|exact HN]. lra.
Qed.
Example C117_band_order5 : analog_clear (/ 2 ^ 52) Bandpass 5 1 1 [1; 4] /\ analog_clear (/ 2 ^ 52) Bandstop 5 1 1 [1; 4].
Proof.
  assert (S4 : sqrt (1 * 4) = 2) by (replace (1 * 4) with (2 * 2) by ring; apply sqrt_square; lra).
  assert (S7 : 200 * / 2 ^ 52 * 2 < sqrt (4 * 2 ^ 2 - ((4 - 1) * 1) ^ 2)).
  { apply Rlt_trans with 1; [lra|]. rewrite <- sqrt_1 at 1. apply sqrt_lt_1; lra. }
  unfold analog_clear. cbv zeta. cbn [nth]. rewrite S4. split; (split; [cbn [INR]; lra|]); intros _ _; [exact S7|]. replace (1 / 1) with 1 by field. exact S7.
Qed.
