(** The place of the largest correlation, in floats. *)
From Coq Require Import Reals ZArith SpecFloat List Lia Lra Psatz.
From Verif Require Import Base Num M_Complex M_Fourier Cx RSum S_Fourier S_Stats S_Float S_FloatFft P_Stats P_Float P_FloatStats P_Fourier P_FloatFft T_FloatFft T_Delay.
Import ListNotations.
Local Open Scope R_scope.

(** If the exact correlation is largest at [p] by more than twice the error bound of C83, the computed
    correlation is largest at [p]. *)
Theorem C137_delay_floats : forall prec emax szero eta tau cap fft ifft (x y : list spec_float) p,
  (1 < prec < emax)%Z -> 0 <= eta -> 0 <= tau ->
  fft_within prec emax (-1) eta tau cap fft -> fft_within prec emax 1 eta tau cap ifft ->
  x <> [] -> y <> [] -> Forall (finite prec emax) x -> Forall (finite prec emax) y ->
  (Z.of_nat (length x + length y) <= 2 ^ (emax - 1))%Z ->
  conv_in_range prec emax eta tau cap (length x + length y - 1) (mass x) (mass y) ->
  (p < length x + length y - 1)%nat ->
  (forall k, (k < length x + length y - 1)%nat -> k <> p ->
     correlation (map fval x) (map fval y) k + 2 * conv_error prec emax eta tau (mass x) (mass y) < correlation (map fval x) (map fval y) p) ->
  exists r, @correlate _ (SFNum prec emax szero) fft ifft x y Full = Ok r /\ length r = (length x + length y - 1)%nat /\
    Forall (finite prec emax) r /\
    forall k, (k < length r)%nat -> k <> p -> fval (nth k r (S754_zero false)) < fval (nth p r (S754_zero false)).
Proof.
  intros prec emax szero eta tau cap fft ifft x y p Hp He Ht Hf Hi Hx Hy Fx Fy Hl Hr Pp Hk.
  destruct (C83_correlate_rounding prec emax szero eta tau cap fft ifft x y Hp He Ht Hf Hi Hx Hy Fx Fy Hl Hr) as [r [E [L B]]].
  exists r. split; [exact E|]. split; [exact L|]. split.
  - apply Forall_forall. intros v Iv. destruct (In_nth r v (S754_zero false) Iv) as [i [Hi' <-]]. apply B. exact Hi'.
  - intros k Hkr Nk. destruct (B k Hkr) as [_ Bk]. destruct (B p ltac:(lia)) as [_ Bp]. specialize (Hk k ltac:(lia) Nk).
    revert Bk Bp. unfold Rabs. repeat destruct (Rcase_abs _); lra.
Qed.
Print Assumptions C137_delay_floats.

(** The hypotheses are met by [1; 2; 3] and [0; 1; 1/2] in f64 (C83_ex), with the largest value 7/2 at index 2. *)
Example C137_floats_ex : exists r,
  @correlate _ (SFNum 53 1024 true) (rounded_dft 53 1024 (-1)) (rounded_dft 53 1024 1) [f64_1; f64_2; f64_3] [S754_zero false; f64_1; f64_half] Full = Ok r /\
  forall k, (k < 5)%nat -> k <> 2%nat -> fval (nth k r (S754_zero false)) < fval (nth 2 r (S754_zero false)).
Proof.
  destruct C83_ex as (Fx & Fy & Vx & Vy & Hl & Hr).
  assert (Mx : mass [f64_1; f64_2; f64_3] = 6). { unfold mass. rewrite <- map_map, Vx. unfold Rsum. cbn. rewrite !Rabs_pos_eq by lra. lra. }
  assert (My : mass [S754_zero false; f64_1; f64_half] = 3 / 2). { unfold mass. rewrite <- map_map, Vy. unfold Rsum. cbn. rewrite !Rabs_pos_eq by lra. lra. }
  pose proof (u0 53) as U0. pose proof (tn0 53 1024) as T0.
  assert (U1 : uround 53 <= / 1000000).
  { unfold uround. change (- (53))%Z with (- Z.of_nat 53)%Z. rewrite powerRZ_neg', <- pow_powerRZ. apply Rinv_le_contravar; [lra|]. replace 53%nat with (20 + 33)%nat by reflexivity. rewrite pow_add. assert (1 <= 2 ^ 33) by (apply pow_R1_Rle; lra). lra. }
  assert (T1 : ftiny 53 1024 <= / 1000000).
  { eapply Rle_trans; [|exact U1]. unfold ftiny, uround. replace (powerRZ 2 (3 - 1024 - 53)) with (powerRZ 2 (- (53)) * powerRZ 2 (3 - 1024)) by (rewrite <- powerRZ_add by lra; f_equal; lia).
    assert (P : 0 < powerRZ 2 (- (53))) by (apply powerRZ_lt; lra). assert (Q : powerRZ 2 (3 - 1024) <= 1).
    { change (3 - 1024)%Z with (- Z.of_nat 1021)%Z. rewrite powerRZ_neg', <- pow_powerRZ. rewrite <- Rinv_1. apply Rinv_le_contravar; [lra|]. apply pow_R1_Rle. lra. }
    assert (0 <= powerRZ 2 (3 - 1024)) by (apply powerRZ_le; lra). set (a := powerRZ 2 (- (53))) in *. set (b := powerRZ 2 (3 - 1024)) in *. clearbody a b. nra. }
  assert (Er : conv_error 53 1024 (uround 53) (ftiny 53 1024) 6 (3 / 2) <= / 10).
  { unfold conv_error. set (u := uround 53) in *. set (t := ftiny 53 1024) in *. clearbody u t.
    assert (M1 : ((1 + u) * 6 + t) * ((1 + u) * (3 / 2) + t) <= (6 + / 100000) * (3 / 2 + / 100000)) by (apply Rmult_le_compat; lra).
    assert (M0 : 0 <= ((1 + u) * 6 + t) * ((1 + u) * (3 / 2) + t)) by (apply Rmult_le_pos; lra).
    set (M := ((1 + u) * 6 + t) * ((1 + u) * (3 / 2) + t)) in *. clearbody M.
    assert (G2 : 0 <= (1 + u) * (1 + u) <= 1 + / 100000) by (split; [apply Rmult_le_pos; lra|nra]).
    assert (G4 : 0 <= ((1 + u) * (1 + u)) * ((1 + u) * (1 + u)) <= 1 + / 10000) by (split; [apply Rmult_le_pos; lra|nra]).
    replace ((1 + u) * (1 + u) ^ 3) with (((1 + u) * (1 + u)) * ((1 + u) * (1 + u))) by ring. set (q := ((1 + u) * (1 + u)) * ((1 + u) * (1 + u))) in *. clearbody q.
    assert (q * (M + t) <= (1 + / 10000) * (9 + / 1000)) by (apply Rmult_le_compat; lra).
    assert ((1 + u) * (t + t) <= 2 * / 100000) by (apply Rmult_le_compat; lra). lra. }
  destruct (C137_delay_floats 53 1024 true (uround 53) (ftiny 53 1024) (fmax 53 1024) (rounded_dft 53 1024 (-1)) (rounded_dft 53 1024 1) [f64_1; f64_2; f64_3] [S754_zero false; f64_1; f64_half] 2) as [r [E [L [_ B]]]];
    [lia|lra|lra|apply C83_contract_met; lia|apply C83_contract_met; lia|discriminate|discriminate|exact Fx|exact Fy|exact Hl|exact Hr|cbn; lia| |].
  - rewrite Vx, Vy, Mx, My. set (er := conv_error 53 1024 _ _ _ _) in *. clearbody er. intros k Hk Nk. cbn [length Nat.add Nat.sub] in Hk. unfold correlation. destruct k as [|[|[|[|[|k]]]]]; try lia; unfold at_; cbn; unfold Pos.to_nat; cbn; lra.
  - exists r. split; [exact E|]. intros k Hk. apply B. cbn in L. lia.
Qed.
