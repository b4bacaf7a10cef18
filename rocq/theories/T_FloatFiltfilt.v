(** Rounding in zero-phase filtering: the output of sosfiltfilt at an IEEE 754 format
    stays within a fixed multiple of the unit roundoff of the output in real arithmetic,
    however long the signal is. *)
From Coq Require Import Reals ZArith SpecFloat List Lia Lra.
From Verif Require Import Base Num M_Complex M_Filter Cx S_Design S_Filter S_Stable S_Float P_Float P_FloatStats P_Sosfilt P_Sos P_Stable P_Zi P_Filtfilt P_FloatFilt T_Stable T_FloatFilt P_FloatZi.
Import ListNotations.
Local Open Scope R_scope.

Lemma stable_each l : stable_sections l -> Forall stable_section l.
Proof.
  intros [HA HD].
  assert (N : sos_den l C1 <> C0).
  { intros Q. specialize (HD C1 Q). cbn in HD. unfold cnorm_sqr in HD. cbn in HD. lra. }
  clear HD. induction HA as [|s l H0 HA IH]; constructor.
  - split; [exact H0|]. intros Q. apply N. unfold sos_den. cbn [fold_right]. rewrite rpoly3.
    replace (RtoC (a0 s) * (C1 * C1) + RtoC (a1 s) * C1 + RtoC (a2 s))%C with (RtoC (a0 s + a1 s + a2 s)).
    + rewrite Q. fold (sos_den l C1). change (RtoC 0) with C0. ring.
    + unfold RtoC, C1. apply injective_projections; cbn; ring.
  - apply IH. intros Q. apply N. unfold sos_den. cbn [fold_right]. fold (sos_den l C1). rewrite Q. ring.
Qed.

Lemma cascade_pert (l : list (Sos R)) : stable_sections l -> exists L, 1 <= L /\
  forall l1 l2 x1 x2 E D, same_coefs l1 l -> same_coefs l2 l -> length x1 = length x2 -> 0 <= E -> 0 <= D ->
  (forall k, (k < length x1)%nat -> Rabs (nth k x1 0 - nth k x2 0) <= E) ->
  Forall2 (fun s t => Rabs (zi0 s - zi0 t) <= D /\ Rabs (zi1 s - zi1 t) <= D) l1 l2 ->
  forall n, (n < length x1)%nat -> Rabs (nth n (fst (filt x1 l1)) 0 - nth n (fst (filt x2 l2)) 0) <= L * (E + D).
Proof.
  intros Hs. destruct (C69_bounded_output l Hs) as [G B]. exists (1 + Rabs G * (1 + 2 * INR (length l))).
  pose proof (Rabs_pos G) as G0. pose proof (pos_INR (length l)) as N0. split; [nra|].
  intros l1 l2 x1 x2 E D C1 C2 Hl HE HD Hx Hst n Hn.
  assert (C12 : same_coefs l1 l2) by (unfold same_coefs in *; congruence).
  pose proof (filt_lin 1 (-1) x1 x2 l1 l2 C12 Hl) as FL.
  assert (SL : same_coefs (lincomb_state 1 (-1) l1 l2) l /\ state_size (lincomb_state 1 (-1) l1 l2) <= 2 * D * INR (length l)).
  { clear - C1 Hst HD. revert l C1. induction Hst as [|s t l1 l2 [H0 H1] Hst IH]; intros l C1.
    - destruct l; [|discriminate C1]. split; [reflexivity|]. cbn. lra.
    - destruct l as [|a l]; [discriminate C1|]. unfold same_coefs in C1. cbn [map] in C1. pose proof (f_equal (hd []) C1) as E1. pose proof (f_equal (@tl _) C1) as E2. cbn [hd tl] in E1, E2.
      destruct (IH l E2) as [I1 I2]. unfold lincomb_state in *. cbn [combine map]. split.
      + unfold same_coefs in *. cbn [map]. f_equal; [exact E1|exact I1].
      + cbn [state_size fold_right]. fold (state_size (map (fun p => set_state (fst p) (1 * zi0 (fst p) + -1 * zi0 (snd p)) (1 * zi1 (fst p) + -1 * zi1 (snd p))) (combine l1 l2))).
        cbn [fst snd set_state zi0 zi1]. cbn [length]. rewrite S_INR.
        replace (1 * zi0 s + -1 * zi0 t) with (zi0 s - zi0 t) by ring. replace (1 * zi1 s + -1 * zi1 t) with (zi1 s - zi1 t) by ring. lra. }
  destruct SL as [SL SS].
  destruct (B (lincomb_state 1 (-1) l1 l2) (lincomb 1 (-1) x1 x2) E SL) as (y & l' & Ey & Ly & By).
  { intros v Hv. destruct (In_nth _ _ 0 Hv) as [k [Hk <-]]. rewrite lincomb_length in Hk by exact Hl. rewrite lincomb_nth by exact Hl.
    replace (1 * nth k x1 0 + -1 * nth k x2 0) with (nth k x1 0 - nth k x2 0) by ring. apply Hx. exact Hk. }
  rewrite sosfilt_dyn_pure, FL in Ey. injection Ey as Ey _.
  assert (L2 : length (fst (filt x1 l1)) = length (fst (filt x2 l2))) by (rewrite !filt_length_out; exact Hl).
  replace (nth n (fst (filt x1 l1)) 0 - nth n (fst (filt x2 l2)) 0) with (nth n y 0) by (rewrite <- Ey, lincomb_nth by exact L2; ring).
  eapply Rle_trans; [apply By; apply nth_In; rewrite Ly, lincomb_length by exact Hl; exact Hn|].
  pose proof (Rle_abs G) as GA. pose proof (state_size_pos (lincomb_state 1 (-1) l1 l2)) as S0.
  set (S := state_size _) in *. set (A := Rabs G) in *. set (m := INR (length l)) in *. clearbody S A m. clear - HE HD SS G0 N0 GA S0.
  apply Rle_trans with (A * (E + 2 * D * m)).
  - apply Rle_trans with (A * (E + S)); [apply Rmult_le_compat_r; lra|apply Rmult_le_compat_l; lra].
  - assert (0 <= D * m) by (apply Rmult_le_pos; assumption). assert (0 <= E * m) by (apply Rmult_le_pos; assumption).
    assert (A * (E + 2 * D * m) <= A * ((1 + 2 * m) * (E + D))) by (apply Rmult_le_compat_l; nra). nra.
Qed.

Lemma states_max (l : list (Sos R)) : exists Z, 1 <= Z /\ Forall (fun s => Rabs (zi0 s) <= Z /\ Rabs (zi1 s) <= Z) l.
Proof.
  induction l as [|s l [Z [HZ HF]]]; [exists 1; split; [lra|constructor]|].
  pose proof (Rabs_pos (zi0 s)). pose proof (Rabs_pos (zi1 s)).
  exists (Z + Rabs (zi0 s) + Rabs (zi1 s)). split; [lra|]. constructor; [split; lra|].
  eapply Forall_impl; [|exact HF]. cbn. intros a [Ha Hb]. split; lra.
Qed.

Lemma scale_coefs {F} {NF : Num F} c (l : list (Sos F)) : same_coefs (scale_state c l) l.
Proof. unfold same_coefs, scale_state. rewrite map_map. reflexivity. Qed.
Lemma val_coefs (l m : list (Sos spec_float)) : same_coefs l m -> same_coefs (map sos_val l) (map sos_val m).
Proof.
  unfold same_coefs. revert m. induction l as [|s l IH]; intros [|t m] H; try discriminate; [reflexivity|]. cbn [map] in *.
  pose proof (f_equal (hd []) H) as E1. pose proof (f_equal (@tl _) H) as E2. cbn [hd tl] in E1, E2.
  f_equal; [|apply IH; exact E2]. apply coefs_fields in E1. destruct E1 as (A & B & C & D & E & G). unfold coefs, sos_val. cbn. congruence.
Qed.

Lemma state_size_max l Z c : 0 <= c -> Forall (fun s => Rabs (zi0 s) <= Z /\ Rabs (zi1 s) <= Z) l ->
  forall v, Rabs v <= c -> state_size (scale_state v l) <= 2 * (Z * c) * INR (length l).
Proof.
  intros Hc HF v Hv. induction HF as [|s l [H0 H1] HF IH]; [cbn; lra|].
  cbn [scale_state map state_size fold_right]. fold (scale_state v l). fold (state_size (scale_state v l)).
  cbn [set_state zi0 zi1 length nmul RNum]. rewrite S_INR, !Rabs_mult.
  pose proof (Rabs_pos v). pose proof (Rabs_pos (zi0 s)). pose proof (Rabs_pos (zi1 s)).
  assert (Rabs (zi0 s) * Rabs v <= Z * c) by (apply Rmult_le_compat; assumption).
  assert (Rabs (zi1 s) * Rabs v <= Z * c) by (apply Rmult_le_compat; assumption). nra.
Qed.

Lemma scaled_finite prec emax sz c (P : Sos spec_float -> Sos R -> Prop) zf r :
  (forall a b, P a b -> finite prec emax (zi0 a) /\ finite prec emax (zi1 a)) ->
  Forall (finite_coefs prec emax) zf -> Forall2 P (@scale_state _ (SFNum prec emax sz) c zf) r ->
  Forall (finite_sos prec emax) (@scale_state _ (SFNum prec emax sz) c zf).
Proof.
  intros HP Fz. revert r. induction Fz as [|a zf Fa Fz IH]; intros r ST; [constructor|].
  cbn [scale_state map] in *. inversion ST as [|? b ? r' H ST']; subst. destruct (HP _ _ H) as [F0 F1].
  constructor; [|exact (IH r' ST')]. unfold finite_coefs, coefs in Fa. unfold finite_sos.
  cbn [set_state b0 b1 b2 a1 a2]. rewrite Forall_forall in Fa. apply Forall_forall. intros v Hv. cbn [In] in Hv.
  destruct Hv as [<-|[<-|[<-|[<-|[<-|[<-|[<-|[]]]]]]]]; try (apply Fa; cbn [In]; tauto); assumption.
Qed.

(** One filtering pass from scaled initial states. *)
Lemma pass_err (l zl : list (Sos R)) K1 : stable_sections l -> same_coefs zl l -> 1 <= K1 -> exists K, 1 <= K /\
  forall prec emax sz zf xf x M E, (1 < prec < emax)%Z ->
  Forall (finite_coefs prec emax) zf -> same_coefs (map sos_val zf) l ->
  Forall2 (state_near prec emax (K1 * uround prec)) zf zl ->
  length xf = length x -> Forall (finite prec emax) xf -> 0 <= M -> 0 <= E ->
  Forall (fun v => Rabs (fval v) <= M) xf -> Forall (fun v => Rabs v <= M) x ->
  (forall k, (k < length x)%nat -> Rabs (fval (nth k xf (S754_zero false)) - nth k x 0) <= E) ->
  K * uround prec <= 1 -> K * (M + ftiny prec emax) <= fmax prec emax ->
  let yf := fst (@filt _ (SFNum prec emax sz) xf (@scale_state _ (SFNum prec emax sz) (nth 0 xf (S754_zero false)) zf)) in
  let y := fst (filt x (scale_state (nth 0 x 0) zl)) in
  Forall (finite prec emax) yf /\ Forall (fun v => Rabs v <= K * M) y /\
  forall k, (k < length x)%nat -> Rabs (fval (nth k yf (S754_zero false)) - nth k y 0) <= K * (uround prec * M + ftiny prec emax + E).
Proof.
  intros Hs Hz HK1. destruct (C77_filter_rounding l Hs) as [K7 [HK7 Q7]]. destruct (cascade_pert l Hs) as [L [HL QP]].
  destruct (C69_bounded_output l Hs) as [G QB]. destruct (states_max zl) as [Z [HZ FZ]].
  set (m := INR (length zl)). pose proof (pos_INR (length zl)) as Hm. fold m in Hm. pose proof (Rabs_pos G) as HG.
  set (KA := 2 * K7 * (Z + 1)). set (KB := L * (Z + 2 + K1)). set (KC := Rabs G * (1 + 2 * Z * m)).
  assert (HA : 1 <= KA) by (unfold KA; nra). assert (HB : 1 <= KB) by (unfold KB; nra).
  assert (HC : 0 <= KC) by (unfold KC; apply Rmult_le_pos; [exact HG|]; assert (0 <= Z * m) by (apply Rmult_le_pos; lra); lra).
  exists (K1 + KA + KB + KC + Z). split; [lra|].
  intros prec emax sz zf xf x M E Hpe Fz Cz Nz Hlen Fx HM HE Bxf Bx Hx Hu Hfm yf y.
  destruct (u_half prec ltac:(lia)) as [U0 U1]. pose proof (tiny_pos prec emax) as T0.
  set (u := uround prec) in *. set (t := ftiny prec emax) in *.
  assert (HuM : 0 <= u * M) by (apply Rmult_le_pos; lra).
  set (x0f := nth 0 xf (S754_zero false)) in *. set (x0 := nth 0 x 0) in *.
  assert (X0 : finite prec emax x0f /\ Rabs (fval x0f) <= M /\ Rabs x0 <= M /\ Rabs (fval x0f - x0) <= E).
  { unfold x0f, x0. destruct xf as [|a xf], x as [|b x]; try discriminate Hlen; cbn [nth].
    - cbn [fval]. rewrite Rminus_diag_eq, Rabs_R0 by reflexivity. split; [split; [reflexivity|exact Logic.I]|]. split; [exact HM|]. split; [exact HM|exact HE].
    - inversion Fx; inversion Bxf; inversion Bx; subst. specialize (Hx 0%nat ltac:(cbn; lia)). cbn [nth] in Hx. repeat split; try assumption; apply H1. }
  destruct X0 as (X1 & X2 & X3 & X4).
  set (sf := @scale_state _ (SFNum prec emax sz) x0f zf) in *. set (sr := scale_state x0 zl) in *.
  set (D := (Z + 1 + K1) * (u * M + t + E)).
  assert (K1u : K1 * u <= 1).
  { eapply Rle_trans; [|exact Hu]. apply Rmult_le_compat_r; lra. }
  assert (ZM : (Z + 1) * M <= fmax prec emax).
  { eapply Rle_trans; [|exact Hfm]. apply Rmult_le_compat; lra. }
  assert (ST : Forall2 (fun a b => finite prec emax (zi0 a) /\ finite prec emax (zi1 a) /\
      (Rabs (fval (zi0 a)) <= 2 * (Z + 1) * M + t /\ Rabs (fval (zi1 a)) <= 2 * (Z + 1) * M + t) /\
      (Rabs (fval (zi0 a) - zi0 b) <= D /\ Rabs (fval (zi1 a) - zi1 b) <= D)) sf sr).
  { unfold sf, sr. assert (ONE : forall a b, finite prec emax a -> Rabs (fval a - b) <= K1 * u -> Rabs b <= Z ->
       finite prec emax (SFmul prec emax a x0f) /\ Rabs (fval (SFmul prec emax a x0f)) <= 2 * (Z + 1) * M + t /\
       Rabs (fval (SFmul prec emax a x0f) - b * x0) <= D).
    { intros a b Fa Ea Eb. assert (Ba : Rabs (fval a) <= Z + 1).
      { replace (fval a) with ((fval a - b) + b) by ring. eapply Rle_trans; [apply Rabs_triang|]. lra. }
      destruct (mul_step prec emax Hpe a x0f (Z + 1) M Fa X1 Ba X2 ZM) as [F E']. fold u t in E'. split; [exact F|].
      pose proof (Rabs_pos (fval a)). pose proof (Rabs_pos (fval x0f)). pose proof (Rabs_pos b). pose proof (Rabs_pos (fval a - b)).
      assert (P : Rabs (fval a * fval x0f) <= (Z + 1) * M) by (rewrite Rabs_mult; apply Rmult_le_compat; assumption).
      assert (UZ : u * ((Z + 1) * M) <= (Z + 1) * M) by (rewrite <- (Rmult_1_l ((Z + 1) * M)) at 2; apply Rmult_le_compat_r; [apply Rmult_le_pos; lra|lra]).
      split.
      - replace (fval (SFmul prec emax a x0f)) with ((fval (SFmul prec emax a x0f) - fval a * fval x0f) + fval a * fval x0f) by ring.
        eapply Rle_trans; [apply Rabs_triang|]. lra.
      - replace (fval (SFmul prec emax a x0f) - b * x0) with ((fval (SFmul prec emax a x0f) - fval a * fval x0f) + ((fval a - b) * fval x0f + b * (fval x0f - x0))) by ring.
        eapply Rle_trans; [apply Rabs_triang|].
        assert (P2 : Rabs ((fval a - b) * fval x0f + b * (fval x0f - x0)) <= K1 * u * M + Z * E).
        { eapply Rle_trans; [apply Rabs_triang|]. rewrite !Rabs_mult. apply Rplus_le_compat; apply Rmult_le_compat; try assumption; apply Rabs_pos. }
        unfold D. assert (0 <= Z * t) by (apply Rmult_le_pos; lra). assert (0 <= K1 * t) by (apply Rmult_le_pos; lra). assert (0 <= K1 * E) by (apply Rmult_le_pos; lra).
        assert (K1 * u * M = K1 * (u * M)) by ring. assert (u * ((Z + 1) * M) = (Z + 1) * (u * M)) by ring. lra. }
    clear - Nz FZ ONE. induction Nz as [|a b zf zl (F0 & F1 & E0 & E1) Nz IH]; [constructor|]. inversion FZ as [|? ? [Z0 Z1] FZ']; subst.
    unfold scale_state in *. cbn [map]. constructor; [|apply IH; exact FZ']. cbn [set_state zi0 zi1 nmul SFNum RNum].
    destruct (ONE _ _ F0 E0 Z0) as (A1 & A2 & A3). destruct (ONE _ _ F1 E1 Z1) as (B1 & B2 & B3). tauto. }
  assert (Csf : same_coefs (map sos_val sf) l).
  { pose proof (val_coefs _ _ (@scale_coefs _ (SFNum prec emax sz) x0f zf)) as Q. unfold same_coefs in *. unfold sf. congruence. }
  assert (Csr : same_coefs sr l) by (pose proof (scale_coefs x0 zl); unfold same_coefs in *; unfold sr; congruence).
  assert (D0 : 0 <= D) by (unfold D; apply Rmult_le_pos; lra).
  assert (M2 : M <= 2 * (Z + 1) * M + t) by nra.
  destruct (Q7 prec emax sz sf xf (2 * (Z + 1) * M + t) Hpe Csf) as (yf' & lf' & y' & l' & E1 & E2 & L1 & L2 & FY & EY).
  - unfold sf. apply (scaled_finite prec emax sz x0f _ zf sr (fun a b H => conj (proj1 H) (proj1 (proj2 H))) Fz ST).
  - exact Fx.
  - nra.
  - eapply Forall_impl; [|exact Bxf]. cbn beta. intros v Hv. lra.
  - clear - ST. induction ST as [|a b sf sr (_ & _ & B & _) ST IH]; constructor; assumption.
  - eapply Rle_trans; [|exact Hu]. apply Rmult_le_compat_r; [lra|]. unfold KA in *. nra.
  - fold t. eapply Rle_trans; [|exact Hfm]. apply Rle_trans with (KA * (M + t)).
    + unfold KA. assert (0 <= K7 * Z * t) by (apply Rmult_le_pos; [apply Rmult_le_pos|]; lra). nra.
    + apply Rmult_le_compat_r; lra.
  - assert (Ey : yf' = yf) by (rewrite sosfilt_dyn_pure in E1; injection E1 as E1; unfold yf; rewrite E1; reflexivity).
    rewrite sosfilt_dyn_pure in E2. injection E2 as E2. subst yf'. split; [exact FY|]. split.
    + destruct (QB sr x M Csr) as (y2 & l2 & Ey2 & _ & By2).
      { intros v Hv. rewrite Forall_forall in Bx. apply Bx. exact Hv. }
      rewrite sosfilt_dyn_pure in Ey2. injection Ey2 as Ey2. assert (y = y2) as -> by (unfold y; rewrite Ey2; reflexivity).
      apply Forall_forall. intros v Hv. specialize (By2 v Hv). eapply Rle_trans; [exact By2|].
      pose proof (state_size_max zl Z M HM FZ x0 X3) as SS. fold sr m in SS. pose proof (state_size_pos sr) as S0.
      pose proof (Rle_abs G) as GA.
      apply Rle_trans with (Rabs G * (M + 2 * (Z * M) * m)).
      * apply Rle_trans with (Rabs G * (M + state_size sr)); [apply Rmult_le_compat_r; lra|apply Rmult_le_compat_l; lra].
      * replace (Rabs G * (M + 2 * (Z * M) * m)) with (KC * M) by (unfold KC; ring). apply Rmult_le_compat_r; lra.
    + intros k Hk. specialize (EY k ltac:(lia)). fold u t in EY.
      assert (P : Rabs (nth k y' 0 - nth k y 0) <= L * (E + D)).
      { pose proof (QP (map sos_val sf) sr (map fval xf) x E D Csf Csr) as Q. rewrite map_length in Q. rewrite Hlen in Q.
        rewrite E2 in Q. cbn [fst] in Q. apply Q; try assumption; try reflexivity.
        - intros j Hj. rewrite nth_map_fval. apply Hx. exact Hj.
        - clear - ST. induction ST as [|a b sf sr (_ & _ & _ & B) ST IH]; constructor; [exact B|exact IH]. }
      replace (fval (nth k yf (S754_zero false)) - nth k y 0) with ((fval (nth k yf (S754_zero false)) - nth k y' 0) + (nth k y' 0 - nth k y 0)) by ring.
      eapply Rle_trans; [apply Rabs_triang|].
      assert (H1 : K7 * (u * (2 * (Z + 1) * M + t) + t) <= KA * (u * M + t + E)).
      { unfold KA. replace (u * (2 * (Z + 1) * M + t) + t) with (2 * (Z + 1) * (u * M) + u * t + t) by ring.
        assert (u * t <= t) by (rewrite <- (Rmult_1_l t) at 2; apply Rmult_le_compat_r; lra).
        replace (2 * K7 * (Z + 1) * (u * M + t + E)) with (K7 * (2 * (Z + 1) * (u * M + t + E))) by ring.
        apply Rmult_le_compat_l; [lra|]. assert (0 <= Z * t) by (apply Rmult_le_pos; lra). assert (0 <= Z * E) by (apply Rmult_le_pos; lra). lra. }
      assert (H2 : L * (E + D) <= KB * (u * M + t + E)).
      { unfold KB, D. rewrite Rmult_assoc. apply Rmult_le_compat_l; lra. }
      assert (0 <= (K1 + KC + Z) * (u * M + t + E)) by (apply Rmult_le_pos; lra). lra.
Qed.

Lemma two_ok prec emax : (1 < prec < emax)%Z -> let one := SpecFloat.binary_normalize prec emax 1 0 false in
  finite prec emax (SFadd prec emax one one) /\ fval (SFadd prec emax one one) = 2.
Proof.
  intros Hpe one. destruct (one_ok prec emax Hpe) as [F V]. fold one in F, V.
  assert (M : 4 <= fmax prec emax).
  { apply fmax_inv_u; [exact Hpe|]. unfold uround. rewrite <- bpow_powerRZ. change 1 with (Raux.bpow Zaux.radix2 0) at 1.
    replace 4 with (Raux.bpow Zaux.radix2 2) by reflexivity. rewrite <- Raux.bpow_plus. apply Raux.bpow_le. lia. }
  destruct (fadd_ok prec emax ltac:(unfold FLX.Prec_gt_0; lia) ltac:(unfold BinarySingleNaN.Prec_lt_emax; lia) one one F F) as [F2 V2].
  - rewrite V. replace (1 + 1) with 2 by ring. rewrite Rabs_right by lra. lra.
  - split; [exact F2|]. rewrite V2, V. replace (1 + 1) with (IZR 2) by (cbn; ring).
    apply Generic_fmt.round_generic; [apply Generic_fmt.valid_rnd_N|]. apply int_format; [unfold FLX.Prec_gt_0; lia|unfold BinarySingleNaN.Prec_lt_emax; lia|].
    cbn [Z.abs]. change 2%Z with (2 ^ 1)%Z at 1. apply Z.pow_le_mono_r; lia.
Qed.

Lemma reflect_err prec emax a b X : (1 < prec < emax)%Z -> finite prec emax a -> finite prec emax b ->
  Rabs (fval a) <= X -> Rabs (fval b) <= X -> 4 * (X + ftiny prec emax) <= fmax prec emax ->
  let one := SpecFloat.binary_normalize prec emax 1 0 false in
  let v := SFsub prec emax (SFmul prec emax (SFadd prec emax one one) a) b in
  finite prec emax v /\ Rabs (fval v - (2 * fval a - fval b)) <= 6 * uround prec * X + 2 * ftiny prec emax.
Proof.
  intros Hpe Fa Fb Ba Bb HM one v. destruct (two_ok prec emax Hpe) as [F2 V2]. fold one in F2, V2.
  destruct (u_half prec ltac:(lia)) as [U0 U1]. pose proof (tiny_pos prec emax) as T0.
  set (u := uround prec) in *. set (t := ftiny prec emax) in *. pose proof (Rabs_pos (fval a)) as A0.
  destruct (mul_step prec emax Hpe (SFadd prec emax one one) a 2 X F2 Fa) as [Fm Em]; [rewrite V2, Rabs_right; lra|exact Ba|lra|].
  rewrite V2 in Em. fold u t in Em. set (p := SFmul prec emax (SFadd prec emax one one) a) in *.
  assert (uX : 0 <= u * X <= X / 2) by (split; [apply Rmult_le_pos; lra|replace (X / 2) with (/ 2 * X) by field; apply Rmult_le_compat_r; lra]).
  assert (Bp : Rabs (fval p) <= 3 * X + t).
  { replace (fval p) with ((fval p - 2 * fval a) + 2 * fval a) by ring. eapply Rle_trans; [apply Rabs_triang|].
    rewrite (Rabs_mult 2), (Rabs_right 2) by lra. lra. }
  destruct (sub_step prec emax Hpe p b Fm Fb) as [Fv Ev]; [lra|]. fold v in Fv, Ev. split; [exact Fv|]. fold u in Ev.
  replace (fval v - (2 * fval a - fval b)) with ((fval v - (fval p - fval b)) + (fval p - 2 * fval a)) by ring.
  eapply Rle_trans; [apply Rabs_triang|].
  assert (u * (Rabs (fval p) + Rabs (fval b)) <= u * (4 * X + t)) by (apply Rmult_le_compat_l; lra).
  assert (u * t <= t) by (rewrite <- (Rmult_1_l t) at 2; apply Rmult_le_compat_r; lra). lra.
Qed.

Lemma Forall2_nth {A B} (P : A -> B -> Prop) la lb da db : Forall2 P la lb -> forall k, (k < length la)%nat -> P (nth k la da) (nth k lb db).
Proof. intros H. induction H; intros k Hk; cbn [length] in Hk; [lia|]. destruct k; [assumption|]. apply IHForall2. lia. Qed.
Lemma Forall2_len {A B} (P : A -> B -> Prop) la lb : Forall2 P la lb -> length la = length lb.
Proof. intros H. induction H; cbn; congruence. Qed.
Lemma Forall2_maps {A B C} (P : A -> B -> Prop) (f : C -> A) (g : C -> B) l : (forall c, In c l -> P (f c) (g c)) -> Forall2 P (map f l) (map g l).
Proof. induction l as [|c l IH]; intros H; constructor; [apply H; left; reflexivity|]. apply IH. intros d Hd. apply H. right. exact Hd. Qed.

Definition sig_near prec emax E M (vf : spec_float) (v : R) : Prop := finite prec emax vf /\ Rabs (fval vf - v) <= E /\ Rabs v <= M.

Lemma odd_extension_err prec emax sz e (x : list spec_float) X : (1 < prec < emax)%Z -> (e < length x)%nat ->
  Forall (finite prec emax) x -> Forall (fun v => Rabs (fval v) <= X) x -> 0 <= X -> 4 * (X + ftiny prec emax) <= fmax prec emax ->
  Forall2 (sig_near prec emax (6 * uround prec * X + 2 * ftiny prec emax) (3 * X))
    (@odd_extension _ (SFNum prec emax sz) e x) (odd_extension e (map fval x)).
Proof.
  intros Hpe He Fx Bx HX HM. unfold odd_extension. cbn zeta. rewrite map_length. cbn [nzero nsub nmul nadd none SFNum RNum].
  assert (Q : forall i j, (i < length x)%nat -> (j < length x)%nat ->
    sig_near prec emax (6 * uround prec * X + 2 * ftiny prec emax) (3 * X)
      (SFsub prec emax (SFmul prec emax (SFadd prec emax (SpecFloat.binary_normalize prec emax 1 0 false) (SpecFloat.binary_normalize prec emax 1 0 false)) (nth i x (S754_zero false))) (nth j x (S754_zero false)))
      ((1 + 1) * nth i (map fval x) 0 - nth j (map fval x) 0)).
  { intros i j Hi Hj. rewrite !nth_map_fval. rewrite Forall_forall in Fx, Bx.
    pose proof (Bx _ (nth_In x (S754_zero false) Hi)) as B1. pose proof (Bx _ (nth_In x (S754_zero false) Hj)) as B2.
    destruct (reflect_err prec emax _ _ X Hpe (Fx _ (nth_In x (S754_zero false) Hi)) (Fx _ (nth_In x (S754_zero false) Hj)) B1 B2 HM) as [F E].
    replace (1 + 1) with 2 by ring. split; [exact F|]. split; [exact E|]. unfold Rminus. eapply Rle_trans; [apply Rabs_triang|].
    rewrite Rabs_Ropp, Rabs_mult, (Rabs_right 2) by lra. lra. }
  destruct (u_half prec ltac:(lia)) as [U0 _]. pose proof (tiny_pos prec emax) as T0.
  assert (0 <= uround prec * X) by (apply Rmult_le_pos; lra).
  apply Forall2_app; [|apply Forall2_app].
  - apply Forall2_maps. intros d Hd. rewrite <- in_rev in Hd. apply in_seq in Hd. apply Q; lia.
  - rewrite <- (map_id x) at 1. apply Forall2_maps. intros v Hv. rewrite Forall_forall in Fx, Bx. split; [apply Fx; exact Hv|].
    specialize (Bx v Hv). cbn beta in Bx. rewrite Rminus_diag_eq, Rabs_R0 by reflexivity. split; lra.
  - apply Forall2_maps. intros d Hd. apply in_seq in Hd. apply Q; lia.
Qed.

Lemma taps_val prec emax sz (lf : list (Sos spec_float)) : (1 < prec < emax)%Z -> Forall (finite_coefs prec emax) lf ->
  @taps _ (SFNum prec emax sz) lf = taps (map sos_val lf).
Proof.
  intros Hpe HF. unfold taps. cbn [neqb nzero SFNum RNum]. rewrite map_length.
  assert (Q : forall (p : Sos spec_float -> spec_float) (q : Sos R -> R), (forall s, q (sos_val s) = fval (p s)) ->
    (forall s, finite_coefs prec emax s -> finite prec emax (p s)) ->
    length (filter (fun s => SFeqb (p s) (S754_zero false)) lf) = length (filter (fun s => Reqb (q s) 0) (map sos_val lf))).
  { intros p q E F. induction HF as [|s l Hs HF IH]; [reflexivity|]. cbn [map filter]. rewrite E.
    rewrite (SFeqb_fval prec emax (p s) (S754_zero false) Hpe (F s Hs) (conj eq_refl Logic.I)).
    cbn [fval]. destruct (Reqb (fval (p s)) 0); cbn [length]; rewrite IH; reflexivity. }
  rewrite (Q b2 b2), (Q a2 a2); try reflexivity; intros s Hs; unfold finite_coefs, coefs in Hs; rewrite Forall_forall in Hs; apply Hs; cbn [In]; tauto.
Qed.

(** Two passes, given a bound [K] for one. *)
Definition pass_prop prec emax sz (zf : list (Sos spec_float)) (zl : list (Sos R)) K : Prop := forall xf x M E,
  length xf = length x -> Forall (finite prec emax) xf -> 0 <= M -> 0 <= E ->
  Forall (fun v => Rabs (fval v) <= M) xf -> Forall (fun v => Rabs v <= M) x ->
  (forall k, (k < length x)%nat -> Rabs (fval (nth k xf (S754_zero false)) - nth k x 0) <= E) ->
  K * (M + ftiny prec emax) <= fmax prec emax ->
  let yf := fst (@filt _ (SFNum prec emax sz) xf (@scale_state _ (SFNum prec emax sz) (nth 0 xf (S754_zero false)) zf)) in
  let y := fst (filt x (scale_state (nth 0 x 0) zl)) in
  Forall (finite prec emax) yf /\ Forall (fun v => Rabs v <= K * M) y /\
  forall k, (k < length x)%nat -> Rabs (fval (nth k yf (S754_zero false)) - nth k y 0) <= K * (uround prec * M + ftiny prec emax + E).
Lemma filtfilt_err prec emax sz K (lf : list (Sos spec_float)) (l : list (Sos R)) zf zl (x : list spec_float) X : 1 <= K -> (1 < prec < emax)%Z -> pass_prop prec emax sz zf zl K ->
  @taps _ (SFNum prec emax sz) lf = taps l -> Forall (finite prec emax) x -> Forall (fun v => Rabs (fval v) <= X) x -> (3 * taps l < length x)%nat ->
  40 * K ^ 2 * (X + ftiny prec emax) <= fmax prec emax ->
  Forall (finite prec emax) (@filtfilt _ (SFNum prec emax sz) x lf zf) /\
  forall n, (n < length x)%nat -> Rabs (fval (nth n (@filtfilt _ (SFNum prec emax sz) x lf zf) (S754_zero false)) - nth n (filtfilt (map fval x) l zl) 0) <= 40 * K ^ 2 * (uround prec * X + ftiny prec emax).
Proof.
  intros HK Hpe QP TP Fx Bx Hlen HM.
  destruct (u_half prec ltac:(lia)) as [U0 U1]. pose proof (tiny_pos prec emax) as T0.
  assert (HX : 0 <= X).
  { destruct x as [|v x]; [cbn in Hlen; lia|]. inversion Bx; subst. eapply Rle_trans; [apply Rabs_pos|eassumption]. }
  set (u := uround prec) in *. set (t := ftiny prec emax) in *. assert (HuX : 0 <= u * X <= X / 2).
  { split; [apply Rmult_le_pos; lra|]. replace (X / 2) with (/ 2 * X) by field. apply Rmult_le_compat_r; lra. }
  assert (Hut : 0 <= u * t <= t / 2).
  { split; [apply Rmult_le_pos; lra|]. replace (t / 2) with (/ 2 * t) by field. apply Rmult_le_compat_r; lra. }
  assert (K2 : K <= K ^ 2) by nra. assert (HK2 : 1 <= K ^ 2) by lra.
  assert (MK : forall c, 0 <= c <= 40 * K ^ 2 -> c * (X + t) <= fmax prec emax).
  { intros c Hc'. eapply Rle_trans; [|exact HM]. apply Rmult_le_compat_r; lra. }
  unfold filtfilt. cbn zeta. rewrite TP, map_length. set (e := (3 * taps l)%nat) in *.
  change (@nzero _ (SFNum prec emax sz)) with (S754_zero false). change (@nzero R RNum) with 0.
  pose proof (odd_extension_err prec emax sz e x X Hpe Hlen Fx Bx HX (MK 4 ltac:(lra))) as OX. fold u t in OX.
  set (extf := @odd_extension _ (SFNum prec emax sz) e x) in *. set (ext := odd_extension e (map fval x)) in *.
  assert (Le : length ext = (length x + 2 * e)%nat) by (unfold ext; rewrite odd_extension_length, map_length; reflexivity).
  assert (Lef : length extf = length ext) by (apply (Forall2_len _ _ _ OX)).
  set (M1 := 6 * X + 2 * t). set (E1 := 6 * u * X + 2 * t) in *.
  assert (E10 : 0 <= E1 <= 3 * X + 2 * t) by (unfold E1; split; nra).
  destruct (QP extf ext M1 E1 Lef) as (FY & BY & EY); try assumption.
  - clear - OX. induction OX as [|a b la lb (A & _) OX IH]; constructor; assumption.
  - unfold M1. lra.
  - lra.
  - clear - OX E10 HX. induction OX as [|a b la lb (_ & A & B) OX IH]; constructor; [|exact IH].
    replace (fval a) with ((fval a - b) + b) by ring. eapply Rle_trans; [apply Rabs_triang|]. unfold M1. lra.
  - clear - OX HX T0. induction OX as [|a b la lb (_ & A & B) OX IH]; constructor; [|exact IH]. unfold M1. lra.
  - intros k Hk. apply (Forall2_nth _ _ _ (S754_zero false) 0 OX k). lia.
  - fold t. apply Rle_trans with ((6 * K) * (X + t)); [unfold M1; nra|]. apply MK. lra.
  - fold u t in EY. set (yf := fst (@filt _ (SFNum prec emax sz) extf _)) in *. set (y := fst (filt ext _)) in *.
    assert (Lyf : length yf = (length x + 2 * e)%nat) by (unfold yf; rewrite filt_length_out, Lef; exact Le).
    assert (Ly : length y = (length x + 2 * e)%nat) by (unfold y; rewrite filt_length_out; exact Le).
    set (d := u * X + t) in *. assert (D0 : 0 < d) by (unfold d; lra).
    assert (EY' : forall k, (k < length y)%nat -> Rabs (fval (nth k yf (S754_zero false)) - nth k y 0) <= 14 * K * d).
    { intros k Hk. eapply Rle_trans; [apply EY; lia|]. replace (14 * K * d) with (K * (14 * d)) by ring.
      apply Rmult_le_compat_l; [lra|]. unfold M1, E1, d. nra. }
    set (M2 := 16 * K * (X + t)). set (E2 := 14 * K * d) in *.
    assert (E20 : 0 <= E2) by (unfold E2; apply Rmult_le_pos; lra).
    assert (B2 : K * M1 + E2 <= M2).
    { unfold M1, E2, M2, d. replace (K * (6 * X + 2 * t) + 14 * K * (u * X + t)) with (K * (6 * X + 2 * t + 14 * (u * X + t))) by ring.
      replace (16 * K * (X + t)) with (K * (16 * (X + t))) by ring. apply Rmult_le_compat_l; lra. }
    assert (KM : 0 <= K * M1) by (unfold M1; apply Rmult_le_pos; lra).
    assert (BY2 : forall k, (k < length y)%nat -> Rabs (nth k y 0) <= K * M1).
    { intros k Hk. rewrite Forall_forall in BY. apply BY. apply nth_In. exact Hk. }
    destruct (QP (rev yf) (rev y) M2 E2) as (FZ & _ & EZ); try assumption.
    + rewrite !rev_length. congruence.
    + apply Forall_rev. exact FY.
    + unfold M2. apply Rmult_le_pos; lra.
    + apply Forall_rev. apply Forall_forall. intros v Hv. destruct (In_nth _ _ (S754_zero false) Hv) as [k [Hk <-]].
      replace (fval (nth k yf (S754_zero false))) with ((fval (nth k yf (S754_zero false)) - nth k y 0) + nth k y 0) by ring.
      eapply Rle_trans; [apply Rabs_triang|]. specialize (EY' k ltac:(lia)). specialize (BY2 k ltac:(lia)). lra.
    + apply Forall_rev. eapply Forall_impl; [|exact BY]. cbn beta. intros v Hv. lra.
    + intros k Hk. rewrite rev_length in Hk. rewrite !rev_nth by lia. replace (length yf) with (length y) by congruence. apply EY'. lia.
    + fold t. apply Rle_trans with (17 * K ^ 2 * (X + t)).
      * unfold M2. replace (K * (16 * K * (X + t) + t)) with (16 * K ^ 2 * (X + t) + K * t) by ring. assert (K * t <= K ^ 2 * t) by (apply Rmult_le_compat_r; lra).
        assert (0 <= K ^ 2 * X) by (apply Rmult_le_pos; lra). lra.
      * apply MK. lra.
    + fold u t in EZ. set (wf := fst (@filt _ (SFNum prec emax sz) (rev yf) _)) in *. set (w := fst (filt (rev y) _)) in *.
      assert (Lwf : length wf = (length x + 2 * e)%nat) by (unfold wf; rewrite filt_length_out, rev_length; exact Lyf).
      assert (Lw : length w = (length x + 2 * e)%nat) by (unfold w; rewrite filt_length_out, rev_length; exact Ly).
      split.
      * apply Forall_rev. apply Forall_forall. intros v Hv. rewrite Forall_forall in FZ. apply FZ.
        rewrite <- (firstn_skipn e wf). apply in_or_app. right. rewrite <- (firstn_skipn (length x) (skipn e wf)). apply in_or_app. left. exact Hv.
      * intros n Hn.
        assert (L1 : length (firstn (length x) (skipn e wf)) = length x) by (rewrite firstn_length, skipn_length; lia).
        assert (L2 : length (firstn (length x) (skipn e w)) = length x) by (rewrite firstn_length, skipn_length; lia).
        rewrite !rev_nth by lia. rewrite L1, L2.
        assert (NTH : forall A (da : A) (la : list A) k, (k < length x)%nat -> nth k (firstn (length x) (skipn e la)) da = nth (e + k) la da).
        { intros A da la k Hk. rewrite <- (firstn_skipn (length x) (skipn e la)) at 2 || idtac.
          transitivity (nth k (skipn e la) da).
          - clear - Hk. revert k Hk. generalize (length x) as m. generalize (skipn e la) as q. induction q as [|a q IH]; intros m k Hk; [rewrite firstn_nil; reflexivity|].
            destruct m; [lia|]. destruct k; [reflexivity|]. cbn [firstn nth]. apply IH. lia.
          - clear. revert la. induction e as [|e' IH]; intros la; [reflexivity|]. destruct la; [destruct k; reflexivity|]. apply IH. }
        rewrite !NTH by lia. eapply Rle_trans; [apply EZ; rewrite rev_length; lia|].
        fold d.
        replace (40 * K ^ 2 * d) with (K * (40 * K * d)) by ring. apply Rmult_le_compat_l; [lra|].
        unfold M2, E2. replace (u * (16 * K * (X + t))) with (16 * K * (u * X + u * t)) by ring.
        assert (K * (u * t) <= K * t) by (apply Rmult_le_compat_l; lra). assert (t <= K * t) by nra.
        assert (0 <= K * (u * X)) by (apply Rmult_le_pos; lra). unfold d. lra.
Qed.

(** * C92 *)
(** One constant K, depending on the coefficients only, bounds the rounding error of the
    zero-phase filter at every sample of every signal of every length in every format. *)
Theorem C92_filtfilt_rounding (l : list (Sos R)) : stable_sections l -> exists K, 1 <= K /\
  forall prec emax szero lf (x : list spec_float) X,
  (1 < prec < emax)%Z ->
  same_coefs (map sos_val lf) l -> Forall (fun s => Forall (finite prec emax) (coefs s)) lf ->
  Forall (finite prec emax) x -> Forall (fun v => Rabs (fval v) <= X) x ->
  (3 * taps l < length x)%nat ->
  K * uround prec <= 1 -> K * (X + ftiny prec emax) <= fmax prec emax ->
  exists yf y,
    @sosfiltfilt_dyn _ (SFNum prec emax szero) x lf = Ok yf /\
    sosfiltfilt_dyn (map fval x) l = Ok y /\
    length yf = length x /\ length y = length x /\ Forall (finite prec emax) yf /\
    forall n, (n < length x)%nat ->
      Rabs (fval (nth n yf (S754_zero false)) - nth n y 0) <= K * (uround prec * X + ftiny prec emax).
Proof.
  intros Hs. pose proof (stable_each l Hs) as Hss.
  set (I := (Z * Z * bool * list (Sos spec_float))%type).
  set (pr := fun i : I => fst (fst (fst i))). set (em := fun i : I => snd (fst (fst i))).
  set (szf := fun i : I => snd (fst i)). set (lff := fun i : I => snd i).
  set (V := fun i : I => same_coefs (map sos_val (lff i)) l /\ Forall (finite_coefs (pr i) (em i)) (lff i)).
  destruct (sosfilt_zi_near l Hss I pr em V szf 1 (fun i => SpecFloat.binary_normalize (pr i) (em i) 1 0 false) lff (napp_one I pr em V) (fun i H => H)) as (zl & K1 & Ez & Cz & HK1 & Qz).
  destruct (pass_err l zl K1 Hs Cz HK1) as [K [HK QP]].
  exists (40 * K ^ 2 + K1). split; [nra|].
  intros prec emax sz lf x X Hpe Hc Fc Fx Bx Hlen Hu HM.
  destruct (u_half prec ltac:(lia)) as [U0 U1]. pose proof (tiny_pos prec emax) as T0.
  assert (HX : 0 <= X).
  { destruct x as [|v x]; [cbn in Hlen; lia|]. inversion Bx; subst. eapply Rle_trans; [apply Rabs_pos|eassumption]. }
  set (u := uround prec) in *. set (t := ftiny prec emax) in *. assert (HuX : 0 <= u * X <= X / 2).
  { split; [apply Rmult_le_pos; lra|]. replace (X / 2) with (/ 2 * X) by field. apply Rmult_le_compat_r; lra. }
  assert (Hut : 0 <= u * t <= t / 2).
  { split; [apply Rmult_le_pos; lra|]. replace (t / 2) with (/ 2 * t) by field. apply Rmult_le_compat_r; lra. }
  assert (K2 : K <= K ^ 2) by nra. assert (HK2 : 1 <= K ^ 2) by lra.
  assert (MK : forall c, 0 <= c <= 40 * K ^ 2 -> c * (X + t) <= fmax prec emax).
  { intros c Hc'. eapply Rle_trans; [|exact HM]. apply Rmult_le_compat_r; lra. }
  assert (Ku : K * u <= 1) by (eapply Rle_trans; [|exact Hu]; apply Rmult_le_compat_r; lra).
  assert (K1u : K1 * u <= 1) by (eapply Rle_trans; [|exact Hu]; apply Rmult_le_compat_r; nra).
  destruct (Qz (prec, emax, sz, lf)) as (zf & Ezf & Czf & Nz).
  { split; [split; [exact Hc|exact Fc]|]. split; [exact Hpe|exact K1u]. }
  cbn [pr em szf lff fst snd] in Ezf, Czf, Nz. fold u in Nz.
  assert (TP : @taps _ (SFNum prec emax sz) lf = taps l).
  { rewrite (taps_val prec emax sz lf Hpe Fc). apply taps_coefs. exact Hc. }
  assert (Fzf : Forall (finite_coefs prec emax) zf).
  { apply Forall_forall. intros s Hin. destruct (In_nth _ _ s Hin) as [k [Hk <-]]. unfold same_coefs in Czf.
    assert (Lk : length zf = length lf) by (rewrite <- (map_length coefs zf), Czf; apply map_length).
    assert (E : coefs (nth k zf s) = coefs (nth k lf s)) by (rewrite <- !(map_nth coefs), Czf; reflexivity).
    unfold finite_coefs. rewrite E. rewrite Forall_forall in Fc. apply Fc. apply nth_In. lia. }
  assert (Cv : same_coefs (map sos_val zf) l) by (pose proof (val_coefs _ _ Czf); unfold same_coefs in *; congruence).
  assert (ER : sosfiltfilt_dyn (map fval x) l = Ok (filtfilt (map fval x) l zl)).
  { rewrite sosfiltfilt_eq, map_length. destruct (Nat.leb_spec (length x) (3 * taps l)); [lia|]. unfold sosfilt_zi_dyn. change (@none R RNum) with 1. rewrite Ez. reflexivity. }
  assert (EF : @sosfiltfilt_dyn _ (SFNum prec emax sz) x lf = Ok (@filtfilt _ (SFNum prec emax sz) x lf zf)).
  { rewrite sosfiltfilt_eq, TP. destruct (Nat.leb_spec (length x) (3 * taps l)); [lia|]. unfold sosfilt_zi_dyn.
    change (@none _ (SFNum prec emax sz)) with (SpecFloat.binary_normalize prec emax 1 0 false). rewrite Ezf. reflexivity. }
  exists (@filtfilt _ (SFNum prec emax sz) x lf zf), (filtfilt (map fval x) l zl). split; [exact EF|]. split; [exact ER|].
  rewrite !filtfilt_length, map_length. split; [reflexivity|]. split; [reflexivity|].
  assert (PP : pass_prop prec emax sz zf zl K) by (intros xf y M E H1 H2 H3 H4 H5 H6 H7 H8; apply (QP prec emax sz zf xf y M E); assumption).
  destruct (filtfilt_err prec emax sz K lf l zf zl x X HK Hpe PP TP Fx Bx Hlen (MK (40 * K ^ 2) ltac:(lra))) as [A B]. split; [exact A|]. intros n Hn.
  eapply Rle_trans; [apply B; exact Hn|]. fold u t. apply Rmult_le_compat_r; lra.
Qed.
Print Assumptions C92_filtfilt_rounding.
(** The hypotheses are met: a two-tap filter, a constant signal, and for every K a format
    fine enough. *)
Example C92_hyp_met : stable_sections [mkSos 1 1 0 1 0 0 0 0] /\ forall K, 1 <= K -> exists prec emax lf x,
  (1 < prec < emax)%Z /\ same_coefs (map sos_val lf) [mkSos 1 1 0 1 0 0 0 0] /\ Forall (fun s => Forall (finite prec emax) (coefs s)) lf /\
  Forall (finite prec emax) x /\ Forall (fun v => Rabs (fval v) <= 1) x /\ (3 * taps ([mkSos 1 1 0 1 0 0 0 0]%R : list (Sos R)) < length x)%nat /\
  K * uround prec <= 1 /\ K * (1 + ftiny prec emax) <= fmax prec emax.
Proof.
  split.
  - split; [repeat constructor|]. intros x Q. unfold sos_den in Q. cbn [fold_right] in Q. rewrite rpoly3 in Q. cbn [M_Filter.a0 M_Filter.a1 M_Filter.a2] in Q.
    destruct x as [a b]. assert (Q1 := f_equal fst Q). assert (Q2 := f_equal snd Q). cbn in Q1, Q2. unfold cnorm_sqr. cbn.
    assert (H1 : a * a = b * b) by lra. assert (H2 : a * b = 0) by lra. apply Rmult_integral in H2. destruct H2; subst; nra.
  - intros K HK. destruct (archimed (2 * K)) as [Hn _]. assert (Hup : (0 <= up (2 * K))%Z) by (apply le_IZR; lra).
    rewrite <- (Z2Nat.id _ Hup), <- INR_IZR_INZ in Hn. set (n := Z.to_nat (up (2 * K))) in *. set (prec := (Z.of_nat n + 2)%Z). set (emax := (prec + 1)%Z).
    assert (Hpe : (1 < prec < emax)%Z) by (unfold emax, prec; lia). destruct (one_ok prec emax Hpe) as [F V].
    set (one := SpecFloat.binary_normalize prec emax 1 0 false) in *. clearbody one. set (z := S754_zero false).
    assert (Fz : finite prec emax z) by (split; [reflexivity|exact Logic.I]).
    exists prec, emax, [mkSos one one z one z z z z], (repeat one 7). split; [exact Hpe|].
    split; [unfold same_coefs, coefs; cbn; rewrite V; reflexivity|].
    split; [repeat constructor; assumption || apply F|].
    split; [apply Forall_forall; intros v Hv; apply repeat_spec in Hv; subst; exact F|].
    split; [apply Forall_forall; intros v Hv; apply repeat_spec in Hv; subst; rewrite V, Rabs_R1; lra|].
    split.
    { rewrite repeat_length. unfold taps. cbn [filter neqb RNum M_Filter.b2 M_Filter.a2 nzero]. rewrite (proj2 (Reqb_true 0 0) eq_refl). cbn. lia. }
    assert (U : 2 * K * uround prec <= 1).
    { unfold uround. rewrite <- bpow_powerRZ. destruct (u_half prec ltac:(lia)) as [U0 _]. unfold uround in U0. rewrite <- bpow_powerRZ in U0.
      assert (E : Raux.bpow Zaux.radix2 prec * Raux.bpow Zaux.radix2 (- prec) = 1) by (rewrite <- Raux.bpow_plus; replace (prec + - prec)%Z with 0%Z by ring; reflexivity).
      rewrite <- E. apply Rmult_le_compat_r; [lra|]. assert (B : INR n <= Raux.bpow Zaux.radix2 prec); [|lra].
      apply Rle_trans with (2 ^ n).
      - clear. clearbody n. induction n as [|n IH]; [cbn; lra|]. rewrite S_INR. cbn [pow]. assert (1 <= 2 ^ n) by (apply pow_R1_Rle; lra). lra.
      - rewrite pow_powerRZ, <- bpow_powerRZ. apply Raux.bpow_le. unfold prec. lia. }
    destruct (u_half prec ltac:(lia)) as [U0 U1]. split; [lra|].
    pose proof (fmax_inv_u prec emax (2 * K) Hpe U) as M. pose proof (tiny_le_u prec emax Hpe) as T. nra.
Qed.

(** * C93 *)
(** The initial states of sosfilt_zi, at every format, against real arithmetic: the error
    is a multiple of the unit roundoff that depends on the coefficients only. *)
Theorem C93_zi_rounding (l : list (Sos R)) : Forall (fun s => a0 s = 1 /\ 1 + a1 s + a2 s <> 0) l -> exists K, 1 <= K /\
  forall prec emax szero lf, (1 < prec < emax)%Z ->
  same_coefs (map sos_val lf) l -> Forall (fun s => Forall (finite prec emax) (coefs s)) lf ->
  K * uround prec <= 1 ->
  exists zf z,
    @sosfilt_zi_dyn _ (SFNum prec emax szero) lf = Ok zf /\ sosfilt_zi_dyn l = Ok z /\
    same_coefs zf lf /\ same_coefs z l /\
    Forall2 (fun f r => finite prec emax (zi0 f) /\ finite prec emax (zi1 f) /\
      Rabs (fval (zi0 f) - zi0 r) <= K * uround prec /\ Rabs (fval (zi1 f) - zi1 r) <= K * uround prec) zf z.
Proof.
  intros HF. assert (Hss : Forall stable_section l).
  { eapply Forall_impl; [|exact HF]. cbn beta. intros s [HA HD]. split; [exact HA|]. rewrite HA. exact HD. }
  set (I := (Z * Z * bool * list (Sos spec_float))%type).
  set (pr := fun i : I => fst (fst (fst i))). set (em := fun i : I => snd (fst (fst i))).
  set (szf := fun i : I => snd (fst i)). set (lff := fun i : I => snd i).
  set (V := fun i : I => same_coefs (map sos_val (lff i)) l /\ Forall (finite_coefs (pr i) (em i)) (lff i)).
  destruct (sosfilt_zi_near l Hss I pr em V szf 1 (fun i => SpecFloat.binary_normalize (pr i) (em i) 1 0 false) lff (napp_one I pr em V) (fun i H => H)) as (zl & K1 & Ez & Cz & HK1 & Qz).
  exists K1. split; [exact HK1|]. intros prec emax sz lf Hpe Hc Fc Hu.
  destruct (Qz (prec, emax, sz, lf)) as (zf & Ezf & Czf & Nz).
  { split; [split; [exact Hc|exact Fc]|]. split; [exact Hpe|exact Hu]. }
  exists zf, zl. split; [exact Ezf|]. split; [exact Ez|]. split; [exact Czf|]. split; [exact Cz|exact Nz].
Qed.
Print Assumptions C93_zi_rounding.
(** Unlike C92 it does not need stability: a section with a pole outside the unit circle. *)
Example C93_hyp_met : Forall (fun s => a0 s = 1 /\ 1 + a1 s + a2 s <> 0) [mkSos 1 2 1 1 (-3) (5 / 2) 0 0; mkSos 1 1 0 1 0 0 0 0].
Proof. repeat constructor; cbn; lra. Qed.
