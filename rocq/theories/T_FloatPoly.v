(** Rounding in zpk2tf_dyn, single_zpksos_dyn and the rational frequency transforms: at
    every IEEE 754 format fine enough the results are those of real arithmetic up to a
    multiple of the unit roundoff that depends on the arguments only. *)
From Coq Require Import Reals ZArith SpecFloat List Lia Lra.
From Verif Require Import Base Num Trans M_Complex M_Filter M_Design Cx S_Design S_Filter S_Float S_FloatFft S_FloatZpk P_Float P_FloatStats P_Poly P_Lp P_FloatZi P_FloatPoly T_FloatFiltfilt.
Import ListNotations.
Local Open Scope R_scope.

(** The leading coefficient stays exactly 1. *)
Lemma small_fmax prec emax : (1 < prec < emax)%Z -> 4 <= fmax prec emax.
Proof.
  intros Hpe. apply fmax_inv_u; [exact Hpe|]. unfold uround. rewrite <- bpow_powerRZ. change 1 with (Raux.bpow Zaux.radix2 0) at 1.
  replace 4 with (Raux.bpow Zaux.radix2 2) by reflexivity. rewrite <- Raux.bpow_plus. apply Raux.bpow_le. lia.
Qed.
Definition exactly prec emax (v : R) (x : spec_float) : Prop := finite prec emax x /\ fval x = v.
Lemma rnd_int prec emax n : (1 < prec < emax)%Z -> (Z.abs n <= 2)%Z ->
  Generic_fmt.round Zaux.radix2 (FLT.FLT_exp (SpecFloat.emin prec emax) prec) Round_NE.ZnearestE (IZR n) = IZR n.
Proof.
  intros Hpe Hn. apply Generic_fmt.round_generic; [apply Generic_fmt.valid_rnd_N|].
  apply int_format; [unfold FLX.Prec_gt_0; lia|unfold BinarySingleNaN.Prec_lt_emax; lia|].
  assert (2 ^ 1 <= 2 ^ prec)%Z by (apply Z.pow_le_mono_r; lia). lia.
Qed.
Ltac fok := first [unfold FLX.Prec_gt_0; lia|unfold BinarySingleNaN.Prec_lt_emax; lia].
Lemma ex_add prec emax a b x y : (1 < prec < emax)%Z -> (Z.abs (a + b) <= 2)%Z -> exactly prec emax (IZR a) x -> exactly prec emax (IZR b) y ->
  exactly prec emax (IZR (a + b)) (SFadd prec emax x y).
Proof.
  intros Hpe Hn [F1 V1] [F2 V2]. pose proof (small_fmax _ _ Hpe) as M.
  destruct (fadd_ok prec emax ltac:(fok) ltac:(fok) x y F1 F2) as [F V].
  - rewrite V1, V2, <- plus_IZR, <- abs_IZR. apply IZR_le in Hn. lra.
  - split; [exact F|]. rewrite V, V1, V2, <- plus_IZR. apply rnd_int; assumption.
Qed.
Lemma ex_sub prec emax a b x y : (1 < prec < emax)%Z -> (Z.abs (a - b) <= 2)%Z -> exactly prec emax (IZR a) x -> exactly prec emax (IZR b) y ->
  exactly prec emax (IZR (a - b)) (SFsub prec emax x y).
Proof.
  intros Hpe Hn [F1 V1] [F2 V2]. pose proof (small_fmax _ _ Hpe) as M.
  destruct (fsub_ok prec emax ltac:(fok) ltac:(fok) x y F1 F2) as [F V].
  - rewrite V1, V2, <- minus_IZR, <- abs_IZR. apply IZR_le in Hn. lra.
  - split; [exact F|]. rewrite V, V1, V2, <- minus_IZR. apply rnd_int; assumption.
Qed.
Lemma ex_mul prec emax a b x y : (1 < prec < emax)%Z -> (Z.abs (a * b) <= 2)%Z -> exactly prec emax (IZR a) x -> exactly prec emax (IZR b) y ->
  exactly prec emax (IZR (a * b)) (SFmul prec emax x y).
Proof.
  intros Hpe Hn [F1 V1] [F2 V2]. pose proof (small_fmax _ _ Hpe) as M.
  destruct (fmul_ok prec emax ltac:(fok) ltac:(fok) x y F1 F2) as [F V].
  - rewrite V1, V2, <- mult_IZR, <- abs_IZR. apply IZR_le in Hn. lra.
  - split; [exact F|]. rewrite V, V1, V2, <- mult_IZR. apply rnd_int; assumption.
Qed.
Lemma ex_zero prec emax s : exactly prec emax 0 (S754_zero s).
Proof. split; [split; [reflexivity|exact Logic.I]|reflexivity]. Qed.
Lemma lead_step prec emax sz (a : list (cplx spec_float)) z : (1 < prec < emax)%Z ->
  exactly prec emax 1 (fst (nth 0 a (@czero _ (SFNum prec emax sz)))) -> exactly prec emax 0 (snd (nth 0 a (@czero _ (SFNum prec emax sz)))) ->
  exactly prec emax 1 (fst (nth 0 (@gpstep _ (SFNum prec emax sz) a z) (@czero _ (SFNum prec emax sz)))) /\
  exactly prec emax 0 (snd (nth 0 (@gpstep _ (SFNum prec emax sz) a z) (@czero _ (SFNum prec emax sz)))).
Proof.
  intros Hpe H1 H0. rewrite gpstep_nth by lia. unfold gcoef. set (h := nth 0 a _) in *. clearbody h.
  pose proof (one_ok prec emax Hpe) as O. unfold cadd, cmul, cone, czero, cre, cim. cbn [fst snd nadd nsub nmul nzero none SFNum].
  set (one := SpecFloat.binary_normalize prec emax 1 0 false) in *. clearbody one. set (zero := S754_zero false).
  assert (Z : exactly prec emax 0 zero) by apply ex_zero. clearbody zero.
  pose proof (ex_mul prec emax 1 1 _ _ Hpe ltac:(lia) H1 O) as A. pose proof (ex_mul prec emax 0 0 _ _ Hpe ltac:(lia) H0 Z) as B.
  pose proof (ex_mul prec emax 1 0 _ _ Hpe ltac:(lia) H1 Z) as C. pose proof (ex_mul prec emax 0 1 _ _ Hpe ltac:(lia) H0 O) as D.
  pose proof (ex_sub prec emax (1 * 1) (0 * 0) _ _ Hpe ltac:(lia) A B) as E. pose proof (ex_add prec emax (1 * 0) (0 * 1) _ _ Hpe ltac:(lia) C D) as G.
  split; [exact (ex_add prec emax 0 (1 * 1 - 0 * 0) _ _ Hpe ltac:(lia) Z E)|exact (ex_add prec emax 0 (1 * 0 + 0 * 1) _ _ Hpe ltac:(lia) Z G)].
Qed.
Lemma lead_fold prec emax sz z : (1 < prec < emax)%Z -> forall a : list (cplx spec_float),
  exactly prec emax 1 (fst (nth 0 a (@czero _ (SFNum prec emax sz)))) -> exactly prec emax 0 (snd (nth 0 a (@czero _ (SFNum prec emax sz)))) ->
  exactly prec emax 1 (fst (nth 0 (fold_left (@gpstep _ (SFNum prec emax sz)) z a) (@czero _ (SFNum prec emax sz)))).
Proof.
  intros Hpe. induction z as [|r z IH]; intros a H1 H0; cbn [fold_left]; [exact H1|].
  destruct (lead_step prec emax sz a r Hpe H1 H0) as [A B]. apply IH; assumption.
Qed.

(** poly_dyn at a float format: the real parts do not depend on the branch. *)
Lemma poly_dyn_float {F} {NF : Num F} sort (z : list (cplx F)) : exists a,
  poly_dyn sort z = Ok a /\ (a = fold_left gpstep z [cone] \/ a = map (fun ai => cofre (cre ai)) (fold_left gpstep z [cone])).
Proof.
  unfold poly_dyn. rewrite gpoly_fold by (cbn; lia). cbn [bind]. destruct (all_eq _ _); eexists; split; try reflexivity; [right|left]; reflexivity.
Qed.

(** * C94 *)
Theorem C94_zpk2tf_rounding (z p : list C) (k : R) : exists K, 1 <= K /\
  forall sort prec emax szero order zf pf kf, is_sort sort -> (1 < prec < emax)%Z ->
  map cval zf = z -> map cval pf = p -> fval kf = k ->
  Forall (cfinite prec emax) zf -> Forall (cfinite prec emax) pf -> finite prec emax kf ->
  K * uround prec <= 1 ->
  exists bf af b a,
    @zpk2tf_dyn _ (SFNum prec emax szero) sort order zf pf kf = Ok (mkBa bf af) /\
    zpk2tf_dyn sort order z p k = Ok (mkBa b a) /\
    length bf = (order + 1)%nat /\ length af = (order + 1)%nat /\ length b = (order + 1)%nat /\ length a = (order + 1)%nat /\
    Forall (finite prec emax) (bf ++ af) /\ fval (nth 0 af (S754_zero false)) = 1 /\
    forall j, (j <= order)%nat ->
      Rabs (fval (nth j bf (S754_zero false)) - nth j b 0) <= K * uround prec /\
      Rabs (fval (nth j af (S754_zero false)) - nth j a 0) <= K * uround prec.
Proof.
  set (I := (Z * Z * bool * list (cplx spec_float) * list (cplx spec_float) * spec_float)%type).
  set (pr := fun i : I => fst (fst (fst (fst (fst i))))). set (em := fun i : I => snd (fst (fst (fst (fst i))))).
  set (szf := fun i : I => snd (fst (fst (fst i)))). set (zff := fun i : I => snd (fst (fst i))). set (pff := fun i : I => snd (fst i)).
  set (kff := fun i : I => snd i).
  set (V := fun i : I => (map cval (zff i) = z /\ Forall (cfinite (pr i) (em i)) (zff i)) /\
     (map cval (pff i) = p /\ Forall (cfinite (pr i) (em i)) (pff i)) /\ (finite (pr i) (em i) (kff i) /\ fval (kff i) = k)).
  assert (NK : napp I pr em V k kff) by (apply napp_exact; intros i Vi _; apply Vi).
  assert (ONE : lnapp I pr em V szf [C1] (fun i => [@cone _ (SFNum (pr i) (em i) (szf i))])).
  { split; [reflexivity|]. intros j Hj. destruct j; [apply cnapp_one|cbn in Hj; lia]. }
  pose proof (lnapp_poly I pr em V szf z zff [C1] _ ltac:(cbn; lia) (fun i Vi => proj1 Vi) ONE) as [LZ NZ].
  pose proof (lnapp_poly I pr em V szf p pff [C1] _ ltac:(cbn; lia) (fun i Vi => proj1 (proj2 Vi)) ONE) as [LP NP].
  fold (pcoef z) in LZ, NZ. fold (pcoef p) in LP, NP.
  set (AZ := fun i => fold_left (@gpstep _ (SFNum (pr i) (em i) (szf i))) (zff i) [@cone _ (SFNum (pr i) (em i) (szf i))]) in *.
  set (AP := fun i => fold_left (@gpstep _ (SFNum (pr i) (em i) (szf i))) (pff i) [@cone _ (SFNum (pr i) (em i) (szf i))]) in *.
  set (cz := @czero _ (SFNum 24 128 true)).
  set (B1 := fun j i => SFsub (pr i) (em i) (SFmul (pr i) (em i) (kff i) (fst (nth j (AZ i) cz))) (SFmul (pr i) (em i) (S754_zero false) (snd (nth j (AZ i) cz)))).
  set (B2 := fun j i => SFsub (pr i) (em i) (SFmul (pr i) (em i) (kff i) (fst (nth j (AZ i) cz))) (SFmul (pr i) (em i) (S754_zero false) (S754_zero false))).
  destruct (napp_uniform I pr em V (length (pcoef z)) (fun j => k * fst (nth j (pcoef z) C0)) B1) as [K1 [HK1 Q1]].
  { intros j Hj. destruct (NZ j Hj) as [R1 R2].
    apply (napp_ext I pr em V (k * fst (nth j (pcoef z) C0) - 0 * snd (nth j (pcoef z) C0)) _ (B1 j)); [ring|reflexivity|].
    apply napp_sub; apply napp_mul; try assumption. apply napp_zero. }
  destruct (napp_uniform I pr em V (length (pcoef z)) (fun j => k * fst (nth j (pcoef z) C0)) B2) as [K2 [HK2 Q2]].
  { intros j Hj. destruct (NZ j Hj) as [R1 R2].
    apply (napp_ext I pr em V (k * fst (nth j (pcoef z) C0) - 0 * 0) _ (B2 j)); [ring|reflexivity|].
    apply napp_sub; apply napp_mul; try assumption; apply napp_zero. }
  destruct (napp_uniform I pr em V (length (pcoef p)) (fun j => fst (nth j (pcoef p) C0)) (fun j i => fst (nth j (AP i) cz)) (fun j Hj => proj1 (NP j Hj))) as [K3 [HK3 Q3]].
  exists (K1 + K2 + K3). split; [lra|].
  intros sort prec emax sz order zf pf kf Hs Hpe Ez Ep Ek Fz Fp Fk Hu.
  set (i := (prec, emax, sz, zf, pf, kf) : I).
  assert (Vi : V i) by (repeat split; assumption || apply Fk).
  assert (OK : fmt_ok I pr em V (K1 + K2 + K3) i) by (split; [exact Vi|]; split; [exact Hpe|exact Hu]).
  specialize (Q1 i (fmt_mono I pr em V _ K1 i OK ltac:(lra))). specialize (Q2 i (fmt_mono I pr em V _ K2 i OK ltac:(lra))). specialize (Q3 i (fmt_mono I pr em V _ K3 i OK ltac:(lra))).
  cbv beta in Q1, Q2, Q3. specialize (LZ i Vi). specialize (LP i Vi). change (@length (cplx spec_float) (AZ i) = length (pcoef z)) in LZ. change (@length (cplx spec_float) (AP i) = length (pcoef p)) in LP.
  change (pr i) with prec in *. change (em i) with emax in *.
  destruct (u_half prec ltac:(lia)) as [U0 _]. set (u := uround prec) in *.
  assert (P1 : 0 <= K1 * u) by (apply Rmult_le_pos; lra). assert (P2 : 0 <= K2 * u) by (apply Rmult_le_pos; lra). assert (P3 : 0 <= K3 * u) by (apply Rmult_le_pos; lra).
  destruct (@poly_dyn_float _ (SFNum prec emax sz) sort zf) as [az [Eaz Haz]].
  destruct (@poly_dyn_float _ (SFNum prec emax sz) sort pf) as [ap [Eap Hap]].
  change (fold_left (@gpstep _ (SFNum prec emax sz)) zf [@cone _ (SFNum prec emax sz)]) with (AZ i) in Haz.
  change (fold_left (@gpstep _ (SFNum prec emax sz)) pf [@cone _ (SFNum prec emax sz)]) with (AP i) in Hap.
  set (bf := @copy_re _ (repeat (@nzero _ (SFNum prec emax sz)) (order + 1)) (@poly2ba _ (SFNum prec emax sz) sort (map (fun bi => @cmul _ (SFNum prec emax sz) (@cofre _ (SFNum prec emax sz) kf) bi) az) zf)).
  set (af := @copy_re _ (repeat (@nzero _ (SFNum prec emax sz)) (order + 1)) (@poly2ba _ (SFNum prec emax sz) sort ap pf)).
  assert (EF : @zpk2tf_dyn _ (SFNum prec emax sz) sort order zf pf kf = Ok (mkBa bf af)).
  { unfold zpk2tf_dyn. rewrite Eaz. cbn [bind]. rewrite Eap. reflexivity. }
  assert (Lbf : length bf = (order + 1)%nat) by apply (@gcopy_re_length _ (SFNum prec emax sz)).
  assert (Laf : length af = (order + 1)%nat) by apply (@gcopy_re_length _ (SFNum prec emax sz)).
  assert (NB : forall j, (j <= order)%nat -> finite prec emax (nth j bf (S754_zero false)) /\
     Rabs (fval (nth j bf (S754_zero false)) - k * fst (nth j (pcoef z) C0)) <= (K1 + K2) * u).
  { intros j Hj. unfold bf. pose proof (@gcopy_re_nth _ (SFNum prec emax sz) (order + 1) (@poly2ba _ (SFNum prec emax sz) sort (map (fun bi => @cmul _ (SFNum prec emax sz) (@cofre _ (SFNum prec emax sz) kf) bi) az) zf) j) as G.
    change (@nzero _ (SFNum prec emax sz)) with (S754_zero false) in G. change (@nzero _ (SFNum prec emax sz)) with (S754_zero false). rewrite G.
    destruct (Nat.ltb_spec j (order + 1)); [|lia]. rewrite gpoly2ba_re.
    destruct (Nat.lt_ge_cases j (length (pcoef z))) as [Lt|Ge].
    - assert (Laz : length az = length (pcoef z)) by (destruct Haz as [-> | ->]; rewrite ?map_length; exact LZ).
      rewrite (nth_indep _ _ (@cmul _ (SFNum prec emax sz) (@cofre _ (SFNum prec emax sz) kf) cz)) by (rewrite map_length; lia).
      rewrite (map_nth (fun bi => @cmul _ (SFNum prec emax sz) (@cofre _ (SFNum prec emax sz) kf) bi)).
      destruct Haz as [-> | ->].
      + destruct (Q1 j Lt) as [F E]. split; [exact F|]. rewrite Rmult_plus_distr_r.
        change (cre (@cmul _ (SFNum prec emax sz) (@cofre _ (SFNum prec emax sz) kf) (nth j (AZ i) cz))) with (B1 j i). lra.
      + destruct (Q2 j Lt) as [F E].
        rewrite (nth_indep _ cz (@cofre _ (SFNum prec emax sz) (cre cz))) by (rewrite map_length; rewrite LZ; exact Lt).
        rewrite (map_nth (fun ai => @cofre _ (SFNum prec emax sz) (cre ai))).
        change (cre (@cmul _ (SFNum prec emax sz) (@cofre _ (SFNum prec emax sz) kf) (@cofre _ (SFNum prec emax sz) (cre (nth j (AZ i) cz))))) with (B2 j i).
        split; [exact F|]. rewrite Rmult_plus_distr_r. lra.
    - rewrite (nth_overflow (map _ az)) by (rewrite map_length; destruct Haz as [-> | ->]; rewrite ?map_length, LZ; exact Ge).
      rewrite (nth_overflow (pcoef z)) by exact Ge. cbn [czero cre fst nzero SFNum C0 fval].
      split; [split; [reflexivity|exact Logic.I]|]. rewrite Rmult_0_r, Rminus_0_r, Rabs_R0. lra. }
  assert (NA : forall j, (j <= order)%nat -> finite prec emax (nth j af (S754_zero false)) /\
     Rabs (fval (nth j af (S754_zero false)) - fst (nth j (pcoef p) C0)) <= K3 * u /\
     (j = 0%nat -> fval (nth j af (S754_zero false)) = 1)).
  { intros j Hj. unfold af. pose proof (@gcopy_re_nth _ (SFNum prec emax sz) (order + 1) (@poly2ba _ (SFNum prec emax sz) sort ap pf) j) as G.
    change (@nzero _ (SFNum prec emax sz)) with (S754_zero false) in G. change (@nzero _ (SFNum prec emax sz)) with (S754_zero false). rewrite G.
    destruct (Nat.ltb_spec j (order + 1)); [|lia]. rewrite gpoly2ba_re.
    assert (RE : (j < length (pcoef p))%nat -> cre (nth j ap (@czero _ (SFNum prec emax sz))) = fst (nth j (AP i) cz)).
    { intros Lt. destruct Hap as [-> | ->]; [reflexivity|].
      rewrite (nth_indep _ _ (@cofre _ (SFNum prec emax sz) (cre cz))) by (rewrite map_length; rewrite LP; exact Lt).
      rewrite (map_nth (fun ai => @cofre _ (SFNum prec emax sz) (cre ai))). reflexivity. }
    destruct (Nat.lt_ge_cases j (length (pcoef p))) as [Lt|Ge].
    - rewrite RE by exact Lt. destruct (Q3 j Lt) as [F E]. split; [exact F|]. split; [exact E|]. intros ->.
      destruct (lead_fold prec emax sz pf Hpe [@cone _ (SFNum prec emax sz)]) as [_ E1]; [apply one_ok; exact Hpe|apply ex_zero|exact E1].
    - rewrite (nth_overflow ap) by (destruct Hap as [-> | ->]; rewrite ?map_length, LP; exact Ge).
      rewrite (nth_overflow (pcoef p)) by exact Ge. cbn [czero cre fst nzero SFNum C0 fval].
      split; [split; [reflexivity|exact Logic.I]|]. split; [rewrite Rminus_0_r, Rabs_R0; lra|].
      intros ->. rewrite pcoef_length in Ge. lia. }
  exists bf, af, (padded_coef order k z), (padded_coef order 1 p).
  split; [exact EF|]. split; [apply zpk2tf_ok; exact Hs|]. split; [exact Lbf|]. split; [exact Laf|].
  split; [unfold padded_coef; rewrite map_length, seq_length; reflexivity|]. split; [unfold padded_coef; rewrite map_length, seq_length; reflexivity|].
  split; [|split; [apply (NA 0%nat); [lia|reflexivity]|]].
  - apply Forall_app. split; apply Forall_forall; intros v Hv; destruct (In_nth _ _ (S754_zero false) Hv) as [j [Hj <-]]; [apply NB|apply NA]; lia.
  - intros j Hj. destruct (NB j Hj) as [_ E1]. destruct (NA j Hj) as [_ [E2 _]]. unfold padded_coef.
    rewrite !P_Savgol.nth_map_seq' by lia. cbn [Nat.add].
    change (cre (nth j (pcoef z) C0)) with (fst (nth j (pcoef z) C0)). change (cre (nth j (pcoef p) C0)) with (fst (nth j (pcoef p) C0)).
    rewrite Rmult_1_l. rewrite Rmult_plus_distr_r in E1. rewrite !Rmult_plus_distr_r. split; lra.
Qed.
Print Assumptions C94_zpk2tf_rounding.

(** Formats meeting [K * u <= 1] exist for every [K], and represent any integer of absolute value at most 2. *)
Lemma fine_format K : exists prec emax, (1 < prec < emax)%Z /\ K * uround prec <= 1.
Proof.
  destruct (archimed (Rmax K 0)) as [Hn _]. pose proof (Rmax_l K 0). pose proof (Rmax_r K 0).
  assert (Hup : (0 <= up (Rmax K 0))%Z) by (apply le_IZR; lra).
  rewrite <- (Z2Nat.id _ Hup), <- INR_IZR_INZ in Hn. set (n := Z.to_nat (up (Rmax K 0))) in *. set (prec := (Z.of_nat n + 2)%Z).
  exists prec, (prec + 1)%Z. split; [unfold prec; lia|].
  unfold uround. rewrite <- bpow_powerRZ. destruct (u_half prec ltac:(unfold prec; lia)) as [U0 _]. unfold uround in U0. rewrite <- bpow_powerRZ in U0.
  assert (E : Raux.bpow Zaux.radix2 prec * Raux.bpow Zaux.radix2 (- prec) = 1) by (rewrite <- Raux.bpow_plus; replace (prec + - prec)%Z with 0%Z by ring; reflexivity).
  rewrite <- E. apply Rmult_le_compat_r; [lra|]. assert (B : INR n <= Raux.bpow Zaux.radix2 prec); [|lra].
  apply Rle_trans with (2 ^ n).
  - clear. clearbody n. induction n as [|n IH]; [cbn; lra|]. rewrite S_INR. cbn [pow]. assert (1 <= 2 ^ n) by (apply pow_R1_Rle; lra). lra.
  - rewrite pow_powerRZ, <- bpow_powerRZ. apply Raux.bpow_le. unfold prec. lia.
Qed.
Lemma small_int prec emax n : (1 < prec < emax)%Z -> (Z.abs n <= 2)%Z ->
  finite prec emax (SpecFloat.binary_normalize prec emax n 0 false) /\ fval (SpecFloat.binary_normalize prec emax n 0 false) = IZR n.
Proof.
  intros Hpe Hn. apply fofZ_ok; [fok|fok| |].
  - assert (2 ^ 1 <= 2 ^ prec)%Z by (apply Z.pow_le_mono_r; lia). lia.
  - pose proof (small_fmax _ _ Hpe). apply IZR_le in Hn. lra.
Qed.
(** A pair of conjugate zeros and poles, away from the axes. *)
Example C94_hyp_met : forall K, exists prec emax zf pf kf, (1 < prec < emax)%Z /\
  map cval zf = [(-1, 1); (-1, -1)] /\ map cval pf = [(1, 2); (1, -2)] /\ fval kf = 2 /\
  Forall (cfinite prec emax) zf /\ Forall (cfinite prec emax) pf /\ finite prec emax kf /\ K * uround prec <= 1.
Proof.
  intros K. destruct (fine_format K) as [prec [emax [Hpe Hu]]].
  set (n := fun m => SpecFloat.binary_normalize prec emax m 0 false).
  assert (N : forall m, (Z.abs m <= 2)%Z -> finite prec emax (n m) /\ fval (n m) = IZR m) by (intros m Hm; apply small_int; assumption).
  clearbody n. destruct (N 1%Z ltac:(lia)) as [F1 V1]. destruct (N 2%Z ltac:(lia)) as [F2 V2]. destruct (N (-1)%Z ltac:(lia)) as [F3 V3]. destruct (N (-2)%Z ltac:(lia)) as [F4 V4].
  exists prec, emax, [(n (-1)%Z, n 1%Z); (n (-1)%Z, n (-1)%Z)], [(n 1%Z, n 2%Z); (n 1%Z, n (-2)%Z)], (n 2%Z).
  split; [exact Hpe|]. unfold cval. cbn [map cre cim fst snd]. rewrite V1, V2, V3, V4. repeat split; try exact Hu; try (repeat constructor); apply F1 || apply F2 || apply F3 || apply F4.
Qed.

(** A section built from at most two zeros and two poles. *)
Theorem C94_section_rounding (z p : list C) (k : R) : exists K, 1 <= K /\
  forall sort prec emax szero zf pf kf, is_sort sort -> (1 < prec < emax)%Z ->
  map cval zf = z -> map cval pf = p -> fval kf = k ->
  Forall (cfinite prec emax) zf -> Forall (cfinite prec emax) pf -> finite prec emax kf ->
  K * uround prec <= 1 ->
  exists sf s,
    @single_zpksos_dyn _ (SFNum prec emax szero) sort zf pf kf = Ok sf /\ single_zpksos_dyn sort z p k = Ok s /\
    Forall (finite prec emax) (coefs sf) /\ fval (a0 sf) = 1 /\
    Forall2 (fun f r => Rabs (fval f - r) <= K * uround prec) (coefs sf) (coefs s).
Proof.
  destruct (C94_zpk2tf_rounding z p k) as [K [HK Q]]. exists K. split; [exact HK|].
  intros sort prec emax sz zf pf kf Hs Hpe Ez Ep Ek Fz Fp Fk Hu.
  destruct (Q sort prec emax sz 2%nat zf pf kf Hs Hpe Ez Ep Ek Fz Fp Fk Hu) as [bf [af [b [a [EF [ER [L1 [L2 [L3 [L4 [FF [A0 N]]]]]]]]]]]].
  unfold single_zpksos_dyn. rewrite EF, ER. cbn [bind ba_b ba_a].
  destruct bf as [|x0 [|x1 [|x2 [|]]]]; try discriminate L1. destruct af as [|y0 [|y1 [|y2 [|]]]]; try discriminate L2.
  destruct b as [|v0 [|v1 [|v2 [|]]]]; try discriminate L3. destruct a as [|w0 [|w1 [|w2 [|]]]]; try discriminate L4.
  eexists; eexists. split; [reflexivity|]. split; [reflexivity|]. cbn [coefs Sos_new b0 b1 b2 a0 a1 a2]. split; [exact FF|]. split; [exact A0|].
  destruct (N 0%nat ltac:(lia)) as [B0 C0']. destruct (N 1%nat ltac:(lia)) as [B1 C1']. destruct (N 2%nat ltac:(lia)) as [B2 C2'].
  cbn [nth] in *. repeat (apply Forall2_cons; [assumption|]). apply Forall2_nil.
Qed.
Print Assumptions C94_section_rounding.

(** * C95 *)
Section Near.
Variable I : Type.
Variables pr em : I -> Z.
Variable V : I -> Prop.
Variable sz : I -> bool.
Notation napp := (napp I pr em V).
Notation NF i := (SFNum (pr i) (em i) (sz i)).
Notation cnapp := (cnapp I pr em V).
Notation lnapp := (lnapp I pr em V sz).
Lemma napp_int n : (Z.abs n <= 2)%Z -> napp (IZR n) (fun i => @nofZ _ (NF i) n).
Proof. intros Hn. apply napp_exact. intros i _ H. apply small_int; assumption. Qed.
Lemma napp_npow x f n : napp x f -> napp (npow x n) (fun i => @npow _ (NF i) (f i) n).
Proof. intros H. induction n as [|n IH]; [apply napp_one|]. apply napp_mul; assumption. Qed.
Lemma cprod_nz (l : list C) : Forall (fun c => c <> C0) l -> cprod l <> C0.
Proof.
  intros H. rewrite cprod_cpl. apply cpl_neq0, H.
Qed.
Lemma list_within e l lf : length lf = length l -> (forall k, (k < length l)%nat -> cwithin e (cval (nth k lf (S754_zero false, S754_zero false))) (nth k l C0)) ->
  Forall2 (cwithin e) (map cval lf) l.
Proof.
  revert lf. induction l as [|a l IH]; intros [|b lf] L H; try discriminate L; cbn [map]; constructor.
  - apply (H 0%nat). cbn. lia.
  - apply IH; [now injection L|]. intros k Hk. apply (H (S k)). cbn. lia.
Qed.
Lemma zpk_uniform z p k zf pf kf : lnapp z zf -> lnapp p pf -> napp k kf -> exists K, 1 <= K /\ forall i, fmt_ok I pr em V K i ->
  zpk_finite (pr i) (em i) (mkZpk (zf i) (pf i) (kf i)) /\
  zpk_within (K * uround (pr i)) (zpk_val (mkZpk (zf i) (pf i) (kf i))) (mkZpk z p k).
Proof.
  intros NZ NP NK. destruct (lnapp_uniform I pr em V sz z zf NZ) as [K1 [H1 Q1]]. destruct (lnapp_uniform I pr em V sz p pf NP) as [K2 [H2 Q2]].
  destruct (napp_uniform I pr em V 1 (fun _ => k) (fun _ => kf) (fun _ _ => NK)) as [K3 [H3 Q3]].
  exists (K1 + K2 + K3). split; [lra|]. intros i Hi. pose proof Hi as (_ & Hpe & _). destruct (u_half (pr i) ltac:(lia)) as [U _].
  destruct (Q1 i (fmt_mono I pr em V _ K1 i Hi ltac:(lra))) as [L1 N1]. destruct (Q2 i (fmt_mono I pr em V _ K2 i Hi ltac:(lra))) as [L2 N2].
  destruct (Q3 i (fmt_mono I pr em V _ K3 i Hi ltac:(lra)) 0%nat ltac:(lia)) as [F3 E3].
  assert (P1 : 0 <= K1 * uround (pr i)) by (apply Rmult_le_pos; lra). assert (P2 : 0 <= K2 * uround (pr i)) by (apply Rmult_le_pos; lra). assert (P3 : 0 <= K3 * uround (pr i)) by (apply Rmult_le_pos; lra).
  rewrite !Rmult_plus_distr_r. split.
  - split; [|split; [|exact F3]]; cbn [zk_z zk_p]; apply Forall_forall; intros v Hv; destruct (@In_nth (cplx spec_float) _ _ (@czero _ (NF i)) Hv) as [j [Hj <-]].
    + apply (N1 j). rewrite <- L1. exact Hj.
    + apply (N2 j). rewrite <- L2. exact Hj.
  - split; [|split]; cbn [zpk_val zk_z zk_p zk_k].
    + apply list_within; [exact L1|]. intros j Hj. destruct (N1 j Hj) as [_ [E1 E2]]. unfold cwithin, cval, cre, cim. cbn [fst snd]. split; [eapply Rle_trans; [exact E1|lra]|eapply Rle_trans; [exact E2|lra]].
    + apply list_within; [exact L2|]. intros j Hj. destruct (N2 j Hj) as [_ [E1 E2]]. unfold cwithin, cval, cre, cim. cbn [fst snd]. split; [eapply Rle_trans; [exact E1|lra]|eapply Rle_trans; [exact E2|lra]].
    + lra.
Qed.
End Near.

(** The index the bounds are uniform over: formats, filters and frequencies that stand for
    the given real ones. *)
Definition Ix : Type := (Z * Z * bool * @ZpkFormatFilter spec_float * spec_float)%type.
Definition ipr (i : Ix) := fst (fst (fst (fst i))).
Definition iem (i : Ix) := snd (fst (fst (fst i))).
Definition isz (i : Ix) := snd (fst (fst i)).
Definition ig (i : Ix) := snd (fst i).
Definition iw (i : Ix) := snd i.
Definition stands (g : @ZpkFormatFilter R) (w : R) (i : Ix) : Prop :=
  zpk_val (ig i) = g /\ zpk_finite (ipr i) (iem i) (ig i) /\ finite (ipr i) (iem i) (iw i) /\ fval (iw i) = w.
Lemma stands_near g w : let V := stands g w in
  lnapp Ix ipr iem V isz (zk_z g) (fun i => zk_z (ig i)) /\ lnapp Ix ipr iem V isz (zk_p g) (fun i => zk_p (ig i)) /\
  napp Ix ipr iem V (zk_k g) (fun i => zk_k (ig i)) /\ napp Ix ipr iem V w iw.
Proof.
  intros V. repeat split.
  - intros i [<- _]. cbn. rewrite map_length. reflexivity.
  - apply (roots_nth Ix ipr iem V isz (zk_z g) (fun i => zk_z (ig i)) k); [intros i [<- [F _]]; split; [reflexivity|apply F]|assumption].
  - apply (roots_nth Ix ipr iem V isz (zk_z g) (fun i => zk_z (ig i)) k); [intros i [<- [F _]]; split; [reflexivity|apply F]|assumption].
  - intros i [<- _]. cbn. rewrite map_length. reflexivity.
  - apply (roots_nth Ix ipr iem V isz (zk_p g) (fun i => zk_p (ig i)) k); [intros i [<- [F _]]; split; [reflexivity|apply F]|assumption].
  - apply (roots_nth Ix ipr iem V isz (zk_p g) (fun i => zk_p (ig i)) k); [intros i [<- [F _]]; split; [reflexivity|apply F]|assumption].
  - apply napp_exact. intros i [<- [F _]] _. split; [apply F|reflexivity].
  - apply napp_exact. intros i [_ [_ F]] _. exact F.
Qed.
Lemma stands_deg g w i : stands g w i -> length (zk_z (ig i)) = length (zk_z g) /\ length (zk_p (ig i)) = length (zk_p g).
Proof. intros [<- _]. cbn. rewrite !map_length. split; reflexivity. Qed.

Notation NI i := (SFNum (ipr i) (iem i) (isz i)).
Lemma nz_all (l : list C) (h : C -> C) : (forall c, In c l -> h c <> C0) -> cprod (map h l) <> C0.
Proof. intros H. apply cprod_nz, Forall_forall. intros y Hy. apply in_map_iff in Hy. destruct Hy as [x [<- Hx]]. apply H, Hx. Qed.

(** No zero and no pole is at 2 fs, and there are no more zeros than poles. *)
Theorem C95_bilinear_rounding (g : @ZpkFormatFilter R) (fs : R) :
  (length (zk_z g) <= length (zk_p g))%nat ->
  Forall (fun c => c <> (2 * fs, 0)) (zk_z g ++ zk_p g) -> exists K, 1 <= K /\
  forall prec emax szero gf fsf, (1 < prec < emax)%Z ->
  zpk_val gf = g -> zpk_finite prec emax gf -> finite prec emax fsf -> fval fsf = fs -> K * uround prec <= 1 ->
  exists hf h, @bilinear_zpk_dyn _ (SFNum prec emax szero) gf fsf = Ok hf /\ bilinear_zpk_dyn g fs = Ok h /\
    zpk_finite prec emax hf /\ zpk_within (K * uround prec) (zpk_val hf) h.
Proof.
  intros Hd Hn. destruct (stands_near g fs) as [NZ [NP [NK NW]]]. set (V := stands g fs) in *.
  apply Forall_app in Hn. destruct Hn as [HZ HP]. rewrite Forall_forall in HZ, HP.
  set (F2 := fun i : Ix => (@nmul _ (NI i) (@two _ (NI i)) (iw i), @nzero _ (NI i))).
  assert (FS : cnapp Ix ipr iem V (2 * fs, 0) F2).
  { split; cbn [fst snd]; [|apply napp_zero]. apply napp_mul; [|exact NW]. apply (napp_int Ix ipr iem V isz 2). lia. }
  assert (SUB : forall c, c <> (2 * fs, 0) -> csub (2 * fs, 0) c <> C0).
  { intros [x y] N E. apply N. unfold csub, cre, cim in E. cbn in E. injection E as E1 E2. f_equal; lra. }
  assert (MAP : forall l lf, (forall c, In c l -> c <> (2 * fs, 0)) -> lnapp Ix ipr iem V isz l lf ->
    lnapp Ix ipr iem V isz (map (fun c => cdiv (cadd (2 * fs, 0) c) (csub (2 * fs, 0) c)) l)
      (fun i => map (fun c => @cdiv _ (NI i) (@cadd _ (NI i) (F2 i) c) (@csub _ (NI i) (F2 i) c)) (lf i))).
  { intros l lf Hl Nl. apply lnapp_map with (h := fun zi => cdiv (cadd (2 * fs, 0) zi) (csub (2 * fs, 0) zi)) (hf := fun i c => @cdiv _ (NI i) (@cadd _ (NI i) (F2 i) c) (@csub _ (NI i) (F2 i) c)); [|exact Nl].
    intros j Hj Nj. apply cnapp_div; [|apply cnapp_add; assumption|apply cnapp_sub; assumption]. apply SUB, Hl, nth_In, Hj. }
  assert (PRD : forall l lf, lnapp Ix ipr iem V isz l lf ->
    cnapp Ix ipr iem V (cprod (map (csub (2 * fs, 0)) l)) (fun i => @cprod _ (NI i) (map (fun c => @csub _ (NI i) (F2 i) c) (lf i)))).
  { intros l lf Nl. apply cnapp_prod; [|apply cnapp_one].
    apply lnapp_map with (h := csub (2 * fs, 0)) (hf := fun i c => @csub _ (NI i) (F2 i) c); [|exact Nl]. intros j Hj Nj. apply cnapp_sub; assumption. }
  assert (M1 : cnapp Ix ipr iem V (- (1), 0) (fun i => (@nneg _ (NI i) (@none _ (NI i)), @nzero _ (NI i)))).
  { split; [apply napp_opp, napp_one|apply napp_zero]. }
  pose proof (lnapp_app _ _ _ _ _ _ _ _ _ (MAP _ _ HZ NZ) (lnapp_repeat Ix ipr iem V isz _ _ (length (zk_p g) - length (zk_z g)) M1)) as OZ.
  assert (OK : napp Ix ipr iem V (zk_k g * cre (cdiv (cprod (map (csub (2 * fs, 0)) (zk_z g))) (cprod (map (csub (2 * fs, 0)) (zk_p g)))))
     (fun i => @nmul _ (NI i) (zk_k (ig i)) (cre (@cdiv _ (NI i) (@cprod _ (NI i) (map (fun c => @csub _ (NI i) (F2 i) c) (zk_z (ig i)))) (@cprod _ (NI i) (map (fun c => @csub _ (NI i) (F2 i) c) (zk_p (ig i)))))))).
  { apply napp_mul; [exact NK|]. refine (proj1 (cnapp_div Ix ipr iem V isz _ _ _ _ _ (PRD _ _ NZ) (PRD _ _ NP))).
    apply nz_all. intros c Hc. apply SUB, HP, Hc. }
  destruct (zpk_uniform Ix ipr iem V isz _ _ _ _ _ _ OZ (MAP _ _ HP NP) OK) as [K [HK Q]].
  exists K. split; [exact HK|]. intros prec emax sz gf fsf Hpe Eg Fg Ff Ef Hu.
  set (i := (prec, emax, sz, gf, fsf) : Ix).
  assert (Vi : V i) by (split; [exact Eg|split; [exact Fg|split; [exact Ff|exact Ef]]]).
  destruct (stands_deg g fs i Vi) as [D1 D2].
  destruct (Q i (conj Vi (conj Hpe Hu))) as [FF WW].
  eexists; eexists. split; [|split; [|split; [exact FF|exact WW]]].
  - unfold bilinear_zpk_dyn, relative_degree_dyn. change (zk_z gf) with (zk_z (ig i)). change (zk_p gf) with (zk_p (ig i)). rewrite D1, D2.
    destruct (Nat.ltb_spec (length (zk_p g)) (length (zk_z g))); [lia|]. reflexivity.
  - unfold bilinear_zpk_dyn, relative_degree_dyn. destruct (Nat.ltb_spec (length (zk_p g)) (length (zk_z g))); [lia|]. reflexivity.
Qed.
Print Assumptions C95_bilinear_rounding.

Theorem C95_lp2lp_rounding (g : @ZpkFormatFilter R) (wo : R) :
  (length (zk_z g) <= length (zk_p g))%nat -> exists K, 1 <= K /\
  forall prec emax szero gf wf, (1 < prec < emax)%Z ->
  zpk_val gf = g -> zpk_finite prec emax gf -> finite prec emax wf -> fval wf = wo -> K * uround prec <= 1 ->
  exists hf h, @lp2lp_zpk_dyn _ (SFNum prec emax szero) gf (Some wf) = Ok hf /\ lp2lp_zpk_dyn g (Some wo) = Ok h /\
    zpk_finite prec emax hf /\ zpk_within (K * uround prec) (zpk_val hf) h.
Proof.
  intros Hd. destruct (stands_near g wo) as [NZ [NP [NK NW]]]. set (V := stands g wo) in *.
  assert (W : cnapp Ix ipr iem V (wo, 0) (fun i => (iw i, @nzero _ (NI i)))) by (split; [exact NW|apply napp_zero]).
  assert (MAP : forall l lf, lnapp Ix ipr iem V isz l lf ->
    lnapp Ix ipr iem V isz (map (fun c => cmul c (wo, 0)) l) (fun i => map (fun c => @cmul _ (NI i) c (iw i, @nzero _ (NI i))) (lf i))).
  { intros l lf Nl. apply lnapp_map with (h := fun c => cmul c (wo, 0)) (hf := fun i c => @cmul _ (NI i) c (iw i, @nzero _ (NI i))); [|exact Nl].
    intros j Hj Nj. apply cnapp_mul; assumption. }
  pose proof (napp_mul Ix ipr iem V _ _ _ _ NK (napp_npow Ix ipr iem V isz _ _ (length (zk_p g) - length (zk_z g)) NW)) as OK.
  destruct (zpk_uniform Ix ipr iem V isz _ _ _ _ _ _ (MAP _ _ NZ) (MAP _ _ NP) OK) as [K [HK Q]].
  exists K. split; [exact HK|]. intros prec emax sz gf fsf Hpe Eg Fg Ff Ef Hu.
  set (i := (prec, emax, sz, gf, fsf) : Ix).
  assert (Vi : V i) by (split; [exact Eg|split; [exact Fg|split; [exact Ff|exact Ef]]]).
  destruct (stands_deg g wo i Vi) as [D1 D2].
  destruct (Q i (conj Vi (conj Hpe Hu))) as [FF WW].
  eexists; eexists. split; [|split; [|split; [exact FF|exact WW]]].
  - unfold lp2lp_zpk_dyn, relative_degree_dyn. change (zk_z gf) with (zk_z (ig i)). change (zk_p gf) with (zk_p (ig i)). rewrite D1, D2.
    destruct (Nat.ltb_spec (length (zk_p g)) (length (zk_z g))); [lia|]. reflexivity.
  - unfold lp2lp_zpk_dyn, relative_degree_dyn. destruct (Nat.ltb_spec (length (zk_p g)) (length (zk_z g))); [lia|]. reflexivity.
Qed.
Print Assumptions C95_lp2lp_rounding.

(** No zero and no pole is at the origin. *)
Theorem C95_lp2hp_rounding (g : @ZpkFormatFilter R) (wo : R) :
  (length (zk_z g) <= length (zk_p g))%nat -> Forall (fun c => c <> C0) (zk_z g ++ zk_p g) -> exists K, 1 <= K /\
  forall prec emax szero gf wf, (1 < prec < emax)%Z ->
  zpk_val gf = g -> zpk_finite prec emax gf -> finite prec emax wf -> fval wf = wo -> K * uround prec <= 1 ->
  exists hf h, @lp2hp_zpk_dyn _ (SFNum prec emax szero) gf (Some wf) = Ok hf /\ lp2hp_zpk_dyn g (Some wo) = Ok h /\
    zpk_finite prec emax hf /\ zpk_within (K * uround prec) (zpk_val hf) h.
Proof.
  intros Hd Hn. destruct (stands_near g wo) as [NZ [NP [NK NW]]]. set (V := stands g wo) in *.
  apply Forall_app in Hn. destruct Hn as [HZ HP]. rewrite Forall_forall in HZ, HP.
  assert (N1 : napp Ix ipr iem V (-1) (fun i => @nofZ _ (NI i) (-1))) by (apply (napp_int Ix ipr iem V isz (-1)); lia).
  assert (N2 : napp Ix ipr iem V (-2) (fun i => @nofZ _ (NI i) (-2))) by (apply (napp_int Ix ipr iem V isz (-2)); lia).
  assert (N0 : napp Ix ipr iem V 0 (fun i => @nzero _ (NI i))) by apply napp_zero.
  assert (MZ : lnapp Ix ipr iem V isz (map (fun c => cmul (cdiv (wo * -2, 0) c) (0, -1)) (zk_z g))
    (fun i => map (fun c => @cmul _ (NI i) (@cdiv _ (NI i) (@nmul _ (NI i) (iw i) (@nofZ _ (NI i) (-2)), @nzero _ (NI i)) c) (@nzero _ (NI i), @nofZ _ (NI i) (-1))) (zk_z (ig i)))).
  { apply lnapp_map with (h := fun c => cmul (cdiv (wo * -2, 0) c) (0, -1)) (hf := fun i c => @cmul _ (NI i) (@cdiv _ (NI i) (@nmul _ (NI i) (iw i) (@nofZ _ (NI i) (-2)), @nzero _ (NI i)) c) (@nzero _ (NI i), @nofZ _ (NI i) (-1))); [|exact NZ].
    intros j Hj Nj. apply cnapp_mul; [apply cnapp_div; [apply HZ, nth_In, Hj| |exact Nj]|]; split; cbn [fst snd]; try assumption. apply napp_mul; assumption. }
  assert (MP : lnapp Ix ipr iem V isz (map (fun c => cdiv (wo, 0) c) (zk_p g)) (fun i => map (fun c => @cdiv _ (NI i) (iw i, @nzero _ (NI i)) c) (zk_p (ig i)))).
  { apply lnapp_map with (h := fun c => cdiv (wo, 0) c) (hf := fun i c => @cdiv _ (NI i) (iw i, @nzero _ (NI i)) c); [|exact NP].
    intros j Hj Nj. apply cnapp_div; [apply HP, nth_In, Hj| |exact Nj]. split; assumption. }
  assert (PZ : cnapp Ix ipr iem V (cprod (map (cadd (-1, 0)) (zk_z g))) (fun i => @cprod _ (NI i) (map (fun c => @cadd _ (NI i) (@nofZ _ (NI i) (-1), @nzero _ (NI i)) c) (zk_z (ig i))))).
  { apply cnapp_prod; [|apply cnapp_one].
    apply lnapp_map with (h := cadd (-1, 0)) (hf := fun i c => @cadd _ (NI i) (@nofZ _ (NI i) (-1), @nzero _ (NI i)) c); [|exact NZ]. intros j Hj Nj. apply cnapp_add; [split; assumption|exact Nj]. }
  assert (PP : cnapp Ix ipr iem V (cprod (map (cmul (-1, 0)) (zk_p g))) (fun i => @cprod _ (NI i) (map (fun c => @cmul _ (NI i) (@nofZ _ (NI i) (-1), @nzero _ (NI i)) c) (zk_p (ig i))))).
  { apply cnapp_prod; [|apply cnapp_one].
    apply lnapp_map with (h := cmul (-1, 0)) (hf := fun i c => @cmul _ (NI i) (@nofZ _ (NI i) (-1), @nzero _ (NI i)) c); [|exact NP]. intros j Hj Nj. apply cnapp_mul; [split; assumption|exact Nj]. }
  assert (OK : napp Ix ipr iem V (zk_k g * cre (cdiv (cprod (map (cadd (-1, 0)) (zk_z g))) (cprod (map (cmul (-1, 0)) (zk_p g)))))
     (fun i => @nmul _ (NI i) (zk_k (ig i)) (cre (@cdiv _ (NI i) (@cprod _ (NI i) (map (fun c => @cadd _ (NI i) (@nofZ _ (NI i) (-1), @nzero _ (NI i)) c) (zk_z (ig i)))) (@cprod _ (NI i) (map (fun c => @cmul _ (NI i) (@nofZ _ (NI i) (-1), @nzero _ (NI i)) c) (zk_p (ig i)))))))).
  { apply napp_mul; [exact NK|]. refine (proj1 (cnapp_div Ix ipr iem V isz _ _ _ _ _ PZ PP)).
    apply nz_all. intros [x y] Hc E. apply (HP _ Hc). assert (E1 : -1 * x - 0 * y = 0) by exact (f_equal fst E). assert (E2 : -1 * y + 0 * x = 0) by exact (f_equal snd E). change ((x, y) = (0, 0)). f_equal; lra. }
  pose proof (lnapp_app _ _ _ _ _ _ _ _ _ MZ (lnapp_repeat Ix ipr iem V isz _ _ (length (zk_p g) - length (zk_z g)) (cnapp_zero Ix ipr iem V isz))) as OZ.
  destruct (zpk_uniform Ix ipr iem V isz _ _ _ _ _ _ OZ MP OK) as [K [HK Q]].
  exists K. split; [exact HK|]. intros prec emax sz gf fsf Hpe Eg Fg Ff Ef Hu.
  set (i := (prec, emax, sz, gf, fsf) : Ix).
  assert (Vi : V i) by (split; [exact Eg|split; [exact Fg|split; [exact Ff|exact Ef]]]).
  destruct (stands_deg g wo i Vi) as [D1 D2].
  destruct (Q i (conj Vi (conj Hpe Hu))) as [FF WW].
  eexists; eexists. split; [|split; [|split; [exact FF|exact WW]]].
  - unfold lp2hp_zpk_dyn, relative_degree_dyn. change (zk_z gf) with (zk_z (ig i)). change (zk_p gf) with (zk_p (ig i)). rewrite D1, D2.
    destruct (Nat.ltb_spec (length (zk_p g)) (length (zk_z g))); [lia|]. reflexivity.
  - unfold lp2hp_zpk_dyn, relative_degree_dyn. destruct (Nat.ltb_spec (length (zk_p g)) (length (zk_z g))); [lia|]. reflexivity.
Qed.
Print Assumptions C95_lp2hp_rounding.

(** A zero at -1, a pair of conjugate poles, gain 2, frequency 2. *)
Example C95_hyp_met : let g := mkZpk [(-1, 0)] [(-1, 2); (-1, -2)] 2 in
  (length (zk_z g) <= length (zk_p g))%nat /\ Forall (fun c => c <> (2 * 2, 0)) (zk_z g ++ zk_p g) /\ Forall (fun c => c <> C0) (zk_z g ++ zk_p g) /\
  forall K, exists prec emax gf wf, (1 < prec < emax)%Z /\ zpk_val gf = g /\ zpk_finite prec emax gf /\ finite prec emax wf /\ fval wf = 2 /\ K * uround prec <= 1.
Proof.
  cbn [zk_z zk_p length app]. split; [lia|]. split; [repeat constructor; intros E; injection E; intros; lra|].
  split; [repeat constructor; intros E; injection E; intros; lra|]. intros K. destruct (fine_format K) as [prec [emax [Hpe Hu]]].
  set (n := fun m => SpecFloat.binary_normalize prec emax m 0 false).
  assert (N : forall m, (Z.abs m <= 2)%Z -> finite prec emax (n m) /\ fval (n m) = IZR m) by (intros m Hm; apply small_int; assumption).
  clearbody n. destruct (N 0%Z ltac:(lia)) as [F0 V0]. destruct (N 2%Z ltac:(lia)) as [F2 V2]. destruct (N (-1)%Z ltac:(lia)) as [F3 V3]. destruct (N (-2)%Z ltac:(lia)) as [F4 V4].
  exists prec, emax, (mkZpk [(n (-1)%Z, n 0%Z)] [(n (-1)%Z, n 2%Z); (n (-1)%Z, n (-2)%Z)] (n 2%Z)), (n 2%Z).
  split; [exact Hpe|]. unfold zpk_val, cval. cbn [map cre cim fst snd zk_z zk_p zk_k]. rewrite V0, V2, V3, V4.
  repeat split; try exact Hu; try (repeat constructor); apply F0 || apply F2 || apply F3 || apply F4.
Qed.
