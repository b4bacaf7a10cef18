(** Rounding in sosfilt_zi: the initial states computed at an IEEE 754 format, as
    approximations of the real ones that get better with the unit roundoff. *)
From Coq Require Import Reals ZArith SpecFloat List Lia Lra Bool.
From Flocq Require Import Core Relative BinarySingleNaN.
From Verif Require Import Base Num M_Linalg M_Filter S_Filter S_Float P_Float P_FloatStats P_Zi P_Filtfilt P_FloatFilt.
Import ListNotations.
Local Open Scope R_scope.

Lemma tiny_le_u prec emax : (1 < prec < emax)%Z -> ftiny prec emax <= uround prec.
Proof.
  intros H. unfold ftiny, uround. rewrite <- !bpow_powerRZ.
  assert (bpow radix2 (3 - emax - prec) <= bpow radix2 (1 - prec)) by (apply bpow_le; lia).
  assert (bpow radix2 (1 - prec) = 2 * bpow radix2 (- prec)).
  { replace (1 - prec)%Z with (1 + - prec)%Z by ring. rewrite bpow_plus. reflexivity. }
  lra.
Qed.
Lemma u_half prec : (1 < prec)%Z -> 0 < uround prec <= / 2.
Proof.
  intros H. unfold uround. rewrite <- bpow_powerRZ. split; [apply bpow_gt_0|].
  replace (/ 2) with (bpow radix2 (-1)) by reflexivity. apply bpow_le. lia.
Qed.
Lemma fmax_inv_u prec emax K : (1 < prec < emax)%Z -> K * uround prec <= 1 -> K <= fmax prec emax.
Proof.
  intros H HK. destruct (u_half prec ltac:(lia)) as [U0 U1].
  assert (E : uround prec * powerRZ 2 prec = 1).
  { unfold uround. rewrite <- !bpow_powerRZ, <- bpow_plus. replace (- prec + prec)%Z with 0%Z by ring. reflexivity. }
  assert (P : 2 <= powerRZ 2 (emax - prec)).
  { rewrite <- bpow_powerRZ. change 2 with (bpow radix2 1) at 1. apply bpow_le. lia. }
  assert (Q : 2 <= powerRZ 2 prec).
  { rewrite <- bpow_powerRZ. change 2 with (bpow radix2 1) at 1. apply bpow_le. lia. }
  assert (K <= powerRZ 2 prec).
  { apply (Rmult_le_reg_r (uround prec)); [lra|]. rewrite (Rmult_comm (powerRZ 2 prec)), E. exact HK. }
  unfold fmax. set (a := powerRZ 2 prec) in *. set (b := powerRZ 2 (emax - prec)) in *. clearbody a b. clear E. nra.
Qed.

Section Near.
Variable I : Type.
Variables pr em : I -> Z.
Variable V : I -> Prop.
Definition fmt_ok (K : R) (i : I) : Prop := V i /\ (1 < pr i < em i)%Z /\ K * uround (pr i) <= 1.
(** [f i] is [c] up to a multiple of the unit roundoff, in every format fine enough. *)
Definition napp (c : R) (f : I -> spec_float) : Prop :=
  exists K, 1 <= K /\ forall i, fmt_ok K i -> finite (pr i) (em i) (f i) /\ Rabs (fval (f i) - c) <= K * uround (pr i).

Lemma fmt_mono K K' i : fmt_ok K i -> K' <= K -> fmt_ok K' i.
Proof.
  intros (A & B & C) H. split; [exact A|]. split; [exact B|]. destruct (u_half (pr i) ltac:(lia)) as [U _].
  eapply Rle_trans; [apply Rmult_le_compat_r; [lra|exact H]|exact C].
Qed.

Lemma napp_op c (f : I -> spec_float) (v : I -> R) K : 1 <= K ->
  (forall i, fmt_ok K i -> Rabs (v i - c) <= K * uround (pr i) /\
     (Rabs (v i) <= fmax (pr i) (em i) -> finite (pr i) (em i) (f i) /\
        fval (f i) = round radix2 (FLT_exp (SpecFloat.emin (pr i) (em i)) (pr i)) ZnearestE (v i))) ->
  napp c f.
Proof.
  intros HK H. exists (K + Rabs c + 2). pose proof (Rabs_pos c) as C0. split; [lra|]. intros i Hi.
  pose proof (fmt_mono _ K i Hi ltac:(lra)) as Hi'. destruct (H i Hi') as [E O]. destruct Hi as (_ & Hpe & HU). destruct Hi' as (_ & _ & HU').
  destruct (u_half (pr i) ltac:(lia)) as [U0 U1]. pose proof (tiny_le_u _ _ Hpe) as T.
  pose proof (fmax_inv_u _ _ _ Hpe HU) as M.
  assert (B : Rabs (v i) <= Rabs c + 1).
  { replace (v i) with ((v i - c) + c) by ring. eapply Rle_trans; [apply Rabs_triang|]. lra. }
  destruct (O ltac:(lra)) as [F E2]. split; [exact F|]. rewrite E2.
  pose proof (rnd_err (pr i) (em i) ltac:(unfold Prec_gt_0; lia) (v i)) as Q.
  match type of Q with Rabs (?w - _) <= _ => set (W := w) in * end.
  replace (W - c) with ((W - v i) + (v i - c)) by ring. eapply Rle_trans; [apply Rabs_triang|].
  assert (uround (pr i) * Rabs (v i) <= uround (pr i) * (Rabs c + 1)) by (apply Rmult_le_compat_l; lra).
  rewrite !Rmult_plus_distr_r. lra.
Qed.

Ltac pq := unfold Prec_gt_0, Prec_lt_emax; lia.
Lemma napp_exact c f : (forall i, V i -> (1 < pr i < em i)%Z -> finite (pr i) (em i) (f i) /\ fval (f i) = c) -> napp c f.
Proof.
  intros H. exists 1. split; [lra|]. intros i (A & B & _). destruct (H i A B) as [F ->]. split; [exact F|].
  destruct (u_half (pr i) ltac:(lia)). rewrite Rminus_diag_eq, Rabs_R0 by reflexivity. lra.
Qed.
Lemma napp_zero s : napp 0 (fun _ => S754_zero s).
Proof. apply napp_exact. intros i _ _. split; [split; [reflexivity|exact Logic.I]|reflexivity]. Qed.
Lemma one_ok prec emax : (1 < prec < emax)%Z ->
  finite prec emax (SpecFloat.binary_normalize prec emax 1 0 false) /\ fval (SpecFloat.binary_normalize prec emax 1 0 false) = 1.
Proof.
  intros H. apply fofZ_ok; [pq|pq| |].
  - cbn [Z.abs]. assert (0 < 2 ^ prec)%Z by (apply Z.pow_pos_nonneg; lia). lia.
  - cbn [Z.abs]. apply fmax_inv_u; [exact H|]. destruct (u_half prec ltac:(lia)). lra.
Qed.
Lemma napp_one : napp 1 (fun i => SpecFloat.binary_normalize (pr i) (em i) 1 0 false).
Proof. apply napp_exact. intros i _ H. apply one_ok. exact H. Qed.
Lemma napp_opp c f : napp c f -> napp (- c) (fun i => SFopp (f i)).
Proof.
  intros (K & HK & H). exists K. split; [exact HK|]. intros i Hi. destruct (H i Hi) as [[F1 F2] E].
  assert (fval (SFopp (f i)) = - fval (f i)) as ->.
  { destruct (f i) as [s|s| |s m e]; cbn; try ring. destruct s; cbn; ring. }
  split.
  - destruct (f i) as [s|s| |s m e]; try destruct F2; split; try exact Logic.I; try reflexivity. exact F1.
  - replace (- fval (f i) - - c) with (- (fval (f i) - c)) by ring. rewrite Rabs_Ropp. exact E.
Qed.
Lemma napp_add c d f g : napp c f -> napp d g -> napp (c + d) (fun i => SFadd (pr i) (em i) (f i) (g i)).
Proof.
  intros (K & HK & H) (L & HL & G). apply (napp_op _ _ (fun i => fval (f i) + fval (g i)) (K + L)); [lra|].
  intros i Hi. destruct (H i (fmt_mono _ K i Hi ltac:(lra))) as [F1 E1]. destruct (G i (fmt_mono _ L i Hi ltac:(lra))) as [F2 E2]. split.
  - replace (fval (f i) + fval (g i) - (c + d)) with ((fval (f i) - c) + (fval (g i) - d)) by ring.
    eapply Rle_trans; [apply Rabs_triang|]. lra.
  - intros M. destruct Hi as (_ & B & _). apply fadd_ok; try assumption; pq.
Qed.
Lemma napp_sub c d f g : napp c f -> napp d g -> napp (c - d) (fun i => SFsub (pr i) (em i) (f i) (g i)).
Proof.
  intros (K & HK & H) (L & HL & G). apply (napp_op _ _ (fun i => fval (f i) - fval (g i)) (K + L)); [lra|].
  intros i Hi. destruct (H i (fmt_mono _ K i Hi ltac:(lra))) as [F1 E1]. destruct (G i (fmt_mono _ L i Hi ltac:(lra))) as [F2 E2]. split.
  - replace (fval (f i) - fval (g i) - (c - d)) with ((fval (f i) - c) + - (fval (g i) - d)) by ring.
    eapply Rle_trans; [apply Rabs_triang|]. rewrite Rabs_Ropp. lra.
  - intros M. destruct Hi as (_ & B & _). apply fsub_ok; try assumption; pq.
Qed.
Lemma napp_mul c d f g : napp c f -> napp d g -> napp (c * d) (fun i => SFmul (pr i) (em i) (f i) (g i)).
Proof.
  intros (K & HK & H) (L & HL & G). pose proof (Rabs_pos c) as C0. pose proof (Rabs_pos d) as D0.
  apply (napp_op _ _ (fun i => fval (f i) * fval (g i)) (K * (Rabs d + 1) + (Rabs c + 1) * L)); [nra|].
  intros i Hi. assert (K <= K * (Rabs d + 1) + (Rabs c + 1) * L) by nra. assert (L <= K * (Rabs d + 1) + (Rabs c + 1) * L) by nra.
  pose proof (fmt_mono _ L i Hi ltac:(assumption)) as HiL.
  destruct (H i (fmt_mono _ K i Hi ltac:(assumption))) as [F1 E1]. destruct (G i HiL) as [F2 E2]. split.
  - replace (fval (f i) * fval (g i) - c * d) with ((fval (f i) - c) * fval (g i) + c * (fval (g i) - d)) by ring.
    eapply Rle_trans; [apply Rabs_triang|]. rewrite !Rabs_mult. destruct HiL as (_ & _ & HU).
    assert (B : Rabs (fval (g i)) <= Rabs d + 1).
    { replace (fval (g i)) with ((fval (g i) - d) + d) by ring. eapply Rle_trans; [apply Rabs_triang|]. lra. }
    destruct Hi as (_ & Hpe & _). destruct (u_half (pr i) ltac:(lia)) as [U0 _].
    pose proof (Rabs_pos (fval (f i) - c)). pose proof (Rabs_pos (fval (g i) - d)). pose proof (Rabs_pos (fval (g i))).
    assert (Rabs (fval (f i) - c) * Rabs (fval (g i)) <= (K * uround (pr i)) * (Rabs d + 1)) by (apply Rmult_le_compat; assumption).
    assert (Rabs c * Rabs (fval (g i) - d) <= (Rabs c + 1) * (L * uround (pr i))) by (apply Rmult_le_compat; try assumption; lra).
    lra.
  - intros M. destruct Hi as (_ & B & _). apply fmul_ok; try assumption; pq.
Qed.
Lemma napp_div c d f g : d <> 0 -> napp c f -> napp d g -> napp (c / d) (fun i => SFdiv (pr i) (em i) (f i) (g i)).
Proof.
  intros D (K & HK & H) (L & HL & G). pose proof (Rabs_pos c) as C0. pose proof (Rabs_pos_lt d D) as D0.
  set (J := K + L + 2 * L / Rabs d + 2 * (Rabs d * K + Rabs c * L) / (Rabs d * Rabs d)).
  assert (J1 : 0 <= 2 * L / Rabs d) by (apply Rmult_le_pos; [lra|left; apply Rinv_0_lt_compat; exact D0]).
  assert (J2 : 0 <= 2 * (Rabs d * K + Rabs c * L) / (Rabs d * Rabs d)) by (apply Rmult_le_pos; [nra|left; apply Rinv_0_lt_compat; nra]).
  apply (napp_op _ _ (fun i => fval (f i) / fval (g i)) J); [unfold J; lra|].
  intros i Hi. pose proof (fmt_mono _ (2 * L / Rabs d) i Hi ltac:(unfold J; lra)) as HiD.
  destruct (H i (fmt_mono _ K i Hi ltac:(unfold J; lra))) as [F1 E1]. destruct (G i (fmt_mono _ L i Hi ltac:(unfold J; lra))) as [F2 E2].
  assert (B : Rabs d / 2 <= Rabs (fval (g i))).
  { destruct HiD as (_ & _ & HU). assert (L * uround (pr i) <= Rabs d / 2).
    { replace (L * uround (pr i)) with (2 * L / Rabs d * uround (pr i) * (Rabs d / 2)) by (field; lra).
      rewrite <- (Rmult_1_l (Rabs d / 2)) at 2. apply Rmult_le_compat_r; lra. }
    pose proof (Rabs_triang_inv d (fval (g i))) as T. rewrite <- Rabs_Ropp in E2.
    replace (- (fval (g i) - d)) with (d - fval (g i)) in E2 by ring. lra. }
  assert (N : fval (g i) <> 0) by (intros Z; rewrite Z, Rabs_R0 in B; lra).
  split.
  - replace (fval (f i) / fval (g i) - c / d) with (((fval (f i) - c) * d - c * (fval (g i) - d)) / (fval (g i) * d)) by (field; split; assumption).
    unfold Rdiv at 1. rewrite Rabs_mult. rewrite Rabs_inv, Rabs_mult.
    assert (P : Rabs ((fval (f i) - c) * d - c * (fval (g i) - d)) <= (Rabs d * K + Rabs c * L) * uround (pr i)).
    { unfold Rminus at 1. eapply Rle_trans; [apply Rabs_triang|]. rewrite Rabs_Ropp, !Rabs_mult.
      rewrite Rmult_plus_distr_r. apply Rplus_le_compat; [|rewrite Rmult_assoc; apply Rmult_le_compat_l; [lra|exact E2]].
      rewrite Rmult_comm, Rmult_assoc. apply Rmult_le_compat_l; [lra|exact E1]. }
    assert (Q : / (Rabs (fval (g i)) * Rabs d) <= 2 / (Rabs d * Rabs d)).
    { replace (2 / (Rabs d * Rabs d)) with (/ (Rabs d / 2 * Rabs d)) by (field; lra). apply Rinv_le_contravar; nra. }
    destruct Hi as (_ & Hpe & _). destruct (u_half (pr i) ltac:(lia)) as [U0 _].
    eapply Rle_trans; [apply Rmult_le_compat; [apply Rabs_pos| |exact P|exact Q]|].
    + left. apply Rinv_0_lt_compat. nra.
    + replace ((Rabs d * K + Rabs c * L) * uround (pr i) * (2 / (Rabs d * Rabs d))) with (2 * (Rabs d * K + Rabs c * L) / (Rabs d * Rabs d) * uround (pr i)) by (field; lra).
      apply Rmult_le_compat_r; [lra|]. unfold J. lra.
  - intros M. destruct Hi as (_ & Hpe & _). apply fdiv_ok; try assumption; pq.
Qed.
Lemma napp_ext c c' f f' : c = c' -> (forall i, V i -> (1 < pr i < em i)%Z -> f i = f' i) -> napp c f -> napp c' f'.
Proof.
  intros <- E (K & HK & H). exists K. split; [exact HK|]. intros i Hi. destruct Hi as (A & B & C). rewrite <- E by assumption.
  apply H. repeat split; (assumption || lia).
Qed.
End Near.

(** lfilter_zi on one section with leading denominator coefficient 1, any number type. *)
Lemma lfilter_zi_formula {F} {NF : Num F} (B0 B1 B2 A0 A1 A2 : F) : neqb A0 nzero = false -> neqb A0 none = true ->
  lfilter_zi_dyn [B0; B1; B2] [A0; A1; A2] =
  let z := ((nsum0 + (B1 - A1 * B0) + (B2 - A2 * B0)) / (0 + (1 - - A1 / A0) + (0 - - A2 / A0)))%num in
  Ok [z; ((1 + A1) * z - (0 + (B1 - A1 * B0)))%num].
Proof.
  intros H0 H1. unfold lfilter_zi_dyn. cbn -[nadd nsub nmul ndiv neqb nzero none].
  rewrite H0. cbn -[nadd nsub nmul ndiv neqb nzero none]. rewrite H1. reflexivity.
Qed.

Lemma SFeqb_fval prec emax x y : (1 < prec < emax)%Z -> finite prec emax x -> finite prec emax y -> SFeqb x y = Reqb (fval x) (fval y).
Proof.
  intros Hpe Fx Fy. destruct (finite_B prec emax x Fx) as [a [Ea [Ga Va]]]. destruct (finite_B prec emax y Fy) as [b [Eb [Gb Vb]]].
  pose proof (Beqb_correct prec emax a b Ga Gb) as C. unfold Beqb in C. rewrite <- Ea, <- Eb, <- Va, <- Vb in C. rewrite C.
  unfold Reqb. destruct (Req_EM_T (fval x) (fval y)) as [Q|Q]; [apply Req_bool_true|apply Req_bool_false]; exact Q.
Qed.

Definition finite_coefs (prec emax : Z) (s : Sos spec_float) : Prop := Forall (finite prec emax) (coefs s).
(** The delays of a float section are finite and within [d] of those of a real one. *)
Definition state_near (prec emax : Z) (d : R) (sf : Sos spec_float) (s : Sos R) : Prop :=
  finite prec emax (zi0 sf) /\ finite prec emax (zi1 sf) /\ Rabs (fval (zi0 sf) - zi0 s) <= d /\ Rabs (fval (zi1 sf) - zi1 s) <= d.

Definition zi_sum (s : Sos R) : R := (0 + (b1 s - a1 s * b0 s) + (b2 s - a2 s * b0 s)) / (0 + (1 - - a1 s / a0 s) + (0 - - a2 s / a0 s)).

(** A float section whose coefficients are within [e] of a real section's, the leading one exact. *)
Definition coef_close (prec emax : Z) (e : R) (sf : Sos spec_float) (s : Sos R) : Prop :=
  finite_coefs prec emax sf /\ Forall2 (fun x y => Rabs (fval x - y) <= e) (coefs sf) (coefs s) /\ fval (a0 sf) = a0 s.

Lemma sosfilt_zi_close (l : list (Sos R)) : Forall stable_section l ->
  forall KC (I : Type) (pr em : I -> Z) (V : I -> Prop) (sz : I -> bool) sc scf (lf : I -> list (Sos spec_float)), 0 <= KC ->
  napp I pr em V sc scf ->
  (forall i, V i -> Forall2 (coef_close (pr i) (em i) (KC * uround (pr i))) (lf i) l) ->
  exists l' K, sosfilt_zi_loop sc l = Ok l' /\ same_coefs l' l /\ 1 <= K /\
    forall i, fmt_ok I pr em V K i -> exists lf',
      @sosfilt_zi_loop _ (SFNum (pr i) (em i) (sz i)) (scf i) (lf i) = Ok lf' /\ same_coefs lf' (lf i) /\
      Forall2 (state_near (pr i) (em i) (K * uround (pr i))) lf' l'.
Proof.
  intros HS. induction HS as [|s l [HA HD] HS IH]; intros KC I pr em V sz sc scf lf HKC Hsc Hlf.
  - exists [], 1. split; [reflexivity|]. split; [reflexivity|]. split; [lra|]. intros i (Vi & _ & _).
    pose proof (Hlf i Vi) as C. inversion C. exists []. repeat split. constructor.
  - set (dflt := mkSos (S754_zero false) (S754_zero false) (S754_zero false) (S754_zero false) (S754_zero false) (S754_zero false) (S754_zero false) (S754_zero false)).
    set (sf := fun i => hd dflt (lf i)). set (tf := fun i => tl (lf i)).
    assert (Hc : forall i, V i -> lf i = sf i :: tf i /\ coef_close (pr i) (em i) (KC * uround (pr i)) (sf i) s /\ Forall2 (coef_close (pr i) (em i) (KC * uround (pr i))) (tf i) l).
    { intros i Vi. pose proof (Hlf i Vi) as C. unfold sf, tf. inversion C; subst. cbn [hd tl]. split; [reflexivity|]. split; assumption. }
    assert (HV : forall i, V i -> (finite (pr i) (em i) (b0 (sf i)) /\ Rabs (fval (b0 (sf i)) - b0 s) <= KC * uround (pr i)) /\ (finite (pr i) (em i) (b1 (sf i)) /\ Rabs (fval (b1 (sf i)) - b1 s) <= KC * uround (pr i)) /\
        (finite (pr i) (em i) (b2 (sf i)) /\ Rabs (fval (b2 (sf i)) - b2 s) <= KC * uround (pr i)) /\ (finite (pr i) (em i) (a0 (sf i)) /\ fval (a0 (sf i)) = a0 s) /\
        (finite (pr i) (em i) (a1 (sf i)) /\ Rabs (fval (a1 (sf i)) - a1 s) <= KC * uround (pr i)) /\ (finite (pr i) (em i) (a2 (sf i)) /\ Rabs (fval (a2 (sf i)) - a2 s) <= KC * uround (pr i))).
    { intros i Vi. destruct (Hc i Vi) as (_ & (Fi & W & E0) & _).
      unfold finite_coefs, coefs in Fi, W. repeat match goal with H : Forall _ (_ :: _) |- _ => inversion H; clear H; subst end.
      repeat match goal with H : Forall2 _ (_ :: _) _ |- _ => inversion H; clear H; subst end. tauto. }
    assert (NC : forall c (f : I -> spec_float), (forall i, V i -> finite (pr i) (em i) (f i) /\ Rabs (fval (f i) - c) <= KC * uround (pr i)) -> napp I pr em V c f).
    { intros c f H. exists (KC + 1). split; [lra|]. intros i (Vi & Hpe & _). destruct (H i Vi) as [F B]. split; [exact F|]. destruct (u_half (pr i) (proj1 Hpe)) as [U0 _]. rewrite Rmult_plus_distr_r. lra. }
    assert (N0 : napp I pr em V (b0 s) (fun i => b0 (sf i))) by (apply NC; intros i Vi; apply HV; exact Vi).
    assert (N1 : napp I pr em V (b1 s) (fun i => b1 (sf i))) by (apply NC; intros i Vi; apply HV; exact Vi).
    assert (N2 : napp I pr em V (b2 s) (fun i => b2 (sf i))) by (apply NC; intros i Vi; apply HV; exact Vi).
    assert (M0 : napp I pr em V (a0 s) (fun i => a0 (sf i))) by (apply napp_exact; intros i Vi _; apply HV; exact Vi).
    assert (M1 : napp I pr em V (a1 s) (fun i => a1 (sf i))) by (apply NC; intros i Vi; apply HV; exact Vi).
    assert (M2 : napp I pr em V (a2 s) (fun i => a2 (sf i))) by (apply NC; intros i Vi; apply HV; exact Vi).
    assert (A1 : a0 s <> 0) by (rewrite HA; lra).
    assert (DN : 0 + (1 - - a1 s / a0 s) + (0 - - a2 s / a0 s) <> 0).
    { rewrite HA in HD |- *. replace (0 + (1 - - a1 s / 1) + (0 - - a2 s / 1)) with (1 + a1 s + a2 s) by field. exact HD. }
    set (T1 := fun i => SFsub (pr i) (em i) (b1 (sf i)) (SFmul (pr i) (em i) (a1 (sf i)) (b0 (sf i)))).
    set (T2 := fun i => SFsub (pr i) (em i) (b2 (sf i)) (SFmul (pr i) (em i) (a2 (sf i)) (b0 (sf i)))).
    set (one := fun i => SpecFloat.binary_normalize (pr i) (em i) 1 0 false).
    set (zero := fun _ : I => S754_zero false). set (sum0 := fun i => S754_zero (sz i)).
    assert (NZ : napp I pr em V 0 zero) by apply napp_zero.
    assert (NS0 : napp I pr em V 0 sum0).
    { apply napp_exact. intros i _ _. split; [split; [reflexivity|exact Logic.I]|reflexivity]. }
    assert (NO : napp I pr em V 1 one) by apply napp_one.
    assert (NT1 : napp I pr em V (b1 s - a1 s * b0 s) T1) by (apply napp_sub; [exact N1|apply napp_mul; assumption]).
    assert (NT2 : napp I pr em V (b2 s - a2 s * b0 s) T2) by (apply napp_sub; [exact N2|apply napp_mul; assumption]).
    set (Z := fun i => SFdiv (pr i) (em i) (SFadd (pr i) (em i) (SFadd (pr i) (em i) (sum0 i) (T1 i)) (T2 i))
       (SFadd (pr i) (em i) (SFadd (pr i) (em i) (zero i) (SFsub (pr i) (em i) (one i) (SFdiv (pr i) (em i) (SFopp (a1 (sf i))) (a0 (sf i)))))
          (SFsub (pr i) (em i) (zero i) (SFdiv (pr i) (em i) (SFopp (a2 (sf i))) (a0 (sf i)))))).
    assert (NZ0 : napp I pr em V (zi_sum s) Z).
    { unfold Z, zi_sum. apply napp_div; [exact DN| |].
      - apply napp_add; [apply napp_add; assumption|exact NT2].
      - apply napp_add; [apply napp_add; [exact NZ|]|]; apply napp_sub; try assumption;
          apply napp_div; try assumption; apply napp_opp; assumption. }
    set (W := fun i => SFsub (pr i) (em i) (SFmul (pr i) (em i) (SFadd (pr i) (em i) (one i) (a1 (sf i))) (Z i)) (SFadd (pr i) (em i) (zero i) (T1 i))).
    set (w := (1 + a1 s) * zi_sum s - (0 + (b1 s - a1 s * b0 s))).
    assert (NW : napp I pr em V w W).
    { unfold W, w. apply napp_sub; [apply napp_mul; [apply napp_add; assumption|exact NZ0]|apply napp_add; assumption]. }
    set (G := fun i => SFdiv (pr i) (em i)
       (SFadd (pr i) (em i) (SFadd (pr i) (em i) (SFadd (pr i) (em i) (sum0 i) (b0 (sf i))) (b1 (sf i))) (b2 (sf i)))
       (SFadd (pr i) (em i) (SFadd (pr i) (em i) (SFadd (pr i) (em i) (sum0 i) (a0 (sf i))) (a1 (sf i))) (a2 (sf i)))).
    set (g := (0 + b0 s + b1 s + b2 s) / (0 + a0 s + a1 s + a2 s)).
    assert (NG : napp I pr em V g G).
    { unfold G, g. apply napp_div; [rewrite Rplus_0_l; exact HD| |]; repeat apply napp_add; assumption. }
    pose proof (napp_mul I pr em V _ _ _ _ Hsc NZ0) as P0. pose proof (napp_mul I pr em V _ _ _ _ Hsc NW) as P1.
    pose proof (napp_mul I pr em V _ _ _ _ Hsc NG) as P2. cbn beta in P0, P1, P2.
    destruct (IH KC I pr em V sz _ _ tf HKC P2) as (l' & K & E & SC & HK & Q).
    { intros i Vi. apply (Hc i Vi). }
    destruct P0 as (K0 & HK0 & P0). destruct P1 as (K1 & HK1 & P1).
    exists (set_state s (sc * zi_sum s) (sc * w) :: l'), (K + K0 + K1).
    split; [|split; [|split; [lra|]]].
    + cbn [sosfilt_zi_loop]. rewrite lfilter_zi_formula.
      * cbn zeta. cbn [bind index nth_error unwrap]. cbn [nsum fold_left nadd nsub nmul ndiv nneg nzero none nsum0 RNum].
        unfold nsum. cbn [fold_left nadd nsub nmul ndiv nneg nzero none nsum0 RNum].
        change ((0 + b0 s + b1 s + b2 s) / (0 + a0 s + a1 s + a2 s)) with g. rewrite E. reflexivity.
      * cbn [neqb RNum nzero]. apply Reqb_false. exact A1.
      * cbn [neqb RNum none]. apply Reqb_true. exact HA.
    + unfold same_coefs in *. cbn [map]. f_equal. exact SC.
    + intros i Hi. pose proof (fmt_mono I pr em V _ K i Hi ltac:(lra)) as Hi0.
      destruct (Q i Hi0) as (lf' & E' & SC' & F2).
      pose proof Hi as (Vi & Hpe & _). destruct (Hc i Vi) as (El & _ & _).
      destruct (P0 i (fmt_mono I pr em V _ K0 i Hi ltac:(lra))) as [FA EA]. destruct (P1 i (fmt_mono I pr em V _ K1 i Hi ltac:(lra))) as [FB EB].
      destruct (HV i Vi) as (_ & _ & _ & [FA0 VA0] & _).
      exists (set_state (sf i) (SFmul (pr i) (em i) (scf i) (Z i)) (SFmul (pr i) (em i) (scf i) (W i)) :: lf').
      split; [|split].
      * rewrite El. cbn [sosfilt_zi_loop]. rewrite lfilter_zi_formula.
        -- cbn zeta. cbn [bind index nth_error unwrap]. unfold nsum. cbn [fold_left nadd nsub nmul ndiv nneg nzero none nsum0 SFNum].
           change (SFdiv (pr i) (em i) (SFadd (pr i) (em i) (SFadd (pr i) (em i) (SFadd (pr i) (em i) (S754_zero (sz i)) (b0 (sf i))) (b1 (sf i))) (b2 (sf i)))
              (SFadd (pr i) (em i) (SFadd (pr i) (em i) (SFadd (pr i) (em i) (S754_zero (sz i)) (a0 (sf i))) (a1 (sf i))) (a2 (sf i)))) with (G i).
           rewrite E'. reflexivity.
        -- cbn [neqb SFNum nzero]. rewrite (SFeqb_fval _ _ _ _ Hpe FA0) by (split; [reflexivity|exact Logic.I]). rewrite VA0. cbn [fval]. apply Reqb_false. exact A1.
        -- cbn [neqb SFNum none]. destruct (one_ok _ _ Hpe) as [O1 O2]. rewrite (SFeqb_fval _ _ _ _ Hpe FA0 O1), VA0, O2. apply Reqb_true. exact HA.
      * rewrite El. unfold same_coefs in *. cbn [map]. f_equal. exact SC'.
      * destruct (u_half (pr i) ltac:(lia)) as [U0 _].
        assert (0 <= K * uround (pr i)) by (apply Rmult_le_pos; lra). assert (0 <= K0 * uround (pr i)) by (apply Rmult_le_pos; lra).
        assert (0 <= K1 * uround (pr i)) by (apply Rmult_le_pos; lra).
        constructor.
        -- unfold state_near. cbn [set_state zi0 zi1]. rewrite !Rmult_plus_distr_r. repeat split; try apply FA; try apply FB; lra.
        -- clear - F2 H H0 H1. induction F2 as [|a b la lb [Fa [Fb [Ea Eb]]] F2 IH]; constructor; [|exact IH].
           rewrite !Rmult_plus_distr_r. repeat split; try apply Fa; try apply Fb; lra.
Qed.

Lemma sosfilt_zi_near (l : list (Sos R)) : Forall stable_section l ->
  forall (I : Type) (pr em : I -> Z) (V : I -> Prop) (sz : I -> bool) sc scf (lf : I -> list (Sos spec_float)),
  napp I pr em V sc scf ->
  (forall i, V i -> same_coefs (map sos_val (lf i)) l /\ Forall (finite_coefs (pr i) (em i)) (lf i)) ->
  exists l' K, sosfilt_zi_loop sc l = Ok l' /\ same_coefs l' l /\ 1 <= K /\
    forall i, fmt_ok I pr em V K i -> exists lf',
      @sosfilt_zi_loop _ (SFNum (pr i) (em i) (sz i)) (scf i) (lf i) = Ok lf' /\ same_coefs lf' (lf i) /\
      Forall2 (state_near (pr i) (em i) (K * uround (pr i))) lf' l'.
Proof.
  intros HS I pr em V sz sc scf lf Hsc Hlf. apply (sosfilt_zi_close l HS 0 I pr em V sz sc scf lf ltac:(lra) Hsc). intros i Vi. destruct (Hlf i Vi) as [C F]. rewrite Rmult_0_l. clear - C F. revert l C. revert F. generalize (lf i) as lg. intros lg F.
  induction F as [|s lg Fs F IH]; intros [|t l] C; try discriminate; constructor.
  - pose proof (f_equal (hd []) C) as E1. cbn [map hd] in E1. split; [exact Fs|]. change (coefs (sos_val s)) with (map fval (coefs s)) in E1. split.
    + rewrite <- E1. clear. induction (coefs s) as [|v r IH]; constructor; [rewrite Rminus_diag_eq, Rabs_R0 by reflexivity; lra|exact IH].
    + unfold coefs in E1. injection E1 as _ _ _ E _ _. exact E.
  - apply IH. exact (f_equal (@tl _) C).
Qed.
