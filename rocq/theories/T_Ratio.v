(** C134: only the ratio of the band edges and the sampling frequency matters to a digital design. *)
From Coq Require Import Reals ZArith SpecFloat List Lia Lra.
From Flocq Require Import Core BinarySingleNaN.
From Verif Require Import Base Num Trans M_Design S_Float P_Float S_Mirror S_Units P_Units P_Units2.
Import ListNotations.
Local Open Scope R_scope.

(** The sampling frequency is used once, to normalise the edges. *)
Lemma iir_fs {F} {NF : Num F} {TF : Trans F} eps sort n (wn : list F) rp rs bt ft analog out fs : analog <> Some true ->
  iirfilter_dyn eps sort n wn rp rs bt ft analog out (Some fs) = iirfilter_dyn eps sort n (map (fun w => ndiv (nmul two w) fs) wn) rp rs bt ft analog out None.
Proof. intros A. unfold iirfilter_dyn. rewrite map_length. destruct analog as [[]|]; [congruence|reflexivity..]. Qed.
Lemma iir_analog_fs {F} {NF : Num F} {TF : Trans F} eps sort n (wn : list F) rp rs bt ft out fs :
  iirfilter_dyn eps sort n wn rp rs bt ft (Some true) out (Some fs) = Panic.
Proof. unfold iirfilter_dyn. destruct (Nat.ltb 2 (length wn)); reflexivity. Qed.

(** Exact arithmetic: edges and sampling frequency in another unit, the same filter. *)
Theorem C134_ratio eps sort n (wn : list R) rp rs bt ft analog out fs c : c <> 0 -> fs <> 0 ->
  iirfilter_dyn eps sort n (map (fun w => c * w) wn) rp rs bt ft analog out (Some (c * fs)) = iirfilter_dyn eps sort n wn rp rs bt ft analog out (Some fs).
Proof.
  intros C0 F0. assert (D : analog = Some true \/ analog <> Some true) by (destruct analog as [[]|]; [left; reflexivity|right; congruence..]).
  destruct D as [->|D]; [rewrite !iir_analog_fs; reflexivity|]. rewrite !iir_fs by exact D. rewrite map_map. f_equal.
  apply map_ext. intros w. unfold two. cbn. field. split; assumption.
Qed.
Print Assumptions C134_ratio.
(** Leaving the sampling frequency out of a digital design means two. *)
Theorem C134_default eps sort n (wn : list R) rp rs bt ft analog out : analog <> Some true ->
  iirfilter_dyn eps sort n wn rp rs bt ft analog out (Some 2) = iirfilter_dyn eps sort n wn rp rs bt ft analog out None.
Proof. intros D. rewrite iir_fs by exact D. f_equal. rewrite <- (map_id wn) at 2. apply map_ext. intros w. unfold two. cbn. field. Qed.
Print Assumptions C134_default.

(** In floats the same holds exactly for powers of two: the same filter, bit for bit, whatever the
    functions of the mathematics library return. *)
Section Float.
Variables (prec emax : Z) (szero : bool).
Hypothesis PP : (1 < prec < emax)%Z.
Local Instance NR : Num spec_float := SFNum prec emax szero.
Let Hp : Prec_gt_0 prec. Proof. unfold Prec_gt_0; lia. Qed.
Let He : Prec_lt_emax prec emax. Proof. unfold Prec_lt_emax; lia. Qed.
Notation fin := (finite prec emax).

Lemma two_val : fin (@two _ NR) /\ fval (@two _ NR) = 2.
Proof.
  destruct (P_FloatStats.count_ok prec emax PP 2) as [A B]; [assert (2 ^ 1 <= 2 ^ prec)%Z by (apply Z.pow_le_mono_r; lia); change (Z.of_nat 2) with 2%Z; lia|].
  split; [exact A|]. etransitivity; [exact B|]. cbn. ring.
Qed.
Lemma double_ok w : fin w -> Rabs (2 * fval w) <= fmax prec emax -> fin (SFmul prec emax (@two _ NR) w) /\ fval (SFmul prec emax (@two _ NR) w) = 2 * fval w.
Proof.
  intros Fw H. destruct two_val as [F2 V2]. destruct (fmul_ok prec emax Hp He _ w F2 Fw) as [A B]; [rewrite V2; exact H|]. split; [exact A|]. rewrite B, V2.
  apply round_generic; [apply valid_rnd_N|]. destruct (@FLT_format_generic radix2 _ prec Hp _ (finite_format prec emax w Fw)) as [f E1 E2 E3].
  apply generic_format_FLT. exists (Float radix2 (Fnum f) (Fexp f + 1)); [|exact E2|cbn [Fexp]; lia].
  rewrite E1. unfold F2R. cbn [Fnum Fexp]. rewrite bpow_plus. change (bpow radix2 1) with 2. ring.
Qed.
Lemma same_cases a b : same_number a b -> a = b \/ (nleb a nzero = true /\ nleb b nzero = true).
Proof.
  intros H. destruct a as [s|s| |s m e], b as [t|t| |t n g]; cbn in H; try contradiction.
  - right. split; reflexivity.
  - left. subst t. destruct s; reflexivity.
  - left. reflexivity.
  - left. destruct H as (-> & -> & ->). destruct s; reflexivity.
Qed.
Lemma iir_zero_panics {TF : Trans spec_float} eps sort n wn rp rs bt ft analog out : existsb (fun w => nleb w nzero) wn = true ->
  iirfilter_dyn eps sort n wn rp rs bt ft analog out None = Panic.
Proof. intros H. unfold iirfilter_dyn. destruct (Nat.ltb 2 (length wn)); [reflexivity|]. cbn [bind]. rewrite H. reflexivity. Qed.
Lemma same_list a b : Forall2 same_number a b -> a = b \/ (existsb (fun w => nleb w nzero) a = true /\ existsb (fun w => nleb w nzero) b = true).
Proof.
  intros H. induction H as [|x y a b Hxy H IH]; [left; reflexivity|]. cbn [existsb]. destruct (same_cases x y Hxy) as [->|[A B]]; [|right; rewrite A, B; split; reflexivity].
  destruct IH as [->|[A B]]; [left; reflexivity|right; rewrite A, B, !Bool.orb_true_r; split; reflexivity].
Qed.

Theorem C134_ratio_floats {TF : Trans spec_float} eps sort n (wn wn' : list spec_float) rp rs bt ft analog out fs fs' k :
  Forall2 (times_power prec emax k) wn wn' -> times_power prec emax k fs fs' -> fval fs <> 0 ->
  Forall (fun w => Rabs (2 * fval w) <= fmax prec emax) (wn ++ wn') ->
  iirfilter_dyn eps sort n wn' rp rs bt ft analog out (Some fs') = iirfilter_dyn eps sort n wn rp rs bt ft analog out (Some fs).
Proof.
  intros Hw (Ff & Ff' & Ef) F0 HB. apply Forall_app in HB. destruct HB as [B1 B2].
  assert (D : analog = Some true \/ analog <> Some true) by (destruct analog as [[]|]; [left; reflexivity|right; congruence..]).
  destruct D as [->|D]; [rewrite !iir_analog_fs; reflexivity|]. rewrite !iir_fs by exact D.
  assert (Q : Forall2 same_number (map (fun w => ndiv (nmul two w) fs) wn) (map (fun w => ndiv (nmul two w) fs') wn')).
  { induction Hw as [|w w' wn wn' (Fw & Fw' & Ew) Hw IH]; [constructor|]. apply Forall_cons_iff in B1, B2. destruct B1 as [C1 B1], B2 as [C2 B2]. cbn [map]. constructor; [|apply IH; assumption].
    destruct (double_ok w Fw C1) as [D1 V1]. destruct (double_ok w' Fw' C2) as [D2 V2].
    apply (div_same prec emax PP k); try assumption; rewrite ?bpow_powerRZ; [|exact Ef]. unfold nmul. cbn [NR SFNum]. rewrite V1, V2, Ew. ring. }
  destruct (same_list _ _ Q) as [E|[A B]]; [rewrite E; reflexivity|]. rewrite (iir_zero_panics _ _ _ _ _ _ _ _ _ _ A), (iir_zero_panics _ _ _ _ _ _ _ _ _ _ B). reflexivity.
Qed.
Theorem C134_default_floats {TF : Trans spec_float} eps sort n (wn : list spec_float) rp rs bt ft analog out fs : analog <> Some true ->
  fin fs -> fval fs = 2 -> Forall fin wn -> Forall (fun w => Rabs (2 * fval w) <= fmax prec emax) wn ->
  iirfilter_dyn eps sort n wn rp rs bt ft analog out (Some fs) = iirfilter_dyn eps sort n wn rp rs bt ft analog out None.
Proof.
  intros D F2 V2 Fw HB. rewrite iir_fs by exact D.
  assert (Q : Forall2 same_number (map (fun w => ndiv (nmul two w) fs) wn) wn).
  { induction wn as [|w wn IH]; [constructor|]. apply Forall_cons_iff in Fw, HB. destruct Fw as [Fa Fw], HB as [Ha HB]. cbn [map]. constructor; [|apply IH; assumption].
    destruct (double_ok w Fa Ha) as [D1 V1].
    assert (E : fval (SFmul prec emax two w) / fval fs = fval w) by (rewrite V1, V2; field).
    pose proof (Rabs_pos (fval w)) as P0. rewrite Rabs_mult, (Rabs_pos_eq 2) in Ha by lra.
    destruct (fdiv_ok prec emax Hp He _ _ D1 F2) as [A B]; [rewrite V2; lra|rewrite E; lra|].
    apply (same_of_val prec emax); [exact A|exact Fa|]. rewrite E in B. etransitivity; [exact B|]. apply round_generic; [apply valid_rnd_N|]. apply (finite_format prec emax), Fa. }
  destruct (same_list _ _ Q) as [E|[A B]]; [rewrite E; reflexivity|]. rewrite (iir_zero_panics _ _ _ _ _ _ _ _ _ _ A), (iir_zero_panics _ _ _ _ _ _ _ _ _ _ B). reflexivity.
Qed.
End Float.
Print Assumptions C134_ratio_floats.
Print Assumptions C134_default_floats.

(** Edges of 10 and 20 at a sampling frequency of 100, then eight times all of them: the hypotheses hold in f64. *)
Example C134_ex : Forall2 (times_power 53 1024 3) [S754_finite false 5629499534213120 (-49); S754_finite false 5629499534213120 (-48)] [S754_finite false 5629499534213120 (-46); S754_finite false 5629499534213120 (-45)] /\
  times_power 53 1024 3 (S754_finite false 7036874417766400 (-46)) (S754_finite false 7036874417766400 (-43)) /\ fval (S754_finite false 7036874417766400 (-46)) = 100 /\
  fval (S754_finite false 5629499534213120 (-49)) = 10 /\ fval (S754_finite false 5629499534213120 (-48)) = 20 /\
  Forall (fun w => Rabs (2 * fval w) <= fmax 53 1024) ([S754_finite false 5629499534213120 (-49); S754_finite false 5629499534213120 (-48)] ++ [S754_finite false 5629499534213120 (-46); S754_finite false 5629499534213120 (-45)]).
Proof.
  assert (V : forall m e r, IZR (Zpos m) * bpow radix2 e = r -> fval (S754_finite false m e) = r) by (intros m e r <-; rewrite bpow_powerRZ; unfold fval; lra).
  assert (E1 : fval (S754_finite false 5629499534213120 (-49)) = 10) by (apply V; cbn; lra). assert (E2 : fval (S754_finite false 5629499534213120 (-48)) = 20) by (apply V; cbn; lra).
  assert (E3 : fval (S754_finite false 5629499534213120 (-46)) = 80) by (apply V; cbn; lra). assert (E4 : fval (S754_finite false 5629499534213120 (-45)) = 160) by (apply V; cbn; lra).
  assert (E5 : fval (S754_finite false 7036874417766400 (-46)) = 100) by (apply V; cbn; lra). assert (E6 : fval (S754_finite false 7036874417766400 (-43)) = 800) by (apply V; cbn; lra).
  assert (K : powerRZ 2 3 = 8) by (rewrite <- bpow_powerRZ; reflexivity).
  assert (M : 1024 <= fmax 53 1024). { change 1024 with (bpow radix2 10). apply (fmax_ge 53 1024 ltac:(lia)). lia. }
  split; [constructor; [|constructor; [|constructor]]; (split; [split; [vm_compute; reflexivity|exact I]|split; [split; [vm_compute; reflexivity|exact I]|]]); [rewrite E1, E3, K; lra|rewrite E2, E4, K; lra]|].
  split; [split; [split; [vm_compute; reflexivity|exact I]|split; [split; [vm_compute; reflexivity|exact I]|rewrite E5, E6, K; lra]]|].
  split; [exact E5|]. split; [exact E1|]. split; [exact E2|].
  cbn [app]. repeat (constructor; [rewrite ?E1, ?E2, ?E3, ?E4, Rabs_pos_eq by lra; lra|]). constructor.
Qed.
