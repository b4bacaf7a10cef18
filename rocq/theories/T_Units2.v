(** C132, continued: Savitzky-Golay filtering under a change of unit by a power of two. *)
From Coq Require Import Reals ZArith QArith SpecFloat List Lia Lra.
From Flocq Require Import Core.
From Verif Require Import Base Num M_Stats M_Savgol S_Float P_Float S_Mirror P_Mirror S_Units P_Units P_Units2 T_Units.
Import ListNotations.
Local Open Scope R_scope.

(** Products of samples (between 2^lo and 2^hi) and coefficients (between 2^lc and 2^hc), and sums of 2^c of them, stay inside the exponent range. *)
Definition products_fit (prec emax c lo hi lc hc : Z) : Prop :=
  (1 < prec < emax)%Z /\ (0 <= c <= prec)%Z /\ (2 - emax <= lo + lc - prec + 1)%Z /\ (SpecFloat.emin prec emax <= hi + hc)%Z /\ (hi + hc + c < emax)%Z.

Theorem C132_savgol prec emax szero lstsq md pw c lo hi lc hc k (y y' : list spec_float) w po der delta cs :
  let NF := SFNum prec emax szero in
  products_fit prec emax c lo hi lc hc -> (Z.of_nat w <= 2 ^ c)%Z -> (w mod 2 = 1)%nat -> (po + 2 <= w)%nat ->
  @savgol_coeffs_dyn _ NF lstsq md pw w po der delta = Ok cs -> Forall (ordinary prec emax lc hc) cs ->
  Forall2 (times_power prec emax k) y y' -> Forall (ordinary prec emax lo hi) y -> Forall (ordinary prec emax lo hi) y' ->
  exists out out', @savgol_filter_dyn _ NF lstsq md pw y w po der delta = Ok out /\ @savgol_filter_dyn _ NF lstsq md pw y' w po der delta = Ok out' /\
    length out = length y /\ Forall2 (times_power prec emax k) out out'.
Proof.
  intros NF (PP & CC & F1 & F2 & F3) Hw Ho Hpo Ec Oc Hy Oy Oy'.
  set (R0 := Rk prec emax k lo (bpow radix2 hi)).
  assert (HR : Forall2 R0 y y').
  { clear - Hy Oy Oy'. induction Hy as [|a b y y' Hab Hy IH]; constructor; [|apply IH; [inversion Oy|inversion Oy']; assumption].
    destruct Hab as (A & B & C). apply Forall_inv in Oy, Oy'. destruct Oy as (_ & D & E), Oy' as (_ & D' & E'). rewrite <- !P_Float.bpow_powerRZ in *.
    split; [exact A|]. split; [exact B|]. split; [exact C|]. split; [exact D|]. split; [exact D'|]. split; assumption. }
  assert (HC : Forall (fun a => Rk prec emax 0 lc (bpow radix2 hc) a a) (rev cs)).
  { apply Forall_rev. clear - Oc. induction Oc as [|a cs Ha Oc IH]; constructor; [|exact IH]. destruct Ha as (A & D & E). rewrite <- !P_Float.bpow_powerRZ in *.
    split; [exact A|]. split; [exact A|]. split; [cbn; ring|]. split; [exact D|]. split; [exact D|]. split; assumption. }
  unfold savgol_filter_dyn. rewrite Ho. cbn [Nat.eqb]. rewrite (proj2 (Nat.ltb_ge _ _) Hpo), Ec. cbn [bind].
  destruct HR as [|a b t t' Hab Ht]; [exists [], []; repeat split; constructor|].
  set (d := repeat a (w / 2 + 1) ++ t). set (d' := repeat b (w / 2 + 1) ++ t').
  assert (Rp : forall n u v, R0 u v -> Forall2 R0 (repeat u n) (repeat v n)) by (induction n; intros; cbn [repeat]; constructor; auto).
  assert (D : Forall2 R0 d d') by (apply Forall2_app; [apply Rp, Hab|exact Ht]).
  pose proof (nth_error_rel _ _ _ 0 (rev_rel _ _ _ D)) as Q.
  assert (Ne : nth_error (rev d) 0 <> None).
  { apply nth_error_Some. rewrite rev_length. unfold d. rewrite app_length, repeat_length. lia. }
  destruct (nth_error (rev d) 0) as [e|], (nth_error (rev d') 0) as [e'|]; try contradiction. cbn [unwrap bind].
  assert (D2 : Forall2 R0 (d ++ repeat e (w / 2)) (d' ++ repeat e' (w / 2))) by (apply Forall2_app; [exact D|apply Rp, Q]).
  assert (Lg : length (d ++ repeat e (w / 2)) = (length (a :: t) + w - 1)%nat).
  { unfold d. rewrite !app_length, !repeat_length. cbn [length]. pose proof (Nat.div_mod w 2 ltac:(lia)). lia. }
  set (g := d ++ repeat e (w / 2)) in *. set (g' := d' ++ repeat e' (w / 2)) in *.
  eexists _, _. split; [reflexivity|]. split; [reflexivity|]. split; [rewrite map_length; unfold windows; rewrite map_length, seq_length, Lg; cbn [length]; lia|].
  apply (map_rel (fun u v => Forall2 R0 u v /\ (length u <= w)%nat)).
  - unfold windows. assert (Lgg : length g' = length g) by (clear - D2; induction D2; cbn; congruence). rewrite Lgg. generalize (seq 0 (length g + 1 - w)). intros l. induction l as [|i l IH]; cbn [map]; constructor; [|exact IH].
    split; [apply firstn_rel, skipn_rel, D2|apply firstn_le_length].
  - intros u v [Huv Lu].
    assert (HM : Forall2 (Rk prec emax k (lo + lc) (bpow radix2 (hi + hc))) (map (fun p => SFmul prec emax (fst p) (snd p)) (zip u (rev cs))) (map (fun p => SFmul prec emax (fst p) (snd p)) (zip v (rev cs))) /\ (length (map (fun p => SFmul prec emax (fst p) (snd p)) (zip u (rev cs))) <= length u)%nat).
    { clear - Huv HC PP F1 F2 F3 CC. revert HC. generalize (rev cs). intros l HC. revert l HC. induction Huv as [|p q u v Hpq Huv IH]; intros l HC; [split; [constructor|apply le_n]|].
      destruct HC as [|s l Hs HC]; [split; [constructor|cbn; lia]|]. cbn [zip map length fst snd]. destruct (IH l HC) as [I1 I2].
      split; [|lia]. constructor; [|exact I1]. replace k with (k + 0)%Z by ring. apply (mul_Rk prec emax PP); [exact Hpq|exact Hs|lia|lia]. }
    destruct HM as [HM LM].
    eapply Rk_times, (nsum_Rk prec emax PP k (lo + lc) (hi + hc) _ _ c szero HM); lia.
Qed.
Print Assumptions C132_savgol.


(** The moving average of three f64 samples (coefficients 1/3, rounded) meets the hypotheses, with the signals of C132_ex. *)
Definition third : spec_float := S754_finite false 6004799503160661 (-54).
Definition average3_f64 : M_Linalg.mat spec_float -> list spec_float -> spec_float -> option (list spec_float) := fun _ _ _ => Some [third; third; third].
Example C132_savgol_ex : products_fit 53 1024 20 (-400) 400 (-400) 400 /\ products_fit 53 1024 2 (-2) 6 (-2) 0 /\
  @savgol_coeffs_dyn _ F64Num average3_f64 MachInt.Checked 64 3 1 None None = Ok [third; third; third] /\ Forall (ordinary 53 1024 (-2) 0) [third; third; third] /\
  Forall2 (times_power 53 1024 3) units_x units_y /\ Forall (ordinary 53 1024 (-2) 6) units_x /\ Forall (ordinary 53 1024 (-2) 6) units_y.
Proof.
  destruct C132_ex as (_ & _ & _ & A & B & C & _).
  split; [unfold products_fit, SpecFloat.emin; lia|]. split; [unfold products_fit, SpecFloat.emin; lia|]. split; [vm_compute; reflexivity|].
  split; [unfold third; repeat (constructor; [conc|]); constructor|]. split; [exact A|]. split; assumption.
Qed.
