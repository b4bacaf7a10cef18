(** Rounding error of resampling. *)
From Coq Require Import Reals ZArith SpecFloat List Lia Lra Psatz Bool.
From Flocq Require Import Core BinarySingleNaN.
From Verif Require Import Base Num M_Linalg M_Complex M_Fourier RSum Cx S_Stats S_Float S_Fourier S_FloatFft P_Stats P_Float P_FloatStats P_Fourier P_Resample P_Apx P_FloatFft.
Import ListNotations.
Local Open Scope R_scope.

Definition gspread {A} (z : A) (X : list A) (n : nat) : list A :=
  let h := (Nat.min (length X) n / 2)%nat in
  firstn h X ++ repeat z (n - 2 * h) ++ skipn (length X - h) X.
Lemma resample_gunfold {F} (NF : Num F) fft ifft (x : list F) n :
  resample fft ifft x n =
  let X := fft (map (fun v => (v, nzero)) x) in
  Ok (map (fun v => nmul (cre v) (ndiv none (nofZ (Z.of_nat (length X))))) (ifft (gspread czero X n))).
Proof.
  cbv zeta. unfold resample.
  set (X := fft (map (fun v : F => (v, nzero)) x)). cbv zeta.
  set (h := (Nat.min (length X) n / 2)%nat).
  pose proof (half_le (length X) n) as [H1 H2]. fold h in H1, H2.
  unfold slice at 1. destruct (Nat.leb_spec 0 h); [|lia]. destruct (Nat.leb_spec h (length X)); [|lia].
  cbn [andb bind]. rewrite Nat.sub_0_r. change (skipn 0 X) with X.
  assert (LF : length (firstn h X) = h) by (rewrite firstn_length; lia).
  unfold copy_at at 1. rewrite LF, Nat.sub_0_r, Nat.eqb_refl.
  destruct (Nat.leb_spec 0 h); [|lia]. rewrite repeat_length. destruct (Nat.leb_spec h n); [|lia].
  cbn [andb bind firstn app].
  unfold usub at 1. destruct (Nat.ltb_spec n h); [lia|]. cbn [bind].
  unfold usub at 1. destruct (Nat.ltb_spec (length X) h); [lia|]. cbn [bind].
  unfold slice at 1. destruct (Nat.leb_spec (length X - h) (length X)); [|lia]. rewrite Nat.leb_refl. cbn [andb bind].
  replace (length X - (length X - h))%nat with h by lia.
  assert (LS : length (skipn (length X - h) X) = h) by (rewrite skipn_length; lia).
  rewrite (firstn_all2 (n := h) (skipn (length X - h) X)) by lia.
  assert (SR : skipn h (repeat (@czero F NF) n) = repeat czero (n - h)).
  { replace n with (h + (n - h))%nat at 1 by lia. rewrite repeat_app, skipn_app, repeat_length, Nat.sub_diag.
    rewrite skipn_all2 by (rewrite repeat_length; lia). reflexivity. }
  rewrite SR. assert (LY : length (firstn h X ++ repeat (@czero F NF) (n - h)) = n) by (rewrite app_length, LF, repeat_length; lia).
  unfold copy_at. rewrite LY, LS. destruct (Nat.leb_spec (n - h) n); [|lia]. rewrite Nat.leb_refl.
  replace (n - (n - h))%nat with h by lia. rewrite Nat.eqb_refl. cbn [andb bind].
  rewrite (skipn_all2 (n := n)) by lia. rewrite app_nil_r.
  assert (FR : firstn (n - h) (firstn h X ++ repeat (@czero F NF) (n - h)) = firstn h X ++ repeat czero (n - 2 * h)).
  { rewrite firstn_app, LF. rewrite (firstn_all2 (n := (n - h)%nat)) by lia. f_equal.
    replace (n - h)%nat with ((n - 2 * h) + h)%nat at 2 by lia. rewrite repeat_app, firstn_app, repeat_length.
    replace (n - h - h - (n - 2 * h))%nat with 0%nat by lia.
    rewrite firstn_all2 by (rewrite repeat_length; lia). cbn [firstn]. apply app_nil_r. }
  rewrite FR. unfold gspread. fold h. rewrite <- app_assoc. reflexivity.
Qed.
Lemma gspread_length {A} (z : A) X n : length (gspread z X n) = n.
Proof.
  unfold gspread. pose proof (half_le (length X) n) as [H1 H2].
  rewrite !app_length, firstn_length, repeat_length, skipn_length. lia.
Qed.
Lemma nth_skipn' {A} (d : A) k : forall l i, nth i (skipn k l) d = nth (k + i) l d.
Proof. induction k as [|k IH]; intros l i; [reflexivity|]. destruct l as [|a l]; [destruct i; reflexivity|]. cbn [skipn Nat.add nth]. apply IH. Qed.
Lemma nth_firstn' {A} (d : A) l k i : (i < k)%nat -> nth i (firstn k l) d = nth i l d.
Proof. revert l i. induction k as [|k IH]; intros l i H; [lia|]. destruct l as [|a l]; [reflexivity|]. destruct i; [reflexivity|]. cbn [firstn nth]. apply IH. lia. Qed.
(** every position of the result is a position of the spectrum or zero *)
Definition src (L n k : nat) : option nat :=
  let h := (Nat.min L n / 2)%nat in
  if Nat.ltb k h then Some k else if Nat.ltb k (n - h) then None else Some (L - h + (k - (n - h)))%nat.
Lemma src_lt L n k j : (k < n)%nat -> src L n k = Some j -> (j < L)%nat.
Proof.
  intros Hk. unfold src. pose proof (half_le L n) as [H1 H2]. set (h := (Nat.min L n / 2)%nat) in *.
  destruct (Nat.ltb_spec k h); [injection 1 as <-; lia|]. destruct (Nat.ltb_spec k (n - h)); [discriminate|]. injection 1 as <-. lia.
Qed.
Lemma gspread_nth {A} (z : A) X n k : (k < n)%nat ->
  nth k (gspread z X n) z = match src (length X) n k with Some j => nth j X z | None => z end.
Proof.
  intros Hk. unfold gspread, src. pose proof (half_le (length X) n) as [H1 H2]. set (h := (Nat.min (length X) n / 2)%nat) in *.
  assert (LF : length (firstn h X) = h) by (rewrite firstn_length; lia).
  destruct (Nat.ltb_spec k h); [rewrite app_nth1 by lia; apply nth_firstn'; lia|]. rewrite app_nth2 by lia. rewrite LF.
  destruct (Nat.ltb_spec k (n - h)); [rewrite app_nth1 by (rewrite repeat_length; lia); apply nth_repeat|].
  rewrite app_nth2 by (rewrite repeat_length; lia). rewrite repeat_length, nth_skipn'. f_equal. lia.
Qed.
Lemma rsum_ends L n (f : nat -> R) b : 0 <= b -> (forall k, (k < n)%nat -> match src L n k with Some _ => f k <= b | None => f k <= 0 end) ->
  rsum n f <= INR (2 * (Nat.min L n / 2)) * b.
Proof.
  intros Hb H. unfold src in H. pose proof (half_le L n) as [H1 H2]. set (h := (Nat.min L n / 2)%nat) in *.
  replace n with (h + ((n - 2 * h) + h))%nat at 1 by lia. rewrite !rsum_add.
  assert (Q1 : rsum h f <= INR h * b).
  { rewrite <- rsum_const. apply rsum_le. intros i Hi. specialize (H i). destruct (Nat.ltb_spec i h); [|lia]. apply H. lia. }
  assert (Q2 : rsum (n - 2 * h) (fun i => f (h + i)%nat) <= INR (n - 2 * h) * 0).
  { rewrite <- rsum_const. apply rsum_le. intros i Hi. specialize (H (h + i)%nat). destruct (Nat.ltb_spec (h + i) h); [lia|]. destruct (Nat.ltb_spec (h + i) (n - h)); [|lia]. apply H. lia. }
  assert (Q3 : rsum h (fun i => f (h + (n - 2 * h + i))%nat) <= INR h * b).
  { rewrite <- rsum_const. apply rsum_le. intros i Hi. specialize (H (h + (n - 2 * h + i))%nat). destruct (Nat.ltb_spec (h + (n - 2 * h + i)) h); [lia|]. destruct (Nat.ltb_spec (h + (n - 2 * h + i)) (n - h)); [lia|]. apply H. lia. }
  rewrite mult_INR. change (INR 2) with 2. lra.
Qed.

Section ResErr.
Variables prec emax : Z.
Hypothesis Hpe : (1 < prec < emax)%Z.
Variable sz : bool.
Local Instance Hpq : Prec_gt_0 prec.
Proof. unfold Prec_gt_0. lia. Qed.
Local Instance Heq : Prec_lt_emax prec emax.
Proof. unfold Prec_lt_emax. lia. Qed.
Local Instance NFq : Num spec_float := SFNum prec emax sz.
Notation u := (uround prec).
Notation g := (1 + u).
Notation FM := (fmax prec emax).
Notation tn := (ftiny prec emax).
Notation fin := (finite prec emax).
Notation z0 := (@czero spec_float NFq).
Variables (eta tau cap : R) (fft ifft : list (cplx spec_float) -> list (cplx spec_float)).
Hypothesis Hf : fft_within prec emax (-1) eta tau cap fft.
Hypothesis Hi : fft_within prec emax 1 eta tau cap ifft.
Hypothesis He0 : 0 <= eta.
Hypothesis Ht0 : 0 <= tau.
Variables (x : list spec_float) (n : nat).
Hypothesis Fx : Forall fin x.
Hypothesis Nx : x <> [].
Notation L := (length x).
Hypothesis Len : (Z.of_nat L <= 2 ^ prec)%Z.
Notation A := (Rsum (map (fun x => Rabs (fval x)) x)).
Notation A1 := ((1 + eta) * A + tau).
Notation b := (INR (2 * (Nat.min L n / 2))).
Notation V := (2 * b * (1 + eta) * A1 + tau).
Hypothesis HA : A <= cap.
Hypothesis HC : 2 * b * A1 <= cap.
Hypothesis HM : g ^ 2 * (V * (/ INR L + tn) + tn) <= FM.
Notation a := (map (fun v => (v, nzero)) x : list (cplx spec_float)).
Notation aR := (map (fun v => (fval v, 0)) x : list C).
Notation X := (fft a).
Notation XR := (dftl (-1) aR).

Lemma a_val : map cval a = aR.
Proof. rewrite map_map. reflexivity. Qed.
Lemma a_size : csize a = A.
Proof. unfold csize. rewrite map_map. f_equal. apply map_ext. intros v. cbn. rewrite Rabs_R0. lra. Qed.
Lemma A0 : 0 <= A. Proof. apply Aabs. Qed.
Lemma A01 : 0 <= eta * A. Proof. apply Rmult_le_pos; [exact He0|exact A0]. Qed.
Lemma X_apx : length X = L /\ length XR = L /\ forall k, (k < L)%nat ->
  apx prec emax 0 (cre (nth k X z0)) (cre (nth k XR C0)) A A1 /\ apx prec emax 0 (cim (nth k X z0)) (cim (nth k XR C0)) A A1.
Proof.
  assert (Fa : Forall (cfinite prec emax) a).
  { apply Forall_forall. intros z Hz. apply in_map_iff in Hz. destruct Hz as [v [<- Hv]]. split; [exact (proj1 (Forall_forall _ _) Fx v Hv)|apply (fzero_fin prec emax)]. }
  destruct (Hf a Fa) as [LX K]; [rewrite a_size; exact HA|]. rewrite map_length in LX. split; [exact LX|]. split; [unfold dftl; rewrite !map_length, seq_length; reflexivity|].
  intros k Hk. destruct (K k) as [[F1 F2] [E1 E2]]; [rewrite map_length; exact Hk|]. rewrite a_size, a_val in *.
  unfold dftl. rewrite nth_map_seq' by (rewrite map_length; exact Hk). destruct (dft_size (-1) aR k) as [D1 D2].
  assert (Sz : Rsum (map csz aR) = A) by (rewrite <- a_val, <- csize_val, a_size; reflexivity). rewrite Sz in D1, D2. pose proof A0. pose proof A01.
  change (S754_zero false, S754_zero false) with z0 in E1, E2, F1, F2.
  split; (split; [assumption|]; split; [assumption|]; split; [lra|]; cbn [pow]; lra).
Qed.
Notation Y := (gspread z0 X n).
Notation YR := (gspread C0 XR n).
Lemma Y_apx k : (k < n)%nat -> match src L n k with
  | Some _ => apx prec emax 0 (cre (nth k Y z0)) (cre (nth k YR C0)) A A1 /\ apx prec emax 0 (cim (nth k Y z0)) (cim (nth k YR C0)) A A1
  | None => nth k Y z0 = z0 /\ nth k YR C0 = C0 end.
Proof.
  destruct X_apx as [LX [LR K]]. intros Hk. rewrite !gspread_nth by exact Hk. rewrite LX, LR. pose proof (src_lt L n k) as S.
  destruct (src L n k) as [j|]; [|split; reflexivity]. apply K. apply S; [exact Hk|reflexivity].
Qed.
Lemma b0 : 0 <= b. Proof. apply pos_INR. Qed.
Lemma Y_fin : Forall (cfinite prec emax) Y.
Proof.
  apply Forall_forall. intros z Hz. apply (@In_nth (cplx spec_float) _ _ z0) in Hz. destruct Hz as [k [Hk <-]]. rewrite gspread_length in Hk.
  pose proof (Y_apx k Hk) as Q. destruct (src L n k); [destruct Q as [[F1 _] [F2 _]]; split; assumption|]. destruct Q as [-> _]. split; apply (fzero_fin prec emax).
Qed.
Lemma Y_size : csize Y <= 2 * b * A1.
Proof.
  unfold csize. set (f := fun z : cplx spec_float => Rabs (fval (cre z)) + Rabs (fval (cim z))).
  rewrite Rsum_nth, map_length, gspread_length. replace (2 * b * A1) with (b * (2 * A1)) by ring. pose proof A0. pose proof A01. apply rsum_ends; [lra|].
  intros k Hk. rewrite (nth_indep _ 0 (f z0)) by (rewrite map_length, gspread_length; exact Hk). rewrite map_nth. pose proof (Y_apx k Hk) as Q. unfold f.
  destruct (src L n k).
  - destruct Q as [Q1 Q2]. apply apx_abs in Q1. apply apx_abs in Q2. cbn [pow] in *. lra.
  - destruct Q as [-> _]. cbn. rewrite Rabs_R0. lra.
Qed.
Lemma out_apx : length (ifft Y) = n /\ forall i, (i < n)%nat ->
  apx prec emax 0 (cre (nth i (ifft Y) z0)) (cre (nth i (dftl 1 YR) C0)) (2 * b * A) V.
Proof.
  pose proof Y_size as PS. pose proof A0. pose proof A01. pose proof b0. destruct (Hi Y Y_fin) as [Li Ki]; [lra|]. rewrite gspread_length in Li. split; [exact Li|]. intros i Hin.
  destruct (Ki i) as [[F1 _] [E1 _]]; [rewrite gspread_length; exact Hin|]. unfold dftl at 1. rewrite nth_map_seq' by (rewrite gspread_length; exact Hin).
  destruct (dft_diff 1 (map cval Y) YR i) as [D _]; [rewrite map_length, !gspread_length; reflexivity|]. rewrite gspread_length in D.
  assert (Dl : rsum n (fun j => csz (nth j (map cval Y) C0 - nth j YR C0)%C) <= b * (2 * (A1 - A))).
  { apply rsum_ends; [lra|]. intros k Hk. rewrite (nth_indep _ C0 (cval z0)) by (rewrite map_length, gspread_length; exact Hk). rewrite map_nth.
    pose proof (Y_apx k Hk) as Q. destruct (src L n k).
    - destruct Q as [[_ [_ [_ K1]]] [_ [_ [_ K2]]]]. unfold csz. unfold csub at 1 2. cbn [cre cim fst snd cval nsub RNum pow] in *. lra.
    - destruct Q as [-> ->]. unfold csz. cbn. rewrite !Rminus_0_r, Rabs_R0. lra. }
  assert (ABs : Rabs (cre (dft_at 1 YR i)) <= 2 * b * A).
  { destruct (dft_size 1 YR i) as [S1 _]. eapply Rle_trans; [exact S1|]. rewrite Rsum_nth, map_length, gspread_length.
    replace (2 * b * A) with (b * (2 * A)) by ring. apply rsum_ends; [lra|]. intros k Hk.
    rewrite (nth_indep _ 0 (csz C0)) by (rewrite map_length, gspread_length; exact Hk). rewrite map_nth. pose proof (Y_apx k Hk) as Q. destruct (src L n k).
    - destruct Q as [[_ [K1 _]] [_ [K2 _]]]. unfold csz. lra.
    - destruct Q as [_ ->]. unfold csz. cbn. rewrite Rabs_R0. lra. }
  assert (P1 : 0 <= b * (eta * A)) by (apply Rmult_le_pos; lra). assert (P2 : 0 <= b * tau) by (apply Rmult_le_pos; lra). assert (P4 : 0 <= b * A) by (apply Rmult_le_pos; lra).
  assert (P3 : 0 <= eta * (2 * b * A1)) by (apply Rmult_le_pos; [lra|]; apply Rmult_le_pos; lra).
  split; [exact F1|]. split; [exact ABs|]. replace V with (2 * b * A1 + eta * (2 * b * A1) + tau) by ring. split; [nra|].
  set (w := fval (cre (nth i (ifft Y) _))) in *. set (v := cre (dft_at 1 (map cval Y) i)) in *. set (t := cre (dft_at 1 YR i)) in *.
  replace (w - t) with ((w - v) + (v - t)) by ring. eapply Rle_trans; [apply Rabs_triang|].
  assert (E2 : eta * csize Y <= eta * (2 * b * A1)) by (apply Rmult_le_compat_l; lra).
  assert (E1' : Rabs (w - v) <= eta * csize Y + tau) by exact E1. cbn [pow]. lra.
Qed.
Definition rclose (r : spec_float) (c : R) : Prop := fin r /\ Rabs (fval r - c) <= g ^ 2 * (V * (/ INR L + tn) + tn) - 2 * b * A / INR L.
Lemma L1 : 1 <= INR L.
Proof. change 1 with (INR 1). apply le_INR. destruct x; [contradiction|cbn; lia]. Qed.
Lemma resample_close : exists r r', resample fft ifft x n = Ok r /\ @resample R RNum (dftl (-1)) (dftl 1) (map fval x) n = Ok r' /\ length r = n /\ Forall2 rclose r r'.
Proof.
  rewrite !resample_gunfold. cbv zeta. rewrite map_map. change (@nzero R RNum) with 0. destruct X_apx as [LX [LR _]]. rewrite LX, LR.
  destruct out_apx as [LO K]. eexists. eexists. split; [reflexivity|]. split; [reflexivity|]. rewrite map_length. split; [exact LO|].
  assert (LR' : length (dftl 1 YR) = n) by (unfold dftl; rewrite map_length, seq_length; apply gspread_length).
  set (fs := ndiv none (nofZ (Z.of_nat L))). set (fr := @ndiv R RNum none (nofZ (Z.of_nat L))).
  pose proof L1 as L1'. pose proof (u_pos prec) as U. pose proof (tiny_pos prec emax) as T0.
  apply (Forall2_nth' _ _ _ (nmul (cre z0) fs) (cre C0 * fr)); [rewrite !map_length, LO, LR'; reflexivity|].
  rewrite map_length, LO. intros i Hin. rewrite (map_nth (fun v : cplx spec_float => nmul (cre v) fs)). change (@nmul R RNum) with Rmult. rewrite (map_nth (fun v : C => cre v * fr)).
  specialize (K i Hin). set (w := nth i (ifft Y) z0) in *. set (v := nth i (dftl 1 YR) C0) in *.
  (* the factor *)
  destruct (count_ok prec emax Hpe L Len) as [FL VL].
  destruct (fofZ_ok prec emax Hpq Heq 1) as [F1 V1]. { cbn. change 1%Z with (2 ^ 0)%Z. apply Z.pow_le_mono_r; lia. } { cbn. pose proof (FM4 prec emax Hpe). lra. }
  assert (Vr : fr = 1 / INR L) by (unfold fr; cbn [ndiv none nofZ RNum]; rewrite <- INR_IZR_INZ; reflexivity).
  assert (P0 : 0 <= A1) by (pose proof A0; pose proof A01; lra). pose proof b0 as B0.
  assert (IL : 0 < / INR L) by (apply Rinv_0_lt_compat; lra).
  assert (V0 : 0 <= V).
  { assert (0 <= 2 * b * (1 + eta) * A1); [|lra]. repeat apply Rmult_le_pos; lra. }
  assert (Q : apx prec emax 1 fs (1 / INR L) (/ INR L) (/ INR L + tn)).
  { assert (AA : Rabs 1 = 1) by (apply Rabs_pos_eq; lra). assert (AL : Rabs (fval (SpecFloat.binary_normalize prec emax (Z.of_nat L) 0 false)) = INR L) by (rewrite VL; apply Rabs_pos_eq; lra).
    pose proof (apx_div prec emax Hpe 0 (SpecFloat.binary_normalize prec emax 1 0 false) (SpecFloat.binary_normalize prec emax (Z.of_nat L) 0 false) 1 1 1) as D.
    rewrite AL, VL in D. unfold Rdiv in D |- *. rewrite (Rmult_1_l (/ INR L)) in D |- *. unfold fs. apply D; [|exact FL|lra|].
    - replace 1 with (fval (SpecFloat.binary_normalize prec emax 1 0 false)) at 1 by exact V1. apply apx_exact; [exact F1|]. rewrite V1. lra.
    - pose proof (FM4 prec emax Hpe). pose proof (u14 prec emax Hpe). pose proof (tn1 prec emax Hpe).
      assert (/ INR L <= 1) by (rewrite <- Rinv_1; apply Rinv_le_contravar; lra). cbn [Nat.add pow]. nra. }
  destruct (apx_mul prec emax Hpe 0 1 (cre w) fs (cre v) (1 / INR L) (2 * b * A) (/ INR L) V (/ INR L + tn) K Q) as [DF [_ [_ DE]]]; [exact HM|].
  split; [exact DF|]. rewrite Vr. exact DE.
Qed.
End ResErr.
