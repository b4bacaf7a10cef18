(** Rounding error of convolution through the FFT. *)
From Coq Require Import Reals ZArith SpecFloat List Lia Lra Psatz Bool.
From Flocq Require Import Core BinarySingleNaN.
From Verif Require Import Base Num M_Linalg M_Complex M_Fourier RSum Cx S_Stats S_Float S_Fourier S_FloatFft P_Stats P_Float P_FloatStats P_Fourier P_Apx.
Import ListNotations.
Local Open Scope R_scope.

Lemma nth_map_seq' {A} (f : nat -> A) n k d : (k < n)%nat -> nth k (map f (seq 0 n)) d = f k.
Proof.
  intros H. rewrite (nth_indep _ d (f 0%nat)) by (rewrite map_length, seq_length; exact H).
  rewrite map_nth, seq_nth by exact H. reflexivity.
Qed.
Definition dftl (sg : Z) (l : list C) : list C := map (dft_at sg l) (seq 0 (length l)).
Lemma dftl_fft : is_fft (dftl (-1)).
Proof.
  intros l. unfold dftl. rewrite map_length, seq_length. split; [reflexivity|]. intros k Hk. rewrite nth_map_seq' by exact Hk.
  unfold dft_at. apply csum_ext. intros j _. do 2 f_equal; lia.
Qed.
Lemma dftl_ifft : is_ifft (dftl 1).
Proof.
  intros l. unfold dftl. rewrite map_length, seq_length. split; [reflexivity|]. intros k Hk. rewrite nth_map_seq' by exact Hk.
  unfold dft_at. apply csum_ext. intros j _. do 2 f_equal; lia.
Qed.
(** size of one Fourier sum *)
Definition csz (z : C) : R := Rabs (cre z) + Rabs (cim z).
Lemma E_parts a : Rabs (cre (E a)) <= 1 /\ Rabs (cim (E a)) <= 1.
Proof. unfold E. cbn [cre cim fst snd]. split; apply Rabs_le; [apply COS_bound|apply SIN_bound]. Qed.
Lemma unit_mul z a : Rabs (cre (z * E a)%C) <= csz z /\ Rabs (cim (z * E a)%C) <= csz z.
Proof.
  destruct (E_parts a) as [H1 H2]. destruct z as [x y]. set (w := E a) in *. destruct w as [c s]. unfold csz, cmul. cbn in *.
  pose proof (Rabs_pos x). pose proof (Rabs_pos y). pose proof (Rabs_pos c). pose proof (Rabs_pos s). split.
  - unfold Rminus. eapply Rle_trans; [apply Rabs_triang|]. rewrite Rabs_Ropp, !Rabs_mult. nra.
  - eapply Rle_trans; [apply Rabs_triang|]. rewrite !Rabs_mult. nra.
Qed.
Lemma csum_parts n f (b : nat -> R) : (forall i, (i < n)%nat -> Rabs (cre (f i)) <= b i /\ Rabs (cim (f i)) <= b i) ->
  Rabs (cre (csum n f)) <= rsum n b /\ Rabs (cim (csum n f)) <= rsum n b.
Proof.
  induction n as [|n IH]; intros H; [cbn; rewrite Rabs_R0; lra|]. cbn [csum rsum].
  destruct IH as [I1 I2]; [intros i Hi; apply H; lia|]. destruct (H n) as [H1 H2]; [lia|].
  set (s := csum n f) in *. set (t := f n) in *. destruct s as [s1 s2], t as [t1 t2]. unfold cadd. cbn in *. split; (eapply Rle_trans; [apply Rabs_triang|lra]).
Qed.
Lemma dft_size sg l k : Rabs (cre (dft_at sg l k)) <= Rsum (map csz l) /\ Rabs (cim (dft_at sg l k)) <= Rsum (map csz l).
Proof.
  rewrite Rsum_nth, map_length. unfold dft_at. apply csum_parts. intros j Hj.
  rewrite (nth_indep _ 0 (csz C0)) by (rewrite map_length; exact Hj). rewrite map_nth. apply unit_mul.
Qed.
Lemma dft_diff sg l m k : length l = length m ->
  Rabs (cre (dft_at sg l k) - cre (dft_at sg m k)) <= rsum (length m) (fun j => csz (nth j l C0 - nth j m C0)%C) /\
  Rabs (cim (dft_at sg l k) - cim (dft_at sg m k)) <= rsum (length m) (fun j => csz (nth j l C0 - nth j m C0)%C).
Proof.
  intros L. change (cre (dft_at sg l k) - cre (dft_at sg m k)) with (cre (dft_at sg l k - dft_at sg m k)%C).
  change (cim (dft_at sg l k) - cim (dft_at sg m k)) with (cim (dft_at sg l k - dft_at sg m k)%C).
  unfold dft_at. rewrite L, <- csum_minus. apply csum_parts. intros j Hj.
  replace (nth j l C0 * W (length m) (sg * (Z.of_nat j * Z.of_nat k)) - nth j m C0 * W (length m) (sg * (Z.of_nat j * Z.of_nat k)))%C
    with ((nth j l C0 - nth j m C0) * W (length m) (sg * (Z.of_nat j * Z.of_nat k)))%C by ring. apply unit_mul.
Qed.
Lemma rsum_le n f g : (forall i, (i < n)%nat -> f i <= g i) -> rsum n f <= rsum n g.
Proof. induction n as [|n IH]; intros H; cbn; [lra|]. pose proof (H n (Nat.lt_succ_diag_r n)). assert (rsum n f <= rsum n g) by (apply IH; intros; apply H; lia). lra. Qed.
Lemma Forall2_firstn {A B} (P : A -> B -> Prop) n : forall l m, Forall2 P l m -> Forall2 P (firstn n l) (firstn n m).
Proof. induction n as [|n IH]; intros l m H; [constructor|]. destruct H; cbn; [constructor|]. constructor; auto. Qed.
Lemma Forall2_skipn {A B} (P : A -> B -> Prop) n : forall l m, Forall2 P l m -> Forall2 P (skipn n l) (skipn n m).
Proof. induction n as [|n IH]; intros l m H; [exact H|]. destruct H; cbn; [constructor|]. auto. Qed.
Lemma Forall2_length' {A B} (P : A -> B -> Prop) l m : Forall2 P l m -> length l = length m.
Proof. induction 1; cbn; congruence. Qed.
Lemma Forall2_nth' {A B} (P : A -> B -> Prop) l m a b : length l = length m -> (forall i, (i < length l)%nat -> P (nth i l a) (nth i m b)) -> Forall2 P l m.
Proof.
  revert m. induction l as [|x l IH]; intros [|y m] L H; try discriminate; constructor.
  - apply (H 0%nat). cbn. lia.
  - apply IH; [injection L; auto|]. intros i Hi. apply (H (S i)). cbn. lia.
Qed.
Lemma Forall2_get {A B} (P : A -> B -> Prop) l m a b : Forall2 P l m -> forall i, (i < length l)%nat -> P (nth i l a) (nth i m b).
Proof. induction 1; intros i Hi; cbn in Hi; [lia|]. destruct i; cbn; [assumption|]. apply IHForall2. lia. Qed.

Section FFTErr.
Variables prec emax : Z.
Hypothesis Hpe : (1 < prec < emax)%Z.
Variable sz : bool.
Local Instance Hpf : Prec_gt_0 prec.
Proof. unfold Prec_gt_0. lia. Qed.
Local Instance Hef : Prec_lt_emax prec emax.
Proof. unfold Prec_lt_emax. lia. Qed.
Local Instance NF : Num spec_float := SFNum prec emax sz.
Notation u := (uround prec).
Notation g := (1 + u).
Notation FM := (fmax prec emax).
Notation tn := (ftiny prec emax).
Notation fin := (finite prec emax).
Notation z0 := (S754_zero false, S754_zero false).

(** powers of two are exact *)
Lemma pow2_ok k : (Z.of_nat k < emax)%Z -> fin (@nofZ _ NF (2 ^ Z.of_nat k)) /\ fval (@nofZ _ NF (2 ^ Z.of_nat k)) = 2 ^ k.
Proof.
  intros Hk. cbn [nofZ NF SFNum]. rewrite (normalize_equiv prec emax Hpf Hef).
  pose proof (binary_normalize_correct prec emax Hpf Hef mode_NE (2 ^ Z.of_nat k) 0 false) as C. cbv zeta in C.
  assert (V : F2R (Float radix2 (2 ^ Z.of_nat k) 0) = bpow radix2 (Z.of_nat k)) by (unfold F2R; cbn [Fnum Fexp]; change (2 ^ Z.of_nat k)%Z with (radix2 ^ Z.of_nat k)%Z; rewrite (IZR_Zpower radix2) by lia; change (bpow radix2 0) with 1; ring). rewrite V in C.
  assert (R : round radix2 (FLT_exp (SpecFloat.emin prec emax) prec) ZnearestE (bpow radix2 (Z.of_nat k)) = bpow radix2 (Z.of_nat k)).
  { apply round_generic; [apply valid_rnd_N|]. apply generic_format_bpow. unfold FLT_exp, SpecFloat.emin. lia. }
  change (SpecFloat.fexp prec emax) with (FLT_exp (SpecFloat.emin prec emax) prec) in C. cbn [round_mode] in C. rewrite R in C. rewrite Rlt_bool_true in C.
  - destruct C as [C1 [C2 _]]. destruct (B_finite prec emax _ C2) as [D1 D2]. split; [exact D1|]. rewrite D2, C1. rewrite bpow_powerRZ, <- pow_powerRZ. reflexivity.
  - rewrite Rabs_pos_eq by apply bpow_ge_0. apply bpow_lt. exact Hk.
Qed.

Lemma fzero_fin s : fin (S754_zero s). Proof. split; [reflexivity|exact I]. Qed.
Lemma copy_fin n v : Forall fin v -> Forall (cfinite prec emax) (copy_real (repeat czero n) v).
Proof.
  revert v. induction n as [|n IH]; intros v Hv; [constructor|]. cbn [repeat]. destruct Hv as [|x v Hx Hv]; cbn [copy_real].
  - constructor; [split; apply fzero_fin|]. specialize (IH [] (Forall_nil _)). destruct (repeat czero n); exact IH.
  - constructor; [split; [exact Hx|apply fzero_fin]|]. apply IH, Hv.
Qed.
Lemma copy_val n v : map cval (copy_real (repeat czero n) v) = copy_real (repeat C0 n) (map fval v).
Proof.
  revert v. induction n as [|n IH]; intros v; [reflexivity|]. cbn [repeat]. destruct v as [|x v]; cbn [copy_real map].
  - f_equal. specialize (IH []). cbn [map] in IH. destruct n; [reflexivity|]. exact IH.
  - f_equal. apply IH.
Qed.
Lemma copy_len n (v : list spec_float) : length (copy_real (repeat czero n) v) = n.
Proof. revert v. induction n as [|n IH]; intros [|x v]; cbn; auto. rewrite repeat_length. reflexivity. Qed.
Lemma csize_val l : csize l = Rsum (map csz (map cval l)).
Proof. unfold csize. rewrite map_map. reflexivity. Qed.
Lemma copy_size n v : (length v <= n)%nat -> csize (copy_real (repeat czero n) v) = Rsum (map (fun x => Rabs (fval x)) v).
Proof.
  revert v. induction n as [|n IH]; intros v L; [destruct v; [reflexivity|cbn in L; lia]|]. cbn [repeat].
  assert (Z : forall k, csize (repeat (@czero _ NF) k) = 0).
  { induction k as [|k IHk]; [reflexivity|]. unfold csize in *. cbn [repeat map]. rewrite Rsum_cons, IHk. cbn. rewrite Rabs_R0. lra. }
  destruct v as [|x v]; cbn [copy_real map]; [exact (Z (S n))|]. cbn in L. unfold csize in *. cbn [map]. rewrite !Rsum_cons, IH by lia. cbn. rewrite Rabs_R0. lra.
Qed.

Variables (eta tau cap : R) (fft ifft : list (cplx spec_float) -> list (cplx spec_float)).
Hypothesis Hf : fft_within prec emax (-1) eta tau cap fft.
Hypothesis Hi : fft_within prec emax 1 eta tau cap ifft.
Hypothesis He0 : 0 <= eta.
Hypothesis Ht0 : 0 <= tau.
Hypothesis Hcap : cap <= FM.

Section Conv.
Variables x y : list spec_float.
Hypothesis Fx : Forall fin x.
Hypothesis Fy : Forall fin y.
Hypothesis Nx : x <> [].
Hypothesis Ny : y <> [].
Hypothesis Len : (Z.of_nat (length x + length y) <= 2 ^ (emax - 1))%Z.
Notation A := (Rsum (map (fun x => Rabs (fval x)) x)).
Notation B := (Rsum (map (fun x => Rabs (fval x)) y)).
Notation M := (((1 + eta) * A + tau) * ((1 + eta) * B + tau) + tn).
Notation n := (length x + length y - 1)%nat.
Notation N := (next_power_of_two n).
Hypothesis HA : A <= cap.
Hypothesis HB : B <= cap.
Hypothesis HM1 : 4 * INR N * g ^ 2 * M <= cap.
Hypothesis HM2 : 4 * (1 + eta) * g ^ 3 * M + g * (tau + tn) <= FM.

Lemma Aabs (l : list spec_float) : 0 <= Rsum (map (fun x => Rabs (fval x)) l).
Proof. induction l as [|a l IH]; [cbn; lra|]. cbn [map]. rewrite Rsum_cons. pose proof (Rabs_pos (fval a)). lra. Qed.
Lemma n_pos : (0 < n)%nat.
Proof. destruct x as [|a l]; [contradiction|]. destruct y as [|b m]; [contradiction|]. cbn. lia. Qed.
Lemma n_le_N : (n <= N)%nat. Proof. apply log2_up_ge. Qed.
Lemma N_size : exists k, N = (2 ^ k)%nat /\ (Z.of_nat k < emax)%Z.
Proof.
  unfold next_power_of_two. exists (Nat.log2_up n). split; [reflexivity|]. pose proof n_pos.
  assert (L : (Nat.log2_up n <= Z.to_nat (emax - 1))%nat); [|lia]. apply Nat.log2_up_le_pow2; [exact H|].
  apply Nat2Z.inj_le. rewrite Nat2Z.inj_pow, Z2Nat.id by lia. change (Z.of_nat 2) with 2%Z. lia.
Qed.
Notation a := (copy_real (repeat czero N) x).
Notation b := (copy_real (repeat czero N) y).
Lemma lx_N : (length x <= N)%nat.
Proof. pose proof n_le_N. pose proof n_pos. destruct y as [|b m]; [contradiction|]. cbn [length] in *. lia. Qed.
Lemma ly_N : (length y <= N)%nat.
Proof. pose proof n_le_N. pose proof n_pos. destruct x as [|b m]; [contradiction|]. cbn [length] in *. lia. Qed.

Lemma spectrum_apx v : Forall fin v -> (length v <= N)%nat -> Rsum (map (fun x => Rabs (fval x)) v) <= cap ->
  length (fft (copy_real (repeat czero N) v)) = N /\
  forall k, (k < N)%nat ->
    let z := nth k (fft (copy_real (repeat czero N) v)) z0 in
    let X := dft_at (-1) (copy_real (repeat C0 N) (map fval v)) k in
    let S := Rsum (map (fun x => Rabs (fval x)) v) in
    apx prec emax 0 (cre z) (cre X) S ((1 + eta) * S + tau) /\ apx prec emax 0 (cim z) (cim X) S ((1 + eta) * S + tau).
Proof.
  intros Fv Lv HS. pose proof (Aabs v) as P. set (c := copy_real (repeat czero N) v) in *.
  assert (Lc : length c = N) by apply copy_len. destruct (Hf c) as [L K]; [apply copy_fin, Fv|unfold c; rewrite copy_size by exact Lv; exact HS|].
  split; [lia|]. intros k Hk. cbv zeta. destruct (K k) as [F [E1 E2]]; [lia|]. destruct F as [F1 F2].
  destruct (dft_size (-1) (map cval c) k) as [D1 D2]. rewrite <- csize_val in D1, D2. unfold c in D1, D2, E1, E2. rewrite copy_size in D1, D2, E1, E2 by exact Lv. rewrite copy_val in *. fold c in E1, E2.
  set (S := Rsum (map (fun x => Rabs (fval x)) v)) in *. assert (0 <= eta * S) by (apply Rmult_le_pos; lra).
  split; (split; [assumption|]; split; [assumption|]; split; [lra|]; cbn [pow]; lra).
Qed.
Notation pr := (map (fun p => cmul (fst p) (snd p)) (zip (fft a) (fft b))).
Notation prR := (map (fun p => cmul (fst p) (snd p)) (zip (dftl (-1) (copy_real (repeat C0 N) (map fval x))) (dftl (-1) (copy_real (repeat C0 N) (map fval y))))).
Lemma nth_map_zip_f (l m : list (cplx spec_float)) k : length l = length m -> (k < length l)%nat ->
  nth k (map (fun p => cmul (fst p) (snd p)) (zip l m)) z0 = cmul (nth k l z0) (nth k m z0).
Proof.
  revert m k. induction l as [|c l IH]; intros [|d m] k H Hk; cbn in Hk; try lia; try discriminate.
  destruct k; [reflexivity|]. cbn [zip map nth]. apply IH; [injection H; auto|lia].
Qed.
Lemma g1 : 1 <= g. Proof. pose proof (u_pos prec). lra. Qed.
Lemma M_pos : 0 <= A * B /\ A * B <= M /\ tn <= M.
Proof.
  pose proof (Aabs x). pose proof (Aabs y). pose proof (tiny_pos prec emax). assert (0 <= eta * A) by (apply Rmult_le_pos; lra). assert (0 <= eta * B) by (apply Rmult_le_pos; lra).
  assert (A * B <= ((1 + eta) * A + tau) * ((1 + eta) * B + tau)) by (apply Rmult_le_compat; lra). assert (0 <= A * B) by (apply Rmult_le_pos; lra). lra.
Qed.
Lemma N1 : 1 <= INR N.
Proof. change 1 with (INR 1). apply le_INR. pose proof n_pos. pose proof n_le_N. lia. Qed.
Lemma gM : g ^ 2 * (2 * M) <= FM.
Proof.
  pose proof M_pos as [P1 [P2 P3]]. pose proof (tiny_pos prec emax). pose proof N1. assert (G : 0 <= g ^ 2 * M) by (apply Rmult_le_pos; [apply pow2_ge_0|lra]).
  replace (g ^ 2 * (2 * M)) with (2 * (g ^ 2 * M)) by ring. replace (4 * INR N * g ^ 2 * M) with (4 * INR N * (g ^ 2 * M)) in HM1 by ring.
  eapply Rle_trans; [|eapply Rle_trans; [exact HM1|exact Hcap]]. apply Rmult_le_compat_r; lra.
Qed.
Lemma product_apx : length pr = N /\ length prR = N /\ forall k, (k < N)%nat ->
  apx prec emax 2 (cre (nth k pr z0)) (cre (nth k prR C0)) (2 * (A * B)) (2 * M) /\
  apx prec emax 2 (cim (nth k pr z0)) (cim (nth k prR C0)) (2 * (A * B)) (2 * M).
Proof.
  destruct (spectrum_apx x Fx lx_N HA) as [La Ka]. destruct (spectrum_apx y Fy ly_N HB) as [Lb Kb].
  assert (LR : forall v, length (dftl (-1) (copy_real (repeat C0 N) (map fval v))) = N) by (intros v; unfold dftl; rewrite map_length, seq_length, length_copy_real, repeat_length; reflexivity).
  split; [rewrite map_length, length_zip; lia|]. split; [rewrite map_length, length_zip, !LR; lia|]. intros k Hk.
  rewrite nth_map_zip_f by lia. rewrite nth_map_zip_cmul by (rewrite !LR; reflexivity). specialize (Ka k Hk). specialize (Kb k Hk). cbv zeta in Ka, Kb.
  unfold dftl. rewrite !nth_map_seq' by (rewrite length_copy_real, repeat_length; exact Hk).
  set (P := nth k (fft a) z0) in *. set (Q := nth k (fft b) z0) in *. set (X := dft_at _ (copy_real _ (map fval x)) k) in *. set (Y := dft_at _ (copy_real _ (map fval y)) k) in *.
  destruct Ka as [A1 A2], Kb as [B1 B2]. pose proof g1. pose proof (u_pos prec). pose proof M_pos as [P1 [P2 P3]]. pose proof (tiny_pos prec emax) as T0. pose proof gM as GM.
  assert (GM1 : g ^ (0 + 0 + 1) * M <= FM).
  { eapply Rle_trans; [|exact GM]. cbn [pow Nat.add]. replace (g * (g * 1) * (2 * M)) with (g * 1 * M * (2 * g)) by ring. rewrite <- (Rmult_1_r (g * 1 * M)) at 1.
    apply Rmult_le_compat_l; [apply Rmult_le_pos; lra|lra]. }
  replace (2 * (A * B)) with (A * B + A * B) by ring. replace (2 * M) with (M + M) by ring. replace (2 * M) with (M + M) in GM by ring.
  split.
  - unfold cmul at 1 2. cbn [cre cim fst snd]. apply (apx_sub prec emax Hpe 1); [apply (apx_mul prec emax Hpe 0 0); assumption|apply (apx_mul prec emax Hpe 0 0); assumption|exact GM].
  - unfold cmul at 1 2. cbn [cre cim fst snd].
    apply (apx_add prec emax Hpe 1); [apply (apx_mul prec emax Hpe 0 0); assumption|apply (apx_mul prec emax Hpe 0 0); assumption|exact GM].
Qed.
Lemma product_fin : Forall (cfinite prec emax) pr.
Proof.
  destruct product_apx as [L [_ K]]. apply Forall_forall. intros z Hz. apply (@In_nth (cplx spec_float) _ _ z0) in Hz. destruct Hz as [k [Hk <-]].
  rewrite L in Hk. destruct (K k Hk) as [[F1 _] [F2 _]]. split; assumption.
Qed.
Lemma product_size : csize pr <= 4 * INR N * g ^ 2 * M.
Proof.
  destruct product_apx as [L [_ K]]. unfold csize. set (f := fun z : cplx spec_float => Rabs (fval (cre z)) + Rabs (fval (cim z))).
  rewrite Rsum_nth, map_length, L. replace (4 * INR N * g ^ 2 * M) with (rsum N (fun _ => g ^ 2 * (2 * M) + g ^ 2 * (2 * M))) by (rewrite rsum_const; ring).
  apply rsum_le. intros k Hk. rewrite (nth_indep _ 0 (f z0)) by (rewrite map_length, L; exact Hk). rewrite map_nth. unfold f.
  destruct (K k Hk) as [K1 K2]. apply apx_abs in K1. apply apx_abs in K2. lra.
Qed.
Lemma result_apx : length (ifft pr) = N /\ forall i, (i < n)%nat ->
  apx prec emax 0 (cre (nth i (ifft pr) z0)) (INR N * convolution (map fval x) (map fval y) i) (4 * INR N * (A * B)) (4 * INR N * (1 + eta) * g ^ 2 * M + tau).
Proof.
  destruct product_apx as [L [LR K]]. pose proof product_size as PS. destruct (Hi pr product_fin) as [Li Ki]; [lra|]. split; [lia|]. intros i Hin.
  pose proof n_le_N as nN. destruct (Ki i) as [F [E1 _]]; [lia|]. destruct F as [F1 _].
  assert (Lm : forall v, length (map fval v) = length v) by (intros; apply map_length).
  destruct (conv_core (dftl (-1)) (dftl 1) dftl_fft dftl_ifft (map fval x) (map fval y) N i) as [_ V].
  { pose proof n_pos. lia. } { rewrite !Lm. exact nN. } { rewrite !Lm. exact Hin. }
  cbv zeta in V. unfold dftl at 1 in V. rewrite nth_map_seq' in V by lia.
  destruct (dft_diff 1 (map cval pr) prR i) as [D _]; [rewrite map_length; lia|]. rewrite LR, V in D. rewrite <- V in D |- *.
  assert (Dl : rsum N (fun j => csz (nth j (map cval pr) C0 - nth j prR C0)%C) <= INR N * (2 * (g ^ 2 * (2 * M) - 2 * (A * B)))).
  { rewrite <- rsum_const. apply rsum_le. intros k Hk. rewrite (nth_indep _ C0 (cval z0)) by (rewrite map_length, L; exact Hk). rewrite map_nth.
    destruct (K k Hk) as [[_ [_ [_ K1]]] [_ [_ [_ K2]]]]. unfold csz. unfold csub at 1 2. cbn [cre cim fst snd cval nsub RNum] in *. lra. }
  pose proof M_pos as [P1 [P2 P3]]. pose proof N1. pose proof (tiny_pos prec emax).
  assert (ABs : Rabs (cre (dft_at 1 prR i)) <= 4 * INR N * (A * B)).
  { destruct (dft_size 1 prR i) as [S1 _]. eapply Rle_trans; [exact S1|]. rewrite Rsum_nth, map_length, LR.
    replace (4 * INR N * (A * B)) with (rsum N (fun _ => 2 * (A * B) + 2 * (A * B))) by (rewrite rsum_const; ring). apply rsum_le. intros k Hk.
    rewrite (nth_indep _ 0 (csz C0)) by (rewrite map_length, LR; exact Hk). rewrite map_nth. destruct (K k Hk) as [[_ [K1 _]] [_ [K2 _]]]. unfold csz. lra. }
  assert (PG : 0 <= INR N * (g ^ 2 * M)) by (apply Rmult_le_pos; [lra|apply Rmult_le_pos; [apply pow2_ge_0|lra]]).
  assert (PG' : INR N * M <= INR N * (g ^ 2 * M)).
  { apply Rmult_le_compat_l; [lra|]. rewrite <- (Rmult_1_l M) at 1. apply Rmult_le_compat_r; [lra|]. apply pow_R1_Rle, g1. }
  assert (PN : INR N * (A * B) <= INR N * M) by (apply Rmult_le_compat_l; lra).
  assert (PE : 0 <= eta * (INR N * (g ^ 2 * M))) by (apply Rmult_le_pos; lra).
  split; [exact F1|]. split; [exact ABs|].
  replace (4 * INR N * (1 + eta) * g ^ 2 * M + tau) with (4 * (INR N * (g ^ 2 * M)) + 4 * (eta * (INR N * (g ^ 2 * M))) + tau) by ring. split; [lra|].
  set (w := fval (cre (nth i (ifft pr) z0))) in *. set (v := cre (dft_at 1 (map cval pr) i)) in *. set (t := cre (dft_at 1 prR i)) in *.
  replace (w - t) with ((w - v) + (v - t)) by ring. eapply Rle_trans; [apply Rabs_triang|].
  assert (E2 : eta * csize pr <= eta * (4 * INR N * g ^ 2 * M)) by (apply Rmult_le_compat_l; lra). cbn [pow] in *. lra.
Qed.
Definition close (r : spec_float) (c : R) : Prop :=
  fin r /\ Rabs (fval r - c) <= 4 * ((1 + eta) * g ^ 3 * M - A * B) + g * (tau + tn).
Lemma full_close : Forall2 close (map (fun z => ndiv (cre z) (nofZ (Z.of_nat N))) (firstn n (ifft pr))) (full (map fval x) (map fval y)).
Proof.
  destruct result_apx as [L K]. pose proof n_le_N as nN. assert (Lf : length (firstn n (ifft pr)) = n) by (rewrite firstn_length; lia).
  apply (Forall2_nth' _ _ _ (ndiv (cre z0) (nofZ (Z.of_nat N))) (convolution (map fval x) (map fval y) 0)).
  - unfold full. rewrite !map_length, seq_length, Lf. reflexivity.
  - rewrite map_length, Lf. intros i Hin. rewrite (map_nth (fun z : cplx spec_float => ndiv (cre z) (nofZ (Z.of_nat N)))).
    unfold full. rewrite map_nth, !map_length, seq_nth by (cbn; exact Hin). cbn [Nat.add].
    assert (Nf : nth i (firstn n (ifft pr)) z0 = nth i (ifft pr) z0).
    { rewrite <- (firstn_skipn n (ifft pr)) at 2. rewrite app_nth1 by lia. reflexivity. }
    rewrite Nf. destruct N_size as [k [Nk Hk]]. specialize (K i Hin). pose proof N1 as N1'.
    destruct (pow2_ok k Hk) as [F2 V2]. assert (EN : @nofZ _ NF (Z.of_nat N) = nofZ (2 ^ Z.of_nat k)).
    { rewrite Nk, Nat2Z.inj_pow. reflexivity. }
    assert (VN : fval (@nofZ _ NF (Z.of_nat N)) = INR N) by (rewrite EN, V2, Nk, pow_INR; reflexivity).
    assert (FN : fin (@nofZ _ NF (Z.of_nat N))) by (rewrite EN; exact F2). set (fN := @nofZ _ NF (Z.of_nat N)) in *.
    pose proof M_pos as [P1 [P2 P3]]. pose proof (tiny_pos prec emax) as T0. pose proof g1.
    assert (Q : (4 * INR N * (1 + eta) * g ^ 2 * M + tau) / INR N + tn <= 4 * (1 + eta) * g ^ 2 * M + tau + tn).
    { replace ((4 * INR N * (1 + eta) * g ^ 2 * M + tau) / INR N) with (4 * (1 + eta) * g ^ 2 * M + tau / INR N) by (field; lra).
      assert (tau / INR N <= tau); [|lra]. apply (Rmult_le_reg_r (INR N)); [lra|]. replace (tau / INR N * INR N) with tau by (field; lra). rewrite <- (Rmult_1_r tau) at 1. apply Rmult_le_compat_l; lra. }
    assert (Q3 : g ^ (0 + 1) * (4 * (1 + eta) * g ^ 2 * M + tau + tn) = 4 * (1 + eta) * g ^ 3 * M + g * (tau + tn)) by (cbn [pow Nat.add]; ring).
    assert (Ab : Rabs (fval fN) = INR N) by (rewrite VN; apply Rabs_pos_eq; lra).
    pose proof (apx_div prec emax Hpe 0 _ fN _ _ _ K FN) as D. rewrite Ab, VN in D.
    destruct D as [DF [_ [_ DE]]]; [lra| |].
    { eapply Rle_trans; [|exact HM2]. rewrite <- Q3. apply Rmult_le_compat_l; [cbn [pow Nat.add]; lra|exact Q]. }
    split; [exact DF|]. replace (INR N * convolution (map fval x) (map fval y) i / INR N) with (convolution (map fval x) (map fval y) i) in DE by (field; lra).
    eapply Rle_trans; [exact DE|].
    assert (Q4 : g ^ (0 + 1) * ((4 * INR N * (1 + eta) * g ^ 2 * M + tau) / INR N + tn) <= g ^ (0 + 1) * (4 * (1 + eta) * g ^ 2 * M + tau + tn)) by (apply Rmult_le_compat_l; [cbn [pow Nat.add]; lra|exact Q]).
    rewrite Q3 in Q4. replace (4 * INR N * (A * B) / INR N) with (4 * (A * B)) by (field; lra). lra.
Qed.
Lemma slice_close l m s e : Forall2 close l m ->
  match slice l s e, slice m s e with Ok r, Ok r' => Forall2 close r r' | Panic, Panic => True | _, _ => False end.
Proof.
  intros H. unfold slice. rewrite (Forall2_length' _ _ _ H). destruct (_ && _); [|exact I]. apply Forall2_firstn, Forall2_skipn, H.
Qed.
Lemma fftconvolve_close mode :
  match fftconvolve fft ifft x y mode, fftconvolve (dftl (-1)) (dftl 1) (map fval x) (map fval y) mode with
  | Ok r, Ok r' => Forall2 close r r' | Panic, Panic => True | _, _ => False end.
Proof.
  pose proof n_pos. rewrite (fftconvolve_eq _ _ dftl_fft dftl_ifft) by (rewrite !map_length; lia).
  unfold fftconvolve. unfold usub at 1. destruct (Nat.ltb_spec (length x + length y) 1); [lia|]. cbn [bind].
  pose proof full_close as FC. rewrite !map_length. set (fl := map _ (firstn _ _)) in *.
  destruct mode; [exact FC| |].
  - destruct (Nat.leb _ _); [|constructor]. destruct (usub (length y) 1) as [s| | |] eqn:U; cbn [bind]; try (unfold usub in U; destruct (Nat.ltb _ _); discriminate); [apply slice_close, FC|exact I].
  - destruct (usub (length y) 1) as [s| | |] eqn:U; cbn [bind]; try (unfold usub in U; destruct (Nat.ltb _ _); discriminate); [apply slice_close, FC|exact I].
Qed.
End Conv.
End FFTErr.

(** The contract can be met: the exact sums, correctly rounded. *)
Section Rounded.
Variables prec emax : Z.
Hypothesis Hpe : (1 < prec < emax)%Z.
Local Instance Hpr : Prec_gt_0 prec.
Proof. unfold Prec_gt_0. lia. Qed.
Local Instance Her : Prec_lt_emax prec emax.
Proof. unfold Prec_lt_emax. lia. Qed.
Notation fx := (FLT_exp (SpecFloat.emin prec emax) prec).
Definition rne (r : R) : spec_float :=
  SpecFloat.binary_normalize prec emax (ZnearestE (scaled_mantissa radix2 fx r)) (Generic_fmt.cexp radix2 fx r) false.
Lemma rne_ok r : Rabs r <= fmax prec emax -> finite prec emax (rne r) /\ Rabs (fval (rne r) - r) <= uround prec * Rabs r + ftiny prec emax.
Proof.
  intros Hr. unfold rne. rewrite (normalize_equiv prec emax Hpr Her).
  pose proof (binary_normalize_correct prec emax Hpr Her mode_NE (ZnearestE (scaled_mantissa radix2 fx r)) (Generic_fmt.cexp radix2 fx r) false) as K. cbv zeta in K.
  change (F2R (Float radix2 (ZnearestE (scaled_mantissa radix2 fx r)) (Generic_fmt.cexp radix2 fx r))) with (round radix2 fx ZnearestE r) in K.
  change (SpecFloat.fexp prec emax) with fx in K. cbn [round_mode] in K.
  assert (R : round radix2 fx ZnearestE (round radix2 fx ZnearestE r) = round radix2 fx ZnearestE r) by (apply round_generic; [apply valid_rnd_N|apply generic_format_round; [apply FLT_exp_valid, Hpr|apply valid_rnd_N]]).
  rewrite R, Rlt_bool_true in K by (apply rnd_bound; [exact Hpr|exact Her|exact Hr]). destruct K as [K1 [K2 _]].
  destruct (B_finite prec emax _ K2) as [D1 D2]. split; [exact D1|]. rewrite D2, K1. apply (rnd_err prec emax Hpr).
Qed.
Definition rounded_dft (sg : Z) (l : list (cplx spec_float)) : list (cplx spec_float) :=
  map (fun k => let z := dft_at sg (map cval l) k in (rne (cre z), rne (cim z))) (seq 0 (length l)).
Lemma rounded_within sg : fft_within prec emax sg (uround prec) (ftiny prec emax) (fmax prec emax) (rounded_dft sg).
Proof.
  intros l Fl Hl. unfold rounded_dft. rewrite map_length, seq_length. split; [reflexivity|]. intros k Hk. cbv zeta.
  rewrite nth_map_seq' by exact Hk. cbn [cre cim fst snd]. destruct (dft_size sg (map cval l) k) as [D1 D2]. rewrite <- csize_val in D1, D2.
  pose proof (u_pos prec). destruct (rne_ok (cre (dft_at sg (map cval l) k))) as [F1 E1]; [unfold cre in *; lra|]. destruct (rne_ok (cim (dft_at sg (map cval l) k))) as [F2 E2]; [unfold cim in *; lra|].
  split; [split; assumption|]. split; (eapply Rle_trans; [eassumption|]; apply Rplus_le_compat_r, Rmult_le_compat_l; [lra|assumption]).
Qed.
End Rounded.
