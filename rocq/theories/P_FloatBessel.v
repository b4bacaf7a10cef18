(** Rounding error of chbevl and i0e. *)
From Coq Require Import Reals ZArith QArith Qreals SpecFloat List Lia Lra Psatz Bool.
From Flocq Require Import Core BinarySingleNaN.
From Verif Require Import Base Num Trans M_Bessel S_Bessel P_Bessel S_Float P_Float P_FloatStats.
Import ListNotations.
Local Open Scope R_scope.

(** ** The exact recursion with disturbed coefficients *)
Lemma series_bound l t : -1 <= t <= 1 -> Rabs (chebyshev_series l t) <= fold_right (fun c a => Rabs c + a) 0 l.
Proof.
  intros Ht. induction l as [|c l IH]; [cbn; rewrite Rabs_R0; lra|].
  destruct l as [|c' l].
  - cbn. unfold Rdiv. rewrite Rabs_mult, (Rabs_pos_eq (/ 2)) by lra. pose proof (Rabs_pos c). lra.
  - change (chebyshev_series (c :: c' :: l) t) with (c * chebT (length (c' :: l)) t + chebyshev_series (c' :: l) t).
    change (fold_right (fun c a => Rabs c + a) 0 (c :: c' :: l)) with (Rabs c + fold_right (fun c a => Rabs c + a) 0 (c' :: l)).
    eapply Rle_trans; [apply Rabs_triang|]. apply Rplus_le_compat; [|exact IH].
    rewrite Rabs_mult. pose proof (chebT_bound (length (c' :: l)) t Ht). pose proof (Rabs_pos c). pose proof (Rabs_pos (chebT (length (c' :: l)) t)). nra.
Qed.
Lemma series_add l m t : length l = length m ->
  chebyshev_series (map (fun p => fst p + snd p) (combine l m)) t = chebyshev_series l t + chebyshev_series m t.
Proof.
  revert m. induction l as [|c l IH]; intros [|d m] L; try discriminate L; [cbn; ring|].
  destruct l as [|c' l]; destruct m as [|d' m]; try discriminate L; [cbn; field|].
  injection L as L. specialize (IH (d' :: m) ltac:(cbn; lia)).
  change (map (fun p => fst p + snd p) (combine (c :: c' :: l) (d :: d' :: m))) with ((c + d) :: (map (fun p => fst p + snd p) (combine (c' :: l) (d' :: m)))).
  set (r := map _ _) in *. assert (Lr : length r = length (c' :: l)) by (unfold r; rewrite map_length, combine_length; cbn; lia).
  change (chebyshev_series (c :: c' :: l) t) with (c * chebT (length (c' :: l)) t + chebyshev_series (c' :: l) t).
  change (chebyshev_series (d :: d' :: m) t) with (d * chebT (length (d' :: m)) t + chebyshev_series (d' :: m) t).
  assert (E : chebyshev_series ((c + d) :: r) t = (c + d) * chebT (length r) t + chebyshev_series r t) by (destruct r; [discriminate Lr|reflexivity]).
  rewrite E, Lr, IH. cbn [length]. rewrite L. ring.
Qed.
(** Clenshaw's recursion from (p, q): value and size of the accumulators. *)
(** Accumulators of the recursion; coefficients newest first. *)
Fixpoint bp (x : R) (ds : list R) : R * R :=
  match ds with
  | [] => (0, 0)
  | d :: ds' => let b := bp x ds' in (x * fst b - snd b + d, fst b)
  end.
Fixpoint Vn (x : R) (n : nat) : R := match n with O => 0 | S O => 1 | S (S m as k) => x * Vn x k - Vn x m end.
Lemma Vn_SS x n : Vn x (S (S n)) = x * Vn x (S n) - Vn x n. Proof. reflexivity. Qed.
Lemma Vn_T x n : Vn x (S (S n)) = 2 * chebT (S n) (x / 2) + Vn x n.
Proof.
  enough (H : Vn x (S (S n)) = 2 * chebT (S n) (x / 2) + Vn x n /\ Vn x (S (S (S n))) = 2 * chebT (S (S n)) (x / 2) + Vn x (S n)) by tauto.
  induction n as [|n [H1 H2]]; [cbn; split; field|]. split; [exact H2|].
  pose proof (Vn_SS x n) as E. rewrite (Vn_SS x (S (S n))), H2, (chebT_SS (S n)).
  set (t := chebT (S (S n)) (x / 2)) in *. replace (2 * (2 * (x / 2) * t - chebT (S n) (x / 2))) with (2 * (x * t) - 2 * chebT (S n) (x / 2)) by field. lra.
Qed.
Lemma Vn_bound x n : -2 <= x <= 2 -> Rabs (Vn x n) <= INR n.
Proof.
  intros Hx. enough (H : Rabs (Vn x n) <= INR n /\ Rabs (Vn x (S n)) <= INR (S n)) by tauto.
  induction n as [|n [H1 H2]]; [cbn; rewrite Rabs_R0, Rabs_R1; split; lra|]. split; [exact H2|].
  rewrite Vn_T. pose proof (chebT_bound (S n) (x / 2) ltac:(lra)) as T. eapply Rle_trans; [apply Rabs_triang|].
  rewrite Rabs_mult, (Rabs_pos_eq 2) by lra. rewrite !S_INR. lra.
Qed.
Fixpoint vsum (x : R) (i : nat) (ds : list R) : R := match ds with [] => 0 | d :: ds' => Vn x i * d + vsum x (S i) ds' end.
Lemma vsum_SS x ds : forall i, vsum x (S (S i)) ds = x * vsum x (S i) ds - vsum x i ds.
Proof. induction ds as [|d ds IH]; intros i; cbn [vsum]; [ring|]. rewrite IH, Vn_SS. ring. Qed.
Lemma bp_vsum x ds : bp x ds = (vsum x 1 ds, vsum x 0 ds).
Proof.
  induction ds as [|d ds IH]; [reflexivity|]. cbn [bp]. rewrite IH. cbn [fst snd vsum]. rewrite vsum_SS. f_equal; cbn [Vn]; ring.
Qed.
Definition S1 (ds : list R) : R := fold_right (fun c a => Rabs c + a) 0 ds.
Fixpoint S2 (ds : list R) : R := match ds with [] => 0 | d :: ds' => S2 ds' + S1 (d :: ds') end.
Lemma S1_pos ds : 0 <= S1 ds.
Proof. induction ds as [|d ds IH]; [cbn; lra|]. cbn. fold (S1 ds). pose proof (Rabs_pos d). lra. Qed.
Lemma vsum_bound x ds : -2 <= x <= 2 -> forall i, Rabs (vsum x (S i) ds) <= INR i * S1 ds + S2 ds.
Proof.
  intros Hx. induction ds as [|d ds IH]; intros i; [cbn; rewrite Rabs_R0; lra|]. cbn [vsum S2]. eapply Rle_trans; [apply Rabs_triang|].
  rewrite Rabs_mult. pose proof (Vn_bound x (S i) Hx) as V. specialize (IH (S i)). change (S1 (d :: ds)) with (Rabs d + S1 ds).
  rewrite S_INR in *. pose proof (Rabs_pos d). pose proof (S1_pos ds). nra.
Qed.
Lemma bp_bound x ds : -2 <= x <= 2 -> Rabs (fst (bp x ds)) <= S2 ds /\ Rabs (snd (bp x ds)) <= S2 ds.
Proof.
  intros Hx. rewrite bp_vsum. cbn [fst snd]. split.
  - pose proof (vsum_bound x ds Hx 0) as V. cbn [INR] in V. lra.
  - destruct ds as [|d ds]; [cbn; rewrite Rabs_R0; lra|]. cbn [vsum Vn S2]. pose proof (vsum_bound x ds Hx 0) as V. cbn [INR] in V.
    pose proof (S1_pos (d :: ds)). replace (0 * d + vsum x 1 ds) with (vsum x 1 ds) by ring. lra.
Qed.
Lemma bp_fold x l : forall ds, fold_left (chbevl_step x) l (fst (bp x ds), snd (bp x ds), snd (bp x (tl ds))) =
  (fst (bp x (rev l ++ ds)), snd (bp x (rev l ++ ds)), snd (bp x (tl (rev l ++ ds)))).
Proof.
  induction l as [|e l IH]; intros ds; [reflexivity|]. cbn [fold_left rev]. rewrite <- app_assoc. cbn [app].
  specialize (IH (e :: ds)). cbn [bp fst snd tl] in IH. rewrite <- IH. reflexivity.
Qed.
(** The final combination is the Chebyshev series of the coefficients actually used. *)
Lemma bp_series x ds : ds <> [] -> (fst (bp x ds) - snd (bp x (tl ds))) / 2 = chebyshev_series (rev ds) (x / 2).
Proof.
  intros N. pose proof (bp_fold x (rev ds) []) as E. rewrite rev_involutive, app_nil_r in E. cbn [bp fst snd tl] in E.
  pose proof (clenshaw x (rev ds) 0 0 0) as Cl. rewrite E in Cl. cbn [finish] in Cl. rewrite Cl; [ring|].
  intros Q. apply (f_equal (@rev R)) in Q. rewrite rev_involutive in Q. exact (N Q).
Qed.

(** Bounds of the accumulators and of the total disturbance, in units of 10^-9. *)
Definition sc : Z := 1000000000.
Definition cz (q : Q) : Z := (Z.abs (Qnum q) * sc / Zpos (Qden q) + 1)%Z.
Definition bnd_step (a : Z * Z * Z) (q : Q) : Z * Z * Z :=
  let '(s1, s2, k) := a in
  let t := (s2 + cz q + 1000)%Z in
  let s1' := (s1 + cz q + t / 2 ^ 19 + 1)%Z in
  (s1', s2 + s1', k + t)%Z.
Definition bnds (l : list Q) : Z * Z * Z :=
  match l with [] => (0, 0, 0)%Z | c :: _ => fold_left bnd_step l (bnd_step (0, 0, 0)%Z c) end.
Lemma cz_ok q : Rabs (Q2R q) * IZR sc <= IZR (cz q).
Proof.
  destruct q as [n d]. unfold cz, Q2R. cbn [Qnum Qden]. rewrite Rabs_mult, <- abs_IZR, (Rabs_pos_eq (/ IZR (Z.pos d))) by (left; apply Rinv_0_lt_compat, IZR_lt; reflexivity).
  assert (Dp : 0 < IZR (Z.pos d)) by (apply IZR_lt; reflexivity).
  pose proof (Z.mul_succ_div_gt (Z.abs n * sc) (Z.pos d) ltac:(lia)) as D. apply IZR_lt in D. rewrite !mult_IZR in D. rewrite succ_IZR in D. rewrite plus_IZR.
  apply (Rmult_le_reg_r (IZR (Z.pos d))); [exact Dp|]. replace (IZR (Z.abs n) * / IZR (Z.pos d) * IZR sc * IZR (Z.pos d)) with (IZR (Z.abs n) * IZR sc) by (field; lra). lra.
Qed.
Lemma cz_pos q : (0 < cz q)%Z.
Proof. unfold cz. assert (0 <= Z.abs (Qnum q) * sc / Z.pos (Qden q))%Z by (apply Z.div_pos; [unfold sc; lia|lia]). lia. Qed.
Fixpoint adist (a b : list R) : R := match a, b with x :: a', y :: b' => Rabs (x - y) + adist a' b' | _, _ => 0 end.
Lemma series_dist a b t : -1 <= t <= 1 -> length a = length b -> Rabs (chebyshev_series a t - chebyshev_series b t) <= adist a b.
Proof.
  intros Ht L.
  assert (G : chebyshev_series a t = chebyshev_series b t + chebyshev_series (map (fun p => fst p - snd p) (combine a b)) t).
  { rewrite <- series_add by (rewrite map_length, combine_length; lia). f_equal. clear Ht. revert b L.
    induction a as [|x a IH]; intros [|y b] L; try discriminate L; [reflexivity|]. cbn [combine map fst snd]. rewrite <- IH by (cbn in L; lia). f_equal. ring. }
  rewrite G. replace (_ - _) with (chebyshev_series (map (fun p => fst p - snd p) (combine a b)) t) by ring.
  eapply Rle_trans; [apply series_bound, Ht|]. clear. revert b. induction a as [|x a IH]; intros [|y b]; cbn; try lra. specialize (IH b). lra.
Qed.
Lemma adist_app a b c d : length a = length b -> adist (a ++ c) (b ++ d) = adist a b + adist c d.
Proof. revert b. induction a as [|x a IH]; intros [|y b] L; try discriminate L; cbn; [ring|]. rewrite IH by (cbn in L; lia). ring. Qed.
Lemma adist_rev a b : length a = length b -> adist (rev a) (rev b) = adist a b.
Proof.
  revert b. induction a as [|x a IH]; intros [|y b] L; try discriminate L; [reflexivity|]. cbn [rev].
  rewrite adist_app by (rewrite !rev_length; cbn in L; lia). rewrite IH by (cbn in L; lia). cbn. ring.
Qed.

Section Err.
Variables prec emax : Z.
Hypothesis Hpe : (24 <= prec < emax)%Z.
Local Instance Hp' : Prec_gt_0 prec.
Proof. unfold Prec_gt_0. lia. Qed.
Local Instance He' : Prec_lt_emax prec emax.
Proof. unfold Prec_lt_emax. lia. Qed.
Notation u := (uround prec).
Notation FM := (fmax prec emax).
Notation tn := (ftiny prec emax).
Notation fin := (finite prec emax).
Notation rnd := (round radix2 (FLT_exp (SpecFloat.emin prec emax) prec) ZnearestE).
Local Instance SFN : Num spec_float := SFNum prec emax true.
Lemma Hpe1 : (1 < prec < emax)%Z. Proof. lia. Qed.
Lemma u24 : u <= / 2 ^ 24.
Proof.
  unfold uround. rewrite <- bpow_powerRZ. replace (/ 2 ^ 24) with (bpow radix2 (-24)); [apply bpow_le; lia|]. cbn. lra.
Qed.
Lemma tn_u : 8 * tn <= u * / 2 ^ 20.
Proof.
  rewrite <- tiny_eq. unfold uround. rewrite <- bpow_powerRZ. replace (/ 2 ^ 20) with (bpow radix2 (-20)) by (cbn; lra).
  replace (8 * (/ 2 * bpow radix2 (SpecFloat.emin prec emax))) with (bpow radix2 2 * bpow radix2 (SpecFloat.emin prec emax)) by (cbn; lra).
  rewrite <- !bpow_plus. apply bpow_le. unfold SpecFloat.emin. lia.
Qed.
Lemma FM24 : 2 ^ 24 <= FM.
Proof.
  eapply Rle_trans; [|exact (FM2p prec emax Hpe1)]. rewrite <- bpow_powerRZ. replace (2 ^ 24) with (bpow radix2 24) by (cbn; lra). apply bpow_le. lia.
Qed.
Lemma sub_step x y : fin x -> fin y -> Rabs (fval x) + Rabs (fval y) <= FM ->
  fin (nsub x y) /\ Rabs (fval (nsub x y) - (fval x - fval y)) <= u * Rabs (fval x - fval y).
Proof.
  intros Fx Fy B. pose proof (Rabs_triang (fval x) (- fval y)) as T. rewrite Rabs_Ropp in T. fold (fval x - fval y) in T.
  destruct (fsub_ok prec emax Hp' He' x y Fx Fy) as [F V]; [lra|]. split; [exact F|]. change (nsub x y) with (SFsub prec emax x y). rewrite V.
  apply (add_err prec emax Hp' (fval x) (- fval y)); [apply (finite_format prec emax); assumption|apply generic_format_opp, (finite_format prec emax); assumption].
Qed.
Lemma fofQ_ok q : Rabs (Q2R q) <= FM -> fin (nofQ q) /\ fval (nofQ q) = rnd (Q2R q).
Proof.
  intros B. destruct q as [n d]. cbn [nofQ SFN SFNum Qnum Qden]. unfold Q2R in *. cbn [Qnum Qden] in *.
  assert (G : forall (s : bool) m, let v := IZR (if s then Zneg m else Zpos m) / IZR (Zpos d) in Rabs v <= FM ->
    fin (SFdiv prec emax (S754_finite s m 0) (S754_finite false d 0)) /\ fval (SFdiv prec emax (S754_finite s m 0) (S754_finite false d 0)) = rnd v).
  { intros s m v Bv. pose proof (Bdiv_correct_aux prec emax Hp' He' mode_NE s m 0 false d 0) as C. cbv zeta in C.
    assert (V : F2R (Float radix2 (cond_Zopp s (Z.pos m)) 0) / F2R (Float radix2 (cond_Zopp false (Z.pos d)) 0) = v).
    { unfold F2R. cbn [Fnum Fexp bpow]. unfold v. rewrite !Rmult_1_r. destruct s; reflexivity. }
    rewrite V in C. cbn [SFdiv].
    destruct (SFdiv_core_binary prec emax (Z.pos m) 0 (Z.pos d) 0) as [[mz ez] lz].
    rewrite round_aux_equiv. destruct C as [C1 C2]. rewrite Rlt_bool_true in C2 by (apply (rnd_bound prec emax Hp' He'); exact Bv).
    destruct C2 as [C2 [C3 _]]. split; [split; [exact C1|]|rewrite fval_SF2R; exact C2].
    destruct (BinarySingleNaN.binary_round_aux _ _ _ _ _ _ _); try discriminate C3; exact I. }
  destruct n as [|m|m].
  - split; [split; [reflexivity|exact I]|]. cbn [fval]. rewrite Rmult_0_l, round_0; [reflexivity|apply valid_rnd_N].
  - exact (G false m B).
  - exact (G true m B).
Qed.

(** One step of the recursion. *)
Lemma cheb_step h M x xh b1 b2 c ch : 0 <= h -> 0 <= M <= 1000 -> Rabs c <= 1000 ->
  fin xh -> fin b1 -> fin b2 -> fin ch -> Rabs (fval xh) <= 2 -> Rabs (fval xh - x) <= h * u ->
  Rabs (fval b1) <= M -> Rabs (fval b2) <= M -> Rabs (fval ch - c) <= u * Rabs c + tn ->
  let r := nadd (nsub (nmul xh b1) b2) ch in
  fin r /\ Rabs (fval r - (x * fval b1 - fval b2 + c)) <= (h + 9) * u * (M + Rabs c) + 3 * tn.
Proof.
  intros Hh HM Hc Fx F1 F2 Fc Bx Ex B1 B2 Ec r.
  pose proof (u0 prec) as U0. pose proof u24 as U1. pose proof (tn0 prec emax) as T0. pose proof tn_u as T1. pose proof FM24 as FMb.
  assert (U2 : u <= / 1000) by (assert (/ 2 ^ 24 <= / 1000) by (cbn; lra); lra). clear U1.
  assert (T2 : tn <= / 1000) by (assert (u * / 2 ^ 20 <= 1 / 1000 * 1) by (apply Rmult_le_compat; try lra; cbn; lra); lra).
  assert (FMc : 10000000 <= FM) by (assert (10000000 <= 2 ^ 24) by (cbn; lra); lra). clear FMb T1.
  pose proof (Rabs_pos (fval b1)) as P1. pose proof (Rabs_pos (fval xh)) as Px. pose proof (Rabs_pos c) as Pc.
  assert (BP : Rabs (fval xh * fval b1) <= 2 * M) by (rewrite Rabs_mult; nra).
  destruct (fmul_ok prec emax Hp' He' xh b1 Fx F1 ltac:(lra)) as [Fp Vp]. pose proof (rnd_err prec emax Hp' (fval xh * fval b1)) as Ep. rewrite <- Vp in Ep.
  change (SFmul prec emax xh b1) with (nmul xh b1) in *. set (p := nmul xh b1) in *.
  set (v := u * M). assert (V0 : 0 <= v) by (unfold v; nra). assert (V1 : v <= M / 1000) by (unfold v; nra).
  assert (Ep' : Rabs (fval p - fval xh * fval b1) <= 2 * v + tn) by (unfold v; nra).
  assert (Bp : Rabs (fval p) <= 2 * M + 2 * v + tn).
  { replace (fval p) with ((fval p - fval xh * fval b1) + fval xh * fval b1) by ring. eapply Rle_trans; [apply Rabs_triang|]. lra. }
  destruct (sub_step p b2 Fp F2 ltac:(lra)) as [Fs Es]. set (s := nsub p b2) in *.
  assert (Bpb : Rabs (fval p - fval b2) <= 3 * M + 2 * v + tn).
  { eapply Rle_trans; [apply Rabs_triang|]. rewrite Rabs_Ropp. lra. }
  assert (Es' : Rabs (fval s - (fval p - fval b2)) <= 3 * v + (2 * v + tn) / 1000).
  { eapply Rle_trans; [exact Es|]. apply Rle_trans with (u * (3 * M + 2 * v + tn)); [apply Rmult_le_compat_l; lra|]. unfold v at 2.
    replace (u * (3 * M + 2 * v + tn)) with (3 * (u * M) + u * (2 * v + tn)) by ring. apply Rplus_le_compat_l.
    apply Rle_trans with (/ 1000 * (2 * v + tn)); [apply Rmult_le_compat_r; lra|]. lra. }
  assert (Bs : Rabs (fval s) <= 3 * M + 6 * v + 2 * tn).
  { replace (fval s) with ((fval s - (fval p - fval b2)) + (fval p - fval b2)) by ring. eapply Rle_trans; [apply Rabs_triang|]. lra. }
  assert (Bc : Rabs (fval ch) <= Rabs c + u * Rabs c + tn).
  { replace (fval ch) with ((fval ch - c) + c) by ring. eapply Rle_trans; [apply Rabs_triang|]. lra. }
  set (w := u * Rabs c) in *. assert (W0 : 0 <= w) by (unfold w; nra). assert (W1 : w <= Rabs c / 1000) by (unfold w; nra).
  destruct (add_step prec emax Hpe1 s ch Fs Fc ltac:(lra)) as [Fr [Er _]]. change (SFadd prec emax s ch) with r in *. split; [exact Fr|].
  assert (Er' : Rabs (fval r - (fval s + fval ch)) <= 3 * v + w + (6 * v + 3 * tn + w) / 1000).
  { eapply Rle_trans; [exact Er|]. apply Rle_trans with (u * (3 * M + Rabs c + (6 * v + 3 * tn + w))); [apply Rmult_le_compat_l; lra|].
    replace (u * (3 * M + Rabs c + (6 * v + 3 * tn + w))) with (3 * v + w + u * (6 * v + 3 * tn + w)) by (unfold v, w; ring). apply Rplus_le_compat_l.
    apply Rle_trans with (/ 1000 * (6 * v + 3 * tn + w)); [apply Rmult_le_compat_r; lra|]. lra. }
  assert (Ex' : Rabs (fval xh * fval b1 - x * fval b1) <= h * v).
  { rewrite <- Rmult_minus_distr_r, Rabs_mult. unfold v. pose proof (Rabs_pos (fval xh - x)). 
    apply Rle_trans with ((h * u) * M); [apply Rmult_le_compat; lra|]. lra. }
  replace (fval r - (x * fval b1 - fval b2 + c)) with
    ((fval r - (fval s + fval ch)) + ((fval s - (fval p - fval b2)) + ((fval p - fval xh * fval b1) + ((fval xh * fval b1 - x * fval b1) + (fval ch - c))))) by ring.
  replace ((h + 9) * u * (M + Rabs c) + 3 * tn) with (h * v + 9 * v + (h * w + 9 * w) + 3 * tn) by (unfold v, w; ring).
  assert (0 <= h * w) by nra.
  eapply Rle_trans; [apply Rabs_triang|]. eapply Rle_trans; [apply Rplus_le_compat_l, Rabs_triang|].
  eapply Rle_trans; [apply Rplus_le_compat_l, Rplus_le_compat_l, Rabs_triang|].
  eapply Rle_trans; [apply Rplus_le_compat_l, Rplus_le_compat_l, Rplus_le_compat_l, Rabs_triang|]. lra.
Qed.

(** The whole recursion. *)
Definition tracked (x : R) (h : R) (a : Z * Z * Z) (f : spec_float * spec_float * spec_float) (ds cs : list R) : Prop :=
  let '(s1, s2, k) := a in let '(f0, f1, f2) := f in
  fin f0 /\ fin f1 /\ fin f2 /\ fval f0 = fst (bp x ds) /\ fval f1 = snd (bp x ds) /\ fval f2 = snd (bp x (tl ds)) /\
  length ds = length cs /\ S1 ds * IZR sc <= IZR s1 /\ S2 ds * IZR sc <= IZR s2 /\ adist ds cs * IZR sc <= (h + 9) * u * IZR k.
Lemma coef_ok q : Rabs (Q2R q) <= 1000 -> fin (nofQ q) /\ Rabs (fval (nofQ q) - Q2R q) <= u * Rabs (Q2R q) + tn.
Proof.
  intros B. pose proof FM24 as F. assert (1000 <= 2 ^ 24) by (cbn; lra). destruct (fofQ_ok q ltac:(lra)) as [F1 V]. split; [exact F1|]. rewrite V. apply (rnd_err prec emax Hp').
Qed.
Lemma scp : 0 < IZR sc. Proof. unfold sc; lra. Qed.
Lemma bnd_mono a q : let '(s1, s2, k) := a in let '(s1', s2', k') := bnd_step a q in (0 <= s1 -> 0 <= s2 -> 0 <= k -> s1 <= s1' /\ s2 <= s2' /\ k <= k')%Z.
Proof.
  destruct a as [[s1 s2] k]. cbv beta iota zeta delta [bnd_step]. intros A B C. pose proof (cz_pos q). assert (0 <= (s2 + cz q + 1000) / 2 ^ 19)%Z by (apply Z.div_pos; lia). lia.
Qed.
Lemma fold_mono l : forall a, let '(s1, s2, k) := a in let '(s1', s2', k') := fold_left bnd_step l a in (0 <= s1 -> 0 <= s2 -> 0 <= k -> s1 <= s1' /\ s2 <= s2' /\ k <= k')%Z.
Proof.
  induction l as [|q l IH]; intros a; [destruct a as [[? ?] ?]; cbn; lia|]. cbn [fold_left]. specialize (IH (bnd_step a q)). pose proof (bnd_mono a q) as M.
  destruct a as [[s1 s2] k]. destruct (bnd_step _ q) as [[s1' s2'] k']. destruct (fold_left _ l _) as [[x y] z]. lia.
Qed.
(** A disturbance of the permitted size. *)
Lemma disturb h s1 s2 k c d ds cs q : 0 <= h <= 23 -> c = Q2R q -> S1 ds * IZR sc <= IZR s1 -> S2 ds * IZR sc <= IZR s2 -> adist ds cs * IZR sc <= (h + 9) * u * IZR k ->
  (0 <= s2)%Z ->
  Rabs (d - c) <= (h + 9) * u * (IZR s2 / IZR sc + Rabs c) + 3 * tn ->
  let '(s1', s2', k') := bnd_step (s1, s2, k) q in
  S1 (d :: ds) * IZR sc <= IZR s1' /\ S2 (d :: ds) * IZR sc <= IZR s2' /\ adist (d :: ds) (c :: cs) * IZR sc <= (h + 9) * u * IZR k'.
Proof.
  intros Hh Ec H1 H2 H3 Hs2 Hd. cbn [bnd_step]. pose proof (cz_ok q) as Cq. rewrite <- Ec in Cq. pose proof scp as Sp.
  pose proof (u0 prec) as U0. pose proof u24 as U1. pose proof (tn0 prec emax) as T0. pose proof tn_u as T1.
  set (C := cz q) in *. set (t := (s2 + C + 1000)%Z).
  assert (It : IZR t = IZR s2 + IZR C + 1000) by (unfold t; rewrite !plus_IZR; reflexivity).
  assert (Tn : 3 * tn * IZR sc <= (h + 9) * u * 1000).
  { apply Rle_trans with (9 * u * 1000); [|nra]. apply Rle_trans with (u * / 2 ^ 20 * IZR sc); [apply Rmult_le_compat_r; lra|].
    rewrite Rmult_assoc. replace (9 * u * 1000) with (u * 9000) by ring. apply Rmult_le_compat_l; [lra|]. unfold sc. cbn; lra. }
  assert (Dd : Rabs (d - c) * IZR sc <= (h + 9) * u * IZR t).
  { rewrite It. apply Rle_trans with (((h + 9) * u * (IZR s2 / IZR sc + Rabs c) + 3 * tn) * IZR sc); [apply Rmult_le_compat_r; lra|].
    replace (((h + 9) * u * (IZR s2 / IZR sc + Rabs c) + 3 * tn) * IZR sc) with ((h + 9) * u * (IZR s2 + Rabs c * IZR sc) + 3 * tn * IZR sc) by (field; lra).
    replace ((h + 9) * u * (IZR s2 + IZR C + 1000)) with ((h + 9) * u * (IZR s2 + IZR C) + (h + 9) * u * 1000) by ring.
    apply Rplus_le_compat; [|exact Tn]. apply Rmult_le_compat_l; [nra|lra]. }
  assert (T0' : 0 <= IZR t) by (apply IZR_le; unfold t; pose proof (cz_pos q) as Cp; fold C in Cp; lia).
  assert (Dq : (h + 9) * u * IZR t <= IZR (t / 2 ^ 19 + 1)).
  { pose proof (Z.mul_succ_div_gt t (2 ^ 19) ltac:(lia)) as D. apply IZR_lt in D. rewrite mult_IZR, succ_IZR in D. rewrite plus_IZR.
    assert (E19 : IZR (2 ^ 19) = 2 ^ 19) by (symmetry; exact (pow_IZR 2 19)). rewrite E19 in D.
    assert (Hu : (h + 9) * u <= / 2 ^ 19).
    { apply Rle_trans with (32 * / 2 ^ 24); [apply Rmult_le_compat; lra|]. right. cbn. lra. }
    apply Rle_trans with (/ 2 ^ 19 * IZR t); [apply Rmult_le_compat_r; lra|].
    apply (Rmult_le_reg_l (2 ^ 19)); [apply pow_lt; lra|]. rewrite <- Rmult_assoc, Rinv_r, Rmult_1_l by (apply pow_nonzero; lra). lra. }
  assert (Bd : Rabs d * IZR sc <= IZR (C + t / 2 ^ 19 + 1)).
  { rewrite <- Z.add_assoc, plus_IZR. replace d with ((d - c) + c) by ring.
    apply Rle_trans with ((Rabs (d - c) + Rabs c) * IZR sc); [apply Rmult_le_compat_r; [lra|apply Rabs_triang]|]. lra. }
  assert (B1 : S1 (d :: ds) * IZR sc <= IZR (s1 + C + t / 2 ^ 19 + 1)).
  { change (S1 (d :: ds)) with (Rabs d + S1 ds). replace (s1 + C + t / 2 ^ 19 + 1)%Z with (s1 + (C + t / 2 ^ 19 + 1))%Z by ring. rewrite plus_IZR. lra. }
  split; [exact B1|]. split.
  - cbn [S2]. rewrite plus_IZR. lra.
  - cbn [adist]. rewrite plus_IZR. lra.
Qed.
Lemma cheb_run h x xh : 0 <= h <= 23 -> -2 <= x <= 2 -> fin xh -> Rabs (fval xh) <= 2 -> Rabs (fval xh - x) <= h * u ->
  forall l a f ds cs, tracked x h a f ds cs -> let '(s1, s2, k) := a in (0 <= s1)%Z -> (0 <= s2)%Z -> (0 <= k)%Z ->
  (let '(_, s2', _) := fold_left bnd_step l a in (s2' <= 999 * sc)%Z) ->
  exists ds', tracked x h (fold_left bnd_step l a) (fold_left (chbevl_step xh) (map nofQ l) f) ds' (rev (map Q2R l) ++ cs).
Proof.
  intros Hh Hx Fx Bx Ex l. induction l as [|q l IH]; intros [[s1 s2] k] [[f0 f1] f2] ds cs Tr P1 P2 P3 Hs.
  - exists ds. exact Tr.
  - cbn [fold_left map rev]. rewrite <- app_assoc. cbn [app].
    destruct Tr as [F0 [F1 [F2 [V0 [V1 [V2 [L [T1 [T2 T3]]]]]]]]].
    pose proof (bnd_mono (s1, s2, k) q) as Mo. pose proof (fold_mono l (bnd_step (s1, s2, k) q)) as Mf. pose proof scp as Sp.
    destruct (bnd_step (s1, s2, k) q) as [[s1' s2'] k'] eqn:Eb. specialize (Mo P1 P2 P3). destruct Mo as [Mo1 [Mo2 Mo3]].
    cbn [fold_left] in Hs. rewrite Eb in Hs.
    destruct (fold_left bnd_step l (s1', s2', k')) as [[e1 e2] e3] eqn:Ef. specialize (Mf ltac:(lia) ltac:(lia) ltac:(lia)).
    assert (Sz : (s2' <= 999 * sc)%Z) by lia.
    assert (C2 : (s2 + cz q <= s2')%Z).
    { cbv beta iota zeta delta [bnd_step] in Eb. injection Eb as <- <- <-. assert (0 <= (s2 + cz q + 1000) / 2 ^ 19)%Z by (apply Z.div_pos; pose proof (cz_pos q); lia). lia. }
    assert (Q1 : IZR s2 + IZR (cz q) <= 999 * IZR sc) by (rewrite <- plus_IZR, <- mult_IZR; apply IZR_le; lia).
    assert (Q2' : 0 <= IZR s2) by (apply IZR_le; exact P2). pose proof (cz_ok q) as Cq. pose proof (Rabs_pos (Q2R q)) as Pq.
    assert (Bq : Rabs (Q2R q) <= 1000) by (apply (Rmult_le_reg_r (IZR sc)); [exact Sp|]; lra).
    set (M := IZR s2 / IZR sc).
    assert (HM : 0 <= M <= 1000).
    { assert (0 < IZR (cz q)) by (apply IZR_lt, cz_pos). split; [unfold M, Rdiv; apply Rmult_le_pos; [lra|left; apply Rinv_0_lt_compat, Sp]|].
      apply (Rmult_le_reg_r (IZR sc)); [exact Sp|]. unfold M, Rdiv. rewrite Rmult_assoc, Rinv_l, Rmult_1_r by lra. lra. }
    assert (SM : S2 ds <= M).
    { apply (Rmult_le_reg_r (IZR sc)); [exact Sp|]. unfold M, Rdiv. rewrite Rmult_assoc, Rinv_l, Rmult_1_r by lra. exact T2. }
    destruct (bp_bound x ds Hx) as [B0 B1]. destruct (coef_ok q Bq) as [Fc Ec].
    destruct (cheb_step h M x xh f0 f1 (Q2R q) (nofQ q) ltac:(lra) HM Bq Fx F0 F1 Fc Bx Ex ltac:(rewrite V0; lra) ltac:(rewrite V1; lra) Ec) as [Fr Er].
    set (r := nadd (nsub (nmul xh f0) f1) (nofQ q)) in *.
    set (d := fval r - (x * fval f0 - fval f1)).
    assert (Hd : Rabs (d - Q2R q) <= (h + 9) * u * (M + Rabs (Q2R q)) + 3 * tn).
    { unfold d. replace (fval r - (x * fval f0 - fval f1) - Q2R q) with (fval r - (x * fval f0 - fval f1 + Q2R q)) by ring. exact Er. }
    pose proof (disturb h s1 s2 k (Q2R q) d ds cs q Hh eq_refl T1 T2 T3 P2 Hd) as Di. rewrite Eb in Di. destruct Di as [D1 [D2 D3]].
    rewrite <- Ef. apply (IH (s1', s2', k') (r, f0, f1) (d :: ds) (Q2R q :: cs)); try lia; [|rewrite Ef; lia].
    cbn [tracked bp fst snd tl length]. split; [exact Fr|]. split; [exact F0|]. split; [exact F1|]. split; [unfold d; rewrite V0, V1; ring|].
    split; [exact V0|]. split; [exact V1|]. split; [lia|]. split; [exact D1|]. split; [exact D2|exact D3].
Qed.
Lemma two_ok : fin (nofZ 2) /\ fval (nofZ 2) = 2.
Proof.
  apply (fofZ_ok prec emax Hp' He' 2).
  - cbn [Z.abs]. apply Z.le_trans with (2 ^ 1)%Z; [lia|]. apply Z.pow_le_mono_r; lia.
  - cbn. pose proof FM24. assert (2 <= 2 ^ 24) by (cbn; lra). lra.
Qed.
Theorem chbevl_float h x xh l : 0 <= h <= 23 -> -2 <= x <= 2 -> fin xh -> Rabs (fval xh) <= 2 -> Rabs (fval xh - x) <= h * u -> l <> [] ->
  let '(s1, s2, k) := bnds l in (s2 <= 999 * sc)%Z ->
  fin (chbevl xh (map nofQ l)) /\
  Rabs (fval (chbevl xh (map nofQ l)) - chbevl x (map Q2R l)) * IZR sc <= u * ((h + 9) * IZR k + 3 * IZR s1) + 2 * tn * IZR sc.
Proof.
  intros Hh Hx Fx Bx Ex Nl. destruct l as [|c l]; [congruence|]. unfold bnds.
  set (a0 := bnd_step (0, 0, 0)%Z c). pose proof (cheb_run h x xh Hh Hx Fx Bx Ex (c :: l) a0 (nofQ c, nzero, nzero) [fval (nofQ c)] [Q2R c]) as Run.
  pose proof scp as Sp. pose proof (u0 prec) as U0. pose proof u24 as U1. pose proof (tn0 prec emax) as T0. pose proof tn_u as T1.
  pose proof (fold_mono (c :: l) a0) as Mf. pose proof (bnd_mono (0, 0, 0)%Z c) as Mo. fold a0 in Mo.
  destruct a0 as [[p1 p2] p3] eqn:Ea. destruct (fold_left bnd_step (c :: l) (p1, p2, p3)) as [[s1 s2] k] eqn:Ef. intros Hs.
  specialize (Mo ltac:(lia) ltac:(lia) ltac:(lia)). specialize (Mf ltac:(lia) ltac:(lia) ltac:(lia)).
  pose proof (cz_ok c) as Cc. pose proof (Rabs_pos (Q2R c)) as Pc.
  assert (Bc : Rabs (Q2R c) <= 1000).
  { assert (C2 : (cz c <= p2)%Z).
    { unfold a0 in Ea. cbv beta iota zeta delta [bnd_step] in Ea. injection Ea as <- <- <-. assert (0 <= (cz c + 1000) / Z.pow_pos 2 19)%Z by (apply Z.div_pos; pose proof (cz_pos c); lia). lia. }
    assert (Q1 : IZR (cz c) <= 999 * IZR sc) by (rewrite <- mult_IZR; apply IZR_le; lia).
    apply (Rmult_le_reg_r (IZR sc)); [exact Sp|]. lra. }
  destruct (coef_ok c Bc) as [Fc Ec].
  assert (Tr : tracked x h (p1, p2, p3) (nofQ c, nzero, nzero) [fval (nofQ c)] [Q2R c]).
  { pose proof (disturb h 0 0 0 (Q2R c) (fval (nofQ c)) [] [] c Hh eq_refl) as Di. fold a0 in Di. rewrite Ea in Di.
    cbn [tracked bp fst snd tl length].
    destruct Di as [D1 [D2 D3]]; try (cbn; lra); try lia.
    - eapply Rle_trans; [exact Ec|]. unfold Rdiv. rewrite Rmult_0_l, Rplus_0_l. apply Rplus_le_compat; [|lra].
      assert (0 <= u * Rabs (Q2R c)) by nra. nra.
    - split; [exact Fc|]. split; [split; [reflexivity|exact I]|]. split; [split; [reflexivity|exact I]|].
      split; [ring|]. split; [reflexivity|]. split; [reflexivity|]. split; [reflexivity|]. split; [exact D1|]. split; [exact D2|exact D3]. }
  destruct (Run Tr ltac:(lia) ltac:(lia) ltac:(lia) Hs) as [ds Td].
  assert (CF : chbevl xh (map nofQ (c :: l)) =
    let '(b0, _, b2) := fold_left (chbevl_step xh) (map nofQ (c :: l)) (nofQ c, nzero, nzero) in ndiv (nsub b0 b2) (nofZ 2)) by reflexivity.
  rewrite CF. clear CF.
  destruct (fold_left (chbevl_step xh) (map nofQ (c :: l)) (nofQ c, nzero, nzero)) as [[f0 f1] f2] eqn:Ef2.
  destruct Td as [F0 [F1 [F2 [V0 [V1 [V2 [L [B1 [B2 B3]]]]]]]]].
  set (cs := rev (map Q2R (c :: l)) ++ [Q2R c]) in *.
  assert (Nd : ds <> []) by (intros ->; unfold cs in L; rewrite app_length in L; cbn in L; lia).
  pose proof (bp_series x ds Nd) as Se. rewrite <- V0, <- V2 in Se.
  assert (Ex0 : chbevl x (map Q2R (c :: l)) = chebyshev_series (rev cs) (x / 2)).
  { unfold cs. rewrite rev_app_distr, rev_involutive. cbn [rev app map]. rewrite chbevl_value. cbn [chebyshev_series length]. rewrite !map_length. reflexivity. }
  rewrite Ex0. set (series := chebyshev_series (rev cs) (x / 2)).
  assert (Sd : Rabs (chebyshev_series (rev ds) (x / 2) - series) * IZR sc <= (h + 9) * u * IZR k).
  { eapply Rle_trans; [|exact B3]. apply Rmult_le_compat_r; [lra|]. rewrite <- (adist_rev ds cs L). apply series_dist; [lra|rewrite !rev_length; exact L]. }
  assert (Sb : Rabs (chebyshev_series (rev ds) (x / 2)) <= S1 ds).
  { eapply Rle_trans; [apply series_bound; lra|]. right. fold (S1 (rev ds)). unfold S1. clear. induction ds as [|d ds IH]; [reflexivity|]. cbn [rev fold_right]. rewrite <- IH.
    clear. induction (rev ds) as [|e r IH]; cbn; [ring|]. rewrite IH. ring. }
  rewrite <- Se in Sd, Sb. destruct (bp_bound x ds Hx) as [G0 _]. rewrite <- V0 in G0.
  assert (G2 : Rabs (fval f2) <= S2 ds).
  { rewrite V2. destruct (bp_bound x (tl ds) Hx) as [_ G]. eapply Rle_trans; [exact G|]. destruct ds as [|r0 ds]; [contradiction Nd; reflexivity|]. cbn [tl S2]. pose proof (S1_pos (r0 :: ds)). lra. }
  assert (SM : S2 ds <= 1000).
  { apply (Rmult_le_reg_r (IZR sc)); [exact Sp|]. assert (IZR s2 <= 999 * IZR sc) by (rewrite <- mult_IZR; apply IZR_le; lia). lra. }
  pose proof FM24 as FMb. assert (10000 <= 2 ^ 24) by (cbn; lra).
  destruct (sub_step f0 f2 F0 F2 ltac:(lra)) as [Fs Es]. set (s := nsub f0 f2) in *.
  destruct two_ok as [Ft Vt]. set (m := S1 ds) in *.
  assert (Bd : Rabs (fval f0 - fval f2) <= 2 * m).
  { replace (fval f0 - fval f2) with (2 * ((fval f0 - fval f2) / 2)) by field. rewrite Rabs_mult, (Rabs_pos_eq 2) by lra. lra. }
  assert (m0 : 0 <= m) by apply S1_pos.
  assert (Eh : Rabs (fval s - (fval f0 - fval f2)) <= 2 * (u * m)) by (eapply Rle_trans; [exact Es|]; nra).
  assert (U3 : u <= / 10) by (assert (/ 2 ^ 24 <= / 10) by (cbn; lra); lra).
  assert (Um : 0 <= u * m <= m / 10) by (split; nra).
  assert (Bs : Rabs (fval s) <= 2 * m + 2 * (u * m)).
  { replace (fval s) with ((fval s - (fval f0 - fval f2)) + (fval f0 - fval f2)) by ring. eapply Rle_trans; [apply Rabs_triang|]. lra. }
  assert (Bm : m <= 1000).
  { eapply Rle_trans; [|exact SM]. unfold m. destruct ds as [|r0 ds]; [contradiction Nd; reflexivity|]. cbn [S2]. assert (0 <= S2 ds); [|lra].
    clear. induction ds as [|d ds IH]; [cbn; lra|]. cbn [S2]. pose proof (S1_pos (d :: ds)). lra. }
  assert (H2 : Rabs (fval s / 2) <= m + u * m).
  { unfold Rdiv. rewrite Rabs_mult, (Rabs_pos_eq (/ 2)) by lra. lra. }
  destruct (fdiv_ok prec emax Hp' He' s (nofZ 2) Fs Ft ltac:(rewrite Vt; lra) ltac:(rewrite Vt; lra)) as [Fr Vr]. rewrite Vt in Vr.
  change (SFdiv prec emax s (nofZ 2)) with (ndiv s (nofZ 2)) in *. split; [exact Fr|].
  pose proof (rnd_err prec emax Hp' (fval s / 2)) as Er. rewrite <- Vr in Er. set (r := ndiv s (nofZ 2)) in *.
  assert (Er' : Rabs (fval r - fval s / 2) <= 2 * (u * m) + tn).
  { eapply Rle_trans; [exact Er|]. apply Rplus_le_compat_r. apply Rle_trans with (u * (m + u * m)); [apply Rmult_le_compat_l; lra|]. nra. }
  apply Rle_trans with ((3 * (u * m) + tn + Rabs ((fval f0 - fval f2) / 2 - series)) * IZR sc).
  - apply Rmult_le_compat_r; [lra|].
    replace (fval r - series) with ((fval r - fval s / 2) + ((fval s - (fval f0 - fval f2)) / 2 + ((fval f0 - fval f2) / 2 - series))) by field.
    eapply Rle_trans; [apply Rabs_triang|]. eapply Rle_trans; [apply Rplus_le_compat_l, Rabs_triang|].
    assert (Q : Rabs ((fval s - (fval f0 - fval f2)) / 2) <= u * m) by (unfold Rdiv; rewrite Rabs_mult, (Rabs_pos_eq (/ 2)) by lra; lra). lra.
  - assert (K3 : u * m * IZR sc <= u * IZR s1) by (rewrite Rmult_assoc; apply Rmult_le_compat_l; lra). nra.
Qed.
End Err.
