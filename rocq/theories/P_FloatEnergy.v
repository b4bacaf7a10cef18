(** Minkowski's inequality, and from the rounding bound of a filter to energies. *)
From Coq Require Import List Arith ZArith Reals SpecFloat Lra Lia.
From Verif Require Import Base Num Trans M_Filter S_Float S_Energy S_FloatEnergy P_Sosfilt P_Float P_FloatStats P_FloatZi.
Import ListNotations.
Local Open Scope R_scope.

Lemma energy_nonneg x : 0 <= energy x.
Proof. induction x as [|v x IH]; [cbn; lra|]. cbn [energy fold_right]. fold (energy x). pose proof (pow2_ge_0 v). lra. Qed.
Definition dot (x y : list R) : R := fold_right (fun p s => fst p * snd p + s) 0 (combine x y).
Lemma cauchy x : forall y, length y = length x -> dot x y ^ 2 <= energy x * energy y.
Proof.
  induction x as [|a x IH]; intros [|b y] L; try discriminate L; [cbn; lra|]. injection L as L. specialize (IH y L).
  unfold dot in *. cbn [combine fold_right fst snd energy]. fold (energy x) (energy y). set (d := fold_right _ 0 (combine x y)) in *.
  pose proof (energy_nonneg x) as P. pose proof (energy_nonneg y) as Q. set (p := energy x) in *. set (q := energy y) in *.
  assert (M : 2 * (a * b * d) <= a ^ 2 * q + p * b ^ 2).
  { assert (0 <= a ^ 2 * q + p * b ^ 2) by (pose proof (pow2_ge_0 a); pose proof (pow2_ge_0 b); nra).
    apply Rsqr_incr_0_var; [|assumption]. unfold Rsqr. pose proof (pow2_ge_0 (a ^ 2 * q - p * b ^ 2)) as S. pose proof (pow2_ge_0 (a * b)) as T.
    assert ((a * b) ^ 2 * d ^ 2 <= (a * b) ^ 2 * (p * q)) by (apply Rmult_le_compat_l; assumption). nra. }
  nra.
Qed.
Lemma energy_add x : forall e, length e = length x -> energy (map (fun p => fst p + snd p) (combine x e)) = energy x + 2 * dot x e + energy e.
Proof.
  induction x as [|a x IH]; intros [|b e] L; try discriminate L; [cbn; lra|]. injection L as L. specialize (IH e L). unfold dot in *. cbn [combine map fold_right fst snd energy] in *.
  fold (energy x) (energy e) (energy (map (fun p => fst p + snd p) (combine x e))). rewrite IH. ring.
Qed.
Lemma minkowski x e : length e = length x -> norm2 (map (fun p => fst p + snd p) (combine x e)) <= norm2 x + norm2 e.
Proof.
  intros L. unfold norm2. pose proof (energy_nonneg x) as P. pose proof (energy_nonneg e) as Q.
  apply Rsqr_incr_0_var; [|pose proof (sqrt_pos (energy x)); pose proof (sqrt_pos (energy e)); lra]. unfold Rsqr. rewrite sqrt_sqrt by apply energy_nonneg.
  rewrite energy_add by exact L. pose proof (sqrt_sqrt _ P) as A. pose proof (sqrt_sqrt _ Q) as B. pose proof (sqrt_pos (energy x)) as A0. pose proof (sqrt_pos (energy e)) as B0.
  set (p := sqrt (energy x)) in *. set (q := sqrt (energy e)) in *. pose proof (cauchy x e L) as C. rewrite <- A, <- B in C.
  assert (dot x e <= p * q) by (apply Rsqr_incr_0_var; [unfold Rsqr; nra|nra]). nra.
Qed.
Lemma energy_flat e d : 0 <= d -> Forall (fun v => Rabs v <= d) e -> energy e <= INR (length e) * d ^ 2.
Proof.
  intros Hd. induction 1 as [|v e Hv F IH]; [cbn; lra|]. cbn [energy fold_right length]. fold (energy e). rewrite S_INR.
  assert (v ^ 2 <= d ^ 2) by (rewrite <- (pow2_abs v); pose proof (Rabs_pos v); nra). lra.
Qed.
Lemma norm2_near y : forall yf d, 0 <= d -> length yf = length y -> (forall n, (n < length y)%nat -> Rabs (nth n yf 0 - nth n y 0) <= d) ->
  norm2 yf <= norm2 y + sqrt (INR (length y)) * d.
Proof.
  intros yf d Hd L B. set (e := map (fun p => snd p - fst p) (combine y yf)).
  assert (Le : length e = length y) by (unfold e; rewrite map_length, combine_length, L; apply Nat.min_id).
  assert (Ey : map (fun p => fst p + snd p) (combine y e) = yf).
  { unfold e. clear - L. revert yf L. induction y as [|a y IH]; intros [|b yf] L; try discriminate L; [reflexivity|]. injection L as L. cbn. rewrite IH by exact L. f_equal. ring. }
  rewrite <- Ey at 1. eapply Rle_trans; [apply minkowski; exact Le|]. apply Rplus_le_compat_l. unfold norm2.
  rewrite <- (sqrt_pow2 d) by exact Hd. rewrite <- sqrt_mult by (try apply pos_INR; apply pow2_ge_0). apply sqrt_le_1_alt. rewrite <- Le. apply energy_flat; [exact Hd|].
  apply Forall_forall. intros v Hv. apply In_nth with (d := 0) in Hv. destruct Hv as (n & Hn & <-). rewrite Le in Hn. specialize (B n Hn). unfold e.
  rewrite (nth_indep _ 0 ((fun p => snd p - fst p) (0, 0))) by (rewrite map_length, combine_length, L, Nat.min_id; exact Hn).
  rewrite (map_nth (fun p : R * R => snd p - fst p)), combine_nth by (symmetry; exact L). exact B.
Qed.

Lemma energy_float K prec emax szero lf l : 1 <= K -> (1 < prec < emax)%Z -> energy_gain l 1 ->
  (forall x X, Forall (finite prec emax) x -> 0 <= X -> Forall (fun v => Rabs (fval v) <= X) x -> K * (X + ftiny prec emax) <= fmax prec emax ->
    exists yf lf' y l',
      @sosfilt_dyn _ (SFNum prec emax szero) x lf = Ok (yf, lf') /\ sosfilt_dyn (map fval x) l = Ok (y, l') /\
      length yf = length x /\ length y = length x /\ Forall (finite prec emax) yf /\
      forall n, (n < length x)%nat -> Rabs (fval (nth n yf (S754_zero false)) - nth n y 0) <= K * (uround prec * X + ftiny prec emax)) ->
  energy_passes prec emax szero K lf.
Proof.
  intros HK Hpe Hg F x X Fx HX Bx Hm. destruct (F x X Fx HX Bx Hm) as (yf & lf' & y & l' & E1 & E2 & L1 & L2 & Ff & B).
  exists yf, lf'. split; [exact E1|]. split; [exact L1|]. split; [exact Ff|].
  destruct (proj2 (Hg 1 ltac:(lra)) ltac:(lra) (map fval x)) as (y2 & l2 & E3 & _ & En). rewrite E2 in E3. injection E3 as <- <-.
  destruct (u_half prec (proj1 Hpe)) as [U0 _]. pose proof (tiny_pos prec emax) as T0.
  assert (D0 : 0 <= K * (uround prec * X + ftiny prec emax)) by (apply Rmult_le_pos; [lra|]; nra).
  eapply Rle_trans; [apply (norm2_near y (map fval yf) _ D0)|].
  - rewrite map_length. lia.
  - intros n Hn. rewrite L2 in Hn. change 0 with (fval (S754_zero false)) at 1. rewrite map_nth. exact (B n Hn).
  - rewrite L2. apply Rplus_le_compat_r. apply sqrt_le_1_alt. rewrite pow1, Rmult_1_l in En. exact En.
Qed.
