(** x > 8: comparison of the reference polynomial with sqrt x e^{-x} I0(x) through the
    differential equation g'' + 2 g' + g / (4 x^2) = 0. *)
From Coq Require Import List Arith ZArith QArith Qreals Reals Lra Lia.
From Coquelicot Require Import Coquelicot.
From Verif Require Import Base Num Trans M_Bessel S_Bessel P_Bessel P_ZPoly P_BesselI0 P_BesselNum.
Import ListNotations.
Local Open Scope R_scope.

Lemma growth f f' h h' a b : a <= b ->
  (forall x, a <= x <= b -> is_derive f x (f' x)) ->
  (forall x, a <= x <= b -> is_derive h x (h' x)) ->
  (forall x, a <= x <= b -> Rabs (f' x) <= h' x) -> Rabs (f b - f a) <= h b - h a.
Proof.
  intros ab Df Dh B.
  assert (G : forall g g', (forall x, a <= x <= b -> is_derive g x (g' x)) ->
    (forall x, a <= x <= b -> 0 <= g' x) -> g a <= g b).
  { intros g g' Dg Pg. destruct (MVT_gen g a b g') as [c [Hc E]]; rewrite ?Rmin_left, ?Rmax_right by lra; intros.
    - apply Dg. lra.
    - apply continuity_pt_filterlim, (ex_derive_continuous (V := R_NormedModule)). exists (g' x). apply Dg. lra.
    - rewrite Rmin_left, Rmax_right in Hc by lra. pose proof (Pg c Hc). nra. }
  assert (G1 : h a - f a <= h b - f b).
  { apply (G (fun x => h x - f x) (fun x => h' x - f' x)).
    - intros x Hx. apply (is_derive_minus (V := R_NormedModule)); [apply Dh|apply Df]; exact Hx.
    - intros x Hx. specialize (B x Hx). apply Rabs_le_between in B. lra. }
  assert (G2 : h a + f a <= h b + f b).
  { apply (G (fun x => h x + f x) (fun x => h' x + f' x)).
    - intros x Hx. apply (is_derive_plus (V := R_NormedModule)); [apply Dh|apply Df]; exact Hx.
    - intros x Hx. specialize (B x Hx). apply Rabs_le_between in B. lra. }
  apply Rabs_le. lra.
Qed.

Definition s40 : R := 2 * IZR e40.
Lemma s40_pos : 0 < s40.
Proof. unfold s40. assert (0 < IZR e40) by (apply IZR_lt; reflexivity). lra. Qed.
Definition qq (t : R) : R := zeval PC t / s40.
Definition qq1 (t : R) : R := zeval PC1 t / s40.
Definition qq2 (t : R) : R := zeval PC2 t / s40.
Lemma z_d (a : list Z) t : is_derive (fun t => zeval a t / s40) t (zeval (zderiv a) t / s40).
Proof.
  apply (is_derive_ext (fun t => / s40 * zeval a t)); [intros y; unfold Rdiv; apply Rmult_comm|].
  unfold Rdiv. rewrite (Rmult_comm (zeval _ t)). apply is_derive_scal, is_derive_Reals, zeval_deriv.
Qed.
Lemma qq_d t : is_derive qq t (qq1 t).
Proof. apply (z_d PC). Qed.
Lemma qq1_d t : is_derive qq1 t (qq2 t).
Proof. apply (z_d PC1). Qed.
Lemma e_quot (p q : Z) : (0 < q)%Z -> IZR p / IZR q = IZR p * / IZR q.
Proof. reflexivity. Qed.
Lemma residual t : 0 <= t <= 2 -> Rabs (t ^ 2 * qq2 t + (2 * t - 32) * qq1 t + qq t / 4) <= 6 / 10 ^ 19.
Proof.
  intros Ht. pose proof (RC_bound t Ht) as B. rewrite RC_eval in B. pose proof s40_pos as P.
  unfold qq, qq1, qq2. unfold s40 in *. rewrite !mult_IZR in B.
  assert (E : IZR (10 ^ 19) = 10 ^ 19) by (rewrite (pow_IZR 10 19); reflexivity). rewrite E in B.
  set (e := IZR e40) in *. set (w := 10 ^ 19) in *. assert (W : 0 < w) by (apply pow_lt; lra).
  set (a := zeval PC2 t) in *. set (b := zeval PC1 t) in *. set (c := zeval PC t) in *. clearbody e w a b c.
  replace (t ^ 2 * (a / (2 * e)) + (2 * t - 32) * (b / (2 * e)) + c / (2 * e) / 4) with
    ((4 * (t ^ 2 * a + (2 * t - 32) * b) + c) * / (8 * e)) by (field; lra).
  rewrite Rabs_mult, (Rabs_pos_eq (/ _)) by (left; apply Rinv_0_lt_compat; lra).
  apply (Rmult_le_reg_r (8 * e)); [lra|]. rewrite Rmult_assoc, Rinv_l, Rmult_1_r by lra.
  eapply Rle_trans; [exact B|]. right. unfold Rdiv. ring.
Qed.
Lemma table_close t : 0 <= t <= 2 -> Rabs (chbevl (2 * (t - 1)) (map Q2R I0_B_F64) - qq t) <= 1 / 10 ^ 17.
Proof.
  intros Ht. rewrite PB_ok. unfold qq. pose proof (PCB_bound t Ht) as B. rewrite zeval_sub, zeval_scal in B.
  pose proof s40_pos as P. unfold s40 in *. rewrite mult_IZR in B.
  assert (E : IZR (10 ^ 17) = 10 ^ 17) by (rewrite (pow_IZR 10 17); reflexivity). rewrite E in B.
  assert (E2 : IZR e40 = 100 * IZR e38) by (rewrite <- mult_IZR; reflexivity). rewrite E2 in *.
  set (e := IZR e38) in *. set (w := 10 ^ 17) in *. assert (W : 0 < w) by (apply pow_lt; lra).
  set (a := zeval PB t) in *. set (b := zeval PC t) in *. clearbody e w a b.
  replace (a / (2 * e) - b / (2 * (100 * e))) with ((100 * a - b) * / (200 * e)) by (field; lra).
  rewrite Rabs_mult, (Rabs_pos_eq (/ _)) by (left; apply Rinv_0_lt_compat; lra).
  apply (Rmult_le_reg_r (200 * e)); [lra|]. rewrite Rmult_assoc, Rinv_l, Rmult_1_r by lra.
  eapply Rle_trans; [exact B|]. right. unfold Rdiv. ring.
Qed.
Lemma qq_low t : 0 <= t <= 2 -> 39 / 100 <= qq t.
Proof.
  intros Ht. unfold qq. pose proof (PC_low t Ht) as B. rewrite zeval_sub in B. cbn [zeval] in B.
  pose proof s40_pos as P. unfold s40 in *. rewrite !mult_IZR in B.
  assert (E : IZR (10 ^ 39) = IZR e40 / 10).
  { assert (Q : (10 * (8 * 10 ^ 39) = 8 * e40)%Z) by (vm_compute; reflexivity). apply (f_equal IZR) in Q.
    rewrite !mult_IZR in Q. set (u := IZR (10 ^ 39)) in *. set (v := IZR e40) in *. clearbody u v. lra. }
  rewrite E in B. set (e := IZR e40) in *. set (a := zeval PC t) in *. clearbody a e.
  apply Rabs_le_between in B. apply (Rmult_le_reg_r (2 * e)); [lra|].
  unfold Rdiv at 2. rewrite Rmult_assoc, Rinv_l by lra. lra.
Qed.

(** The difference and its derivatives. *)
Definition dd (x : R) : R := qq (16 / x) - sqrt x * ff x.
Definition dd1 (x : R) : R := - (16 / x ^ 2) * qq1 (16 / x) - (ff x / (2 * sqrt x) + sqrt x * ff1 x).
Definition dd2 (x : R) : R :=
  32 / x ^ 3 * qq1 (16 / x) + (16 / x ^ 2) ^ 2 * qq2 (16 / x) -
  (sqrt x * ff2 x + ff1 x / sqrt x - ff x / (4 * (x * sqrt x))).
Lemma inv_d c x : x <> 0 -> is_derive (fun x => c / x) x (- (c / x ^ 2)).
Proof. intros Hx. auto_derive; [exact Hx|]. field. exact Hx. Qed.
Lemma sqrt_d x : 0 < x -> is_derive sqrt x (/ (2 * sqrt x)).
Proof. intros Hx. apply is_derive_Reals. apply derivable_pt_lim_sqrt. exact Hx. Qed.
Lemma mult_d (f g : R -> R) x df dg : is_derive f x df -> is_derive g x dg ->
  is_derive (fun y => f y * g y) x (df * g x + f x * dg).
Proof. intros A B. apply (is_derive_mult f g x df dg A B). intros n m. apply Rmult_comm. Qed.
Lemma dd_d x : 0 < x -> is_derive dd x (dd1 x).
Proof.
  intros Hx. unfold dd, dd1. pose proof (sqrt_lt_R0 x Hx) as S.
  apply (is_derive_minus (V := R_NormedModule)).
  - apply (is_derive_comp qq (fun x => 16 / x)); [apply qq_d|apply inv_d; lra].
  - replace (ff x / (2 * sqrt x) + sqrt x * ff1 x) with (/ (2 * sqrt x) * ff x + sqrt x * ff1 x) by (field; lra).
    apply (mult_d sqrt ff); [apply sqrt_d; exact Hx|apply ff_d].
Qed.
Lemma dd1_d x : 0 < x -> is_derive dd1 x (dd2 x).
Proof.
  intros Hx. unfold dd1, dd2. pose proof (sqrt_lt_R0 x Hx) as S. pose proof (sqrt_sqrt x ltac:(lra)) as SS.
  apply (is_derive_minus (V := R_NormedModule)).
  - replace (32 / x ^ 3 * qq1 (16 / x) + (16 / x ^ 2) ^ 2 * qq2 (16 / x)) with
      (32 / x ^ 3 * qq1 (16 / x) + (- (16 / x ^ 2)) * (- (16 / x ^ 2) * qq2 (16 / x))) by ring.
    apply (mult_d (fun x => - (16 / x ^ 2)) (fun x => qq1 (16 / x))).
    + auto_derive; [nra|]. field. lra.
    + apply (is_derive_comp qq1 (fun x => 16 / x)); [apply qq1_d|apply inv_d; lra].
  - replace (sqrt x * ff2 x + ff1 x / sqrt x - ff x / (4 * (x * sqrt x))) with
      ((- (/ (2 * sqrt x)) / (2 * (sqrt x) ^ 2) * ff x + / (2 * sqrt x) * ff1 x) +
       (/ (2 * sqrt x) * ff1 x + sqrt x * ff2 x)).
    2:{ replace (sqrt x ^ 2) with x by (cbn [pow]; rewrite Rmult_1_r; lra). field. split; lra. }
    apply (is_derive_plus (V := R_NormedModule)).
    + apply (is_derive_ext (fun x => / (2 * sqrt x) * ff x)); [intros y; unfold Rdiv; apply Rmult_comm|].
      apply (mult_d (fun x => / (2 * sqrt x)) ff); [|apply ff_d].
      auto_derive; [split; [exact Hx|split; [|exact I]]; lra|]. cbn [pow]. field. lra.
    + apply (mult_d sqrt ff1); [apply sqrt_d; exact Hx|apply ff1_d].
Qed.
Lemma dd_ode x : 0 < x ->
  x ^ 2 * (dd2 x + 2 * dd1 x) =
  ((16 / x) ^ 2 * qq2 (16 / x) + (2 * (16 / x) - 32) * qq1 (16 / x) + qq (16 / x) / 4) - dd x / 4.
Proof.
  intros Hx. unfold dd, dd1, dd2. pose proof (sqrt_lt_R0 x Hx) as S. pose proof (sqrt_sqrt x ltac:(lra)) as SS.
  pose proof (ff_ode x) as O. set (r := sqrt x) in *.
  set (q2 := qq2 (16 / x)). set (q1 := qq1 (16 / x)). set (q0 := qq (16 / x)).
  assert (E : ff x = - (x * ff2 x + (1 + 2 * x) * ff1 x)) by lra.
  set (f2 := ff2 x) in *. set (f1 := ff1 x) in *. rewrite E.
  clearbody q2 q1 q0 f2 f1. clear E O. clearbody r. subst x. field. lra.
Qed.

(** ** Initial values. *)
Definition r8z : Z := 2828427124746190097603377448419%Z.
Lemma sqrt8 : 0 <= sqrt 8 - IZR r8z / IZR (10 ^ 30) <= 1 / 10 ^ 30.
Proof.
  assert (E30 : IZR (10 ^ 30) = 10 ^ 30) by (rewrite (pow_IZR 10 30); reflexivity). rewrite <- E30.
  assert (P3 : 0 < IZR (10 ^ 30)) by (apply IZR_lt; reflexivity).
  assert (Z1 : (r8z * r8z <= 8 * (10 ^ 30 * 10 ^ 30))%Z) by (vm_compute; discriminate).
  assert (Z2 : (8 * (10 ^ 30 * 10 ^ 30) <= (r8z + 1) * (r8z + 1))%Z) by (vm_compute; discriminate).
  apply IZR_le in Z1, Z2. rewrite !mult_IZR in Z1. rewrite !mult_IZR, !plus_IZR in Z2.
  assert (P4 : 0 < IZR r8z) by (apply IZR_lt; reflexivity).
  set (w := IZR (10 ^ 30)) in *. set (r := IZR r8z) in *. clearbody w r. clear E30.
  assert (A : sqrt 8 * w = sqrt (8 * (w * w))).
  { rewrite sqrt_mult by nra. rewrite sqrt_square by lra. reflexivity. }
  assert (L : r <= sqrt 8 * w) by (rewrite A, <- (sqrt_square r) by lra; apply sqrt_le_1_alt; lra).
  assert (U : sqrt 8 * w <= r + 1) by (rewrite A, <- (sqrt_square (r + 1)) by lra; apply sqrt_le_1_alt; lra).
  split; apply (Rmult_le_reg_r w); try exact P3.
  - replace ((sqrt 8 - r / w) * w) with (sqrt 8 * w - r) by (field; lra). lra.
  - replace ((sqrt 8 - r / w) * w) with (sqrt 8 * w - r) by (field; lra).
    replace (1 / w * w) with 1 by (field; lra). lra.
Qed.
Definition zev2 (l : list Z) : Z := fold_right (fun x s => x + 2 * s)%Z 0%Z l.
Lemma zev2_ok l : zeval l 2 = IZR (zev2 l).
Proof. induction l as [|x l IH]; [reflexivity|]. cbn [zeval zev2 fold_right]. fold (zev2 l). rewrite IH, plus_IZR, mult_IZR. reflexivity. Qed.
Lemma quot_close (v e r w f w' m : Z) : (0 < e)%Z -> (0 < w)%Z -> (0 < w')%Z -> (0 < m)%Z ->
  (Z.abs (v * (w * w') - r * f * e) * m <= w * w' * e)%Z ->
  Rabs (IZR v / IZR e - IZR r / IZR w * (IZR f / IZR w')) <= 1 / IZR m.
Proof.
  intros H1 H2 H3 H4 Z. apply IZR_le in Z. rewrite !mult_IZR, abs_IZR, minus_IZR, !mult_IZR in Z.
  apply IZR_lt in H1, H2, H3, H4.
  set (V := IZR v) in *. set (E := IZR e) in *. set (R := IZR r) in *. set (W := IZR w) in *. set (G := IZR f) in *.
  set (W' := IZR w') in *. set (M := IZR m) in *. clearbody V E R W G W' M.
  replace (V / E - R / W * (G / W')) with ((V * (W * W') - R * G * E) * / (W * W' * E)) by (field; repeat split; lra).
  assert (Pw : 0 < W * W') by nra. assert (Pd : 0 < W * W' * E) by nra.
  rewrite Rabs_mult, (Rabs_pos_eq (/ _)) by (left; apply Rinv_0_lt_compat, Pd).
  apply (Rmult_le_reg_r (W * W' * E * M)); [nra|].
  replace (Rabs (V * (W * W') - R * G * E) * / (W * W' * E) * (W * W' * E * M)) with (Rabs (V * (W * W') - R * G * E) * M) by (field; repeat split; lra).
  replace (1 / M * (W * W' * E * M)) with (W * W' * E) by (field; lra). exact Z.
Qed.
Lemma prod_err q s f r p e1 e2 e3 : Rabs (q - r * p) <= e3 -> 0 <= s - r <= e1 -> Rabs (f - p) <= e2 ->
  0 <= r <= 3 -> Rabs p <= 1 -> e2 <= 1 -> Rabs (q - s * f) <= e3 + 2 * e1 + 3 * e2.
Proof.
  intros A B C D E F.
  replace (q - s * f) with ((q - r * p) - ((s - r) * (f - p) + (s - r) * p + r * (f - p))) by ring.
  eapply Rle_trans; [apply Rabs_triang|]. rewrite Rabs_Ropp.
  pose proof (Rabs_triang ((s - r) * (f - p) + (s - r) * p) (r * (f - p))) as T1.
  pose proof (Rabs_triang ((s - r) * (f - p)) ((s - r) * p)) as T2.
  rewrite !Rabs_mult, (Rabs_pos_eq (s - r)) in T2 by lra. rewrite (Rabs_mult r), (Rabs_pos_eq r) in T1 by lra.
  set (u := s - r) in *. set (x := Rabs (f - p)) in *. set (y := Rabs p) in *.
  assert (0 <= x) by apply Rabs_pos. assert (0 <= y) by apply Rabs_pos.
  assert (u * x <= e1) by nra. assert (u * y <= e1) by nra. assert (r * x <= 3 * e2) by nra. lra.
Qed.
Lemma tenZ n : IZR (10 ^ Z.of_nat n) = 10 ^ n.
Proof. rewrite (pow_IZR 10 n). reflexivity. Qed.
Lemma small_quot p : (Z.abs p <= 10 ^ 30)%Z -> Rabs (IZR p / IZR (10 ^ 30)) <= 1.
Proof.
  intros H1. apply IZR_le in H1. rewrite abs_IZR in H1. assert (0 < IZR (10 ^ 30)) by (apply IZR_lt; reflexivity).
  set (w := IZR (10 ^ 30)) in *. clearbody w. unfold Rdiv. rewrite Rabs_mult, (Rabs_pos_eq (/ w)) by (left; apply Rinv_0_lt_compat; lra).
  apply (Rmult_le_reg_r w); [lra|]. rewrite Rmult_assoc, Rinv_l; lra.
Qed.
Lemma r8_range : 0 <= IZR r8z / IZR (10 ^ 30) <= 3.
Proof.
  pose proof sqrt8 as S. split.
  - apply Rlt_le, Rdiv_lt_0_compat; apply IZR_lt; reflexivity.
  - assert (sqrt 8 <= sqrt (3 * 3)) by (apply sqrt_le_1; lra). rewrite sqrt_square in * by lra. lra.
Qed.
Lemma dd_8 : Rabs (dd 8) <= 1 / 10 ^ 28.
Proof.
  unfold dd. replace (16 / 8) with 2 by lra. unfold qq. rewrite zev2_ok.
  assert (Z : Rabs (IZR (zev2 PC) / IZR (2 * e40) - IZR r8z / IZR (10 ^ 30) * (IZR f8z / IZR (10 ^ 30))) <= 1 / IZR (10 ^ Z.of_nat 29)).
  { apply quot_close; try reflexivity. vm_compute. discriminate. }
  rewrite mult_IZR in Z. fold s40 in Z. rewrite tenZ in Z.
  pose proof (prod_err _ _ _ _ _ _ _ _ Z sqrt8 ff8 r8_range (small_quot f8z ltac:(vm_compute; discriminate))) as T.
  eapply Rle_trans; [apply T|]; simpl; lra.
Qed.
Definition p8z : Z := Eval vm_compute in (f8z + 16 * f18z)%Z.
Definition nz1 : Z := Eval vm_compute in (- zev2 PC1)%Z.
Definition w16 : Z := Eval vm_compute in (16 * 10 ^ 30)%Z.
Definition e320 : Z := Eval vm_compute in (4 * (2 * e40))%Z.
Lemma qq1_2 : qq1 2 = - (IZR nz1 / s40).
Proof.
  unfold qq1. rewrite zev2_ok. replace (zev2 PC1) with (- nz1)%Z by (vm_compute; reflexivity). rewrite opp_IZR.
  generalize (IZR nz1) s40. intros. unfold Rdiv. ring.
Qed.
Lemma e320_ok : IZR e320 = 4 * s40.
Proof. replace e320 with (4 * (2 * e40))%Z by (vm_compute; reflexivity). rewrite !mult_IZR. reflexivity. Qed.
Lemma w16_ok : IZR w16 = 16 * IZR (10 ^ 30).
Proof. rewrite <- mult_IZR. reflexivity. Qed.
Lemma p8_ok : IZR p8z = IZR f8z + 16 * IZR f18z.
Proof. rewrite <- mult_IZR, <- plus_IZR. reflexivity. Qed.
Lemma p8_close : Rabs (ff 8 / 16 + ff1 8 - IZR p8z / IZR w16) <= 6 / 10 ^ 30.
Proof.
  pose proof ff8 as F1. pose proof ff18 as F2. rewrite p8_ok, w16_ok.
  assert (P : 0 < IZR (10 ^ 30)) by (apply IZR_lt; reflexivity).
  generalize dependent (IZR (10 ^ 30)). intros w F1 F2 P. generalize dependent (IZR f8z). intros a F1.
  generalize dependent (IZR f18z). intros b F2.
  replace (ff 8 / 16 + ff1 8 - (a + 16 * b) / (16 * w)) with (/ 16 * (ff 8 - a / w) + (ff1 8 - b / w)) by (field; lra).
  eapply Rle_trans; [apply Rabs_triang|]. rewrite Rabs_mult, (Rabs_pos_eq (/ 16)) by lra.
  assert (0 < / 10 ^ 30) by (apply Rinv_0_lt_compat, pow_lt; lra). unfold Rdiv in *. lra.
Qed.
Lemma p8_small : Rabs (IZR p8z / IZR w16) <= 1.
Proof.
  assert (Zp : (Z.abs p8z <= w16)%Z) by (vm_compute; discriminate). apply IZR_le in Zp. rewrite abs_IZR in Zp.
  assert (W : 0 < IZR w16) by (apply IZR_lt; reflexivity).
  generalize dependent (IZR w16). intros w Zp W. generalize dependent (IZR p8z). intros p Zp.
  unfold Rdiv. rewrite Rabs_mult, (Rabs_pos_eq (/ w)) by (left; apply Rinv_0_lt_compat; lra).
  apply (Rmult_le_reg_r w); [lra|]. rewrite Rmult_assoc, Rinv_l; lra.
Qed.
Lemma p8_quot : Rabs (IZR nz1 / IZR e320 - IZR r8z / IZR (10 ^ 30) * (IZR p8z / IZR w16)) <= 1 / 10 ^ 29.
Proof. rewrite <- (tenZ 29). apply quot_close; [reflexivity..|]. vm_compute. discriminate. Qed.
Lemma dd1_8_eq : dd1 8 = IZR nz1 / IZR e320 - sqrt 8 * (ff 8 / 16 + ff1 8).
Proof.
  unfold dd1. replace (16 / 8) with 2 by lra. rewrite qq1_2, e320_ok.
  pose proof (sqrt_lt_R0 8 ltac:(lra)) as Sp. pose proof (sqrt_sqrt 8 ltac:(lra)) as SS.
  pose proof s40_pos as Ps. generalize dependent s40. intros e Ps. generalize (IZR nz1). intros v.
  replace (ff 8 / (2 * sqrt 8)) with (sqrt 8 * (ff 8 / 16)).
  - field. lra.
  - replace 16 with (2 * (sqrt 8 * sqrt 8)) by (rewrite SS; lra). field. lra.
Qed.
Lemma dd1_8 : Rabs (dd1 8) <= 1 / 10 ^ 28.
Proof.
  rewrite dd1_8_eq. pose proof (prod_err _ _ _ _ _ _ _ _ p8_quot sqrt8 p8_close r8_range p8_small) as T.
  eapply Rle_trans; [apply T|]; simpl; lra.
Qed.

(** ** The comparison. *)
Lemma dd_bound X : 8 <= X -> Rabs (dd X) <= 5 / 10 ^ 20.
Proof.
  intros HX.
  assert (Cont : forall c, 8 <= c <= X -> continuity_pt (fun x => Rabs (dd x)) c).
  { intros c Hc. apply (continuity_pt_comp dd Rabs); [|apply Rcontinuity_abs].
    apply continuity_pt_filterlim, (ex_derive_continuous (V := R_NormedModule)). exists (dd1 c). apply dd_d. lra. }
  destruct (continuity_ab_maj (fun x => Rabs (dd x)) 8 X HX Cont) as [m [Max Hm]].
  set (M := Rabs (dd m)) in *. assert (PM : 0 <= M) by apply Rabs_pos.
  set (rho := 6 / 10 ^ 19). assert (Prho : 0 < rho) by (unfold rho; apply Rdiv_lt_0_compat; [lra|apply pow_lt; lra]).
  set (K := rho + M / 4). assert (PK : 0 < K) by (unfold K; lra).
  set (d1 := Rabs (dd1 8)). assert (Pd1 : 0 <= d1) by apply Rabs_pos.
  (* first integration *)
  assert (S1 : forall y, 8 <= y <= X -> Rabs (dd1 y) <= exp (16 - 2 * y) * d1 + 4 / 7 * K / y ^ 2).
  { intros y Hy.
    pose proof (growth (fun x => exp (2 * x) * dd1 x) (fun x => exp (2 * x) * (dd2 x + 2 * dd1 x))
      (fun x => 4 / 7 * K * (exp (2 * x) / x ^ 2)) (fun x => 8 / 7 * K * (exp (2 * x) * (1 - / x) / x ^ 2)) 8 y ltac:(lra)) as G.
    assert (G' : Rabs (exp (2 * y) * dd1 y - exp (2 * 8) * dd1 8) <= 4 / 7 * K * (exp (2 * y) / y ^ 2) - 4 / 7 * K * (exp (2 * 8) / 8 ^ 2)).
    { apply G; clear G.
      - intros x Hx. replace (exp (2 * x) * (dd2 x + 2 * dd1 x)) with ((2 * exp (2 * x)) * dd1 x + exp (2 * x) * dd2 x) by ring.
        apply (mult_d (fun x => exp (2 * x)) dd1); [|apply dd1_d; lra]. auto_derive; [exact I|ring].
      - intros x Hx. auto_derive; [nra|]. field. lra.
      - intros x Hx. pose proof (dd_ode x ltac:(lra)) as O. pose proof (exp_pos (2 * x)) as Pe.
        assert (B : Rabs (x ^ 2 * (dd2 x + 2 * dd1 x)) <= K).
        { rewrite O. eapply Rle_trans; [apply Rabs_triang|]. rewrite Rabs_Ropp.
          assert (T : 0 <= 16 / x <= 2).
          { split; [apply Rlt_le, Rdiv_lt_0_compat; lra|]. apply (Rmult_le_reg_r x); [lra|]. unfold Rdiv. rewrite Rmult_assoc, Rinv_l; lra. }
          pose proof (residual _ T) as R1. fold rho in R1. pose proof (Max x ltac:(lra)) as M1. fold M in M1. cbv beta in M1.
          replace (dd x / 4) with (/ 4 * dd x) by field.
          rewrite (Rabs_mult (/ 4)), (Rabs_pos_eq (/ 4)) by lra. unfold K. lra. }
        rewrite Rabs_mult, (Rabs_pos_eq (x ^ 2)) in B by nra. rewrite Rabs_mult, (Rabs_pos_eq (exp _)) by lra.
        set (z := Rabs (dd2 x + 2 * dd1 x)) in *. set (e := exp (2 * x)) in *. clearbody z e.
        apply (Rmult_le_reg_r (x ^ 2)); [nra|].
        replace (8 / 7 * K * (e * (1 - / x) / x ^ 2) * x ^ 2) with (8 / 7 * K * e * (1 - / x)) by (field; lra).
        assert (Ix : / x <= / 8) by (apply Rinv_le_contravar; lra).
        assert (A1 : e * z * x ^ 2 <= e * K) by nra. assert (A2 : 0 <= e * K) by nra. nra. }
    clear G. pose proof (exp_pos (2 * y)) as Pe. pose proof (exp_pos (2 * 8)) as P8.
    assert (Tri : Rabs (exp (2 * y) * dd1 y) <= exp (2 * 8) * d1 + 4 / 7 * K * (exp (2 * y) / y ^ 2)).
    { replace (exp (2 * y) * dd1 y) with ((exp (2 * y) * dd1 y - exp (2 * 8) * dd1 8) + exp (2 * 8) * dd1 8) by ring.
      eapply Rle_trans; [apply Rabs_triang|]. rewrite (Rabs_mult (exp (2 * 8))), (Rabs_pos_eq (exp (2 * 8))) by lra. fold d1.
      assert (0 <= 4 / 7 * K * (exp (2 * 8) / 8 ^ 2)) by (apply Rmult_le_pos; [lra|]; apply Rlt_le, Rdiv_lt_0_compat; lra). lra. }
    rewrite Rabs_mult, (Rabs_pos_eq (exp _)) in Tri by lra.
    apply (Rmult_le_reg_l (exp (2 * y))); [exact Pe|]. eapply Rle_trans; [exact Tri|]. right.
    rewrite Rmult_plus_distr_l, <- Rmult_assoc, <- exp_plus. replace (2 * y + (16 - 2 * y)) with (2 * 8) by ring. field. lra. }
  (* second integration *)
  assert (S2 : Rabs (dd m - dd 8) <= d1 / 2 + K / 14).
  { pose proof (growth dd dd1 (fun y => - (1 / 2) * d1 * exp (16 - 2 * y) - 4 / 7 * K / y)
      (fun y => exp (16 - 2 * y) * d1 + 4 / 7 * K / y ^ 2) 8 m ltac:(lra)) as G.
    eapply Rle_trans; [apply G; clear G|].
    - intros x Hx. apply dd_d. lra.
    - intros x Hx. auto_derive; [lra|]. unfold Rminus. field. lra.
    - intros x Hx. apply S1. lra.
    - replace (16 - 2 * 8) with 0 by ring. rewrite exp_0. pose proof (exp_pos (16 - 2 * m)).
      assert (0 <= 4 / 7 * K / m) by (apply Rlt_le, Rdiv_lt_0_compat; lra).
      assert (0 <= d1 * exp (16 - 2 * m)) by nra. lra. }
  pose proof dd_8 as D8. pose proof dd1_8 as D18. fold d1 in D18.
  assert (S3 : M <= Rabs (dd 8) + (d1 / 2 + K / 14)).
  { unfold M. replace (dd m) with (dd 8 + (dd m - dd 8)) by ring. eapply Rle_trans; [apply Rabs_triang|]. lra. }
  pose proof (Max X ltac:(lra)) as MX. cbv beta in MX. fold M in MX.
  assert (Num : 1 / 10 ^ 28 + (1 / 10 ^ 28 / 2 + rho / 14) <= 5 / 10 ^ 20 * (55 / 56)) by (unfold rho; simpl; lra).
  unfold K in S3. lra.
Qed.
