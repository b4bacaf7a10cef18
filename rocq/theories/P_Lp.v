(** Proofs about the bilinear transform and the frequency transformations. *)
From Coq Require Import List Arith ZArith Reals Permutation Lra Lia.
From Verif Require Import Base P_Sqrt Num Trans M_Complex M_Filter M_Design RSum Cx S_Design P_Poly.
Import ListNotations.
Local Open Scope R_scope.

(** prod (a - b r): the homogeneous version of [root_product]. *)
Definition hom (l : list C) (a b : C) : C := fold_right (fun r acc => cmul (csub a (cmul b r)) acc) C1 l.
Definition cpl (l : list C) : C := fold_right cmul C1 l.

Lemma cpl_cons r l : cpl (r :: l) = (r * cpl l)%C.
Proof. reflexivity. Qed.
Lemma cpl_nil : cpl [] = C1.
Proof. reflexivity. Qed.
Lemma cprod_acc (l : list C) : forall acc, fold_left cmul l acc = (acc * cpl l)%C.
Proof. induction l as [|r l IH]; intros acc; cbn [fold_left]; [rewrite cpl_nil; ring|]. rewrite IH, cpl_cons. ring. Qed.
Lemma cprod_cpl (l : list C) : cprod l = cpl l.
Proof. unfold cprod. rewrite cprod_acc. ring. Qed.
Lemma cpl_app l m : cpl (l ++ m) = (cpl l * cpl m)%C.
Proof. induction l as [|r l IH]; cbn [app]; [rewrite cpl_nil; ring|]. rewrite !cpl_cons, IH. ring. Qed.
Lemma cpl_neq0 l : Forall (fun r => r <> C0) l -> cpl l <> C0.
Proof. induction 1; [exact C10|]. cbn [cpl fold_right]. apply Cmul_neq0; assumption. Qed.
Lemma cpl_repeat r n : cpl (repeat r n) = cpow r n.
Proof. induction n as [|n IH]; [reflexivity|]. cbn. f_equal. exact IH. Qed.

Lemma hom_cons r l a b : hom (r :: l) a b = ((a - b * r) * hom l a b)%C.
Proof. reflexivity. Qed.
Lemma hom_app l m a b : hom (l ++ m) a b = (hom l a b * hom m a b)%C.
Proof. induction l as [|r l IH]; cbn [app]; [change (hom [] a b) with C1; ring|]. rewrite !hom_cons, IH. ring. Qed.
Lemma hom_repeat r n a b : hom (repeat r n) a b = cpow (a - b * r)%C n.
Proof. induction n as [|n IH]; [reflexivity|]. cbn [repeat cpow]. rewrite hom_cons, IH. reflexivity. Qed.
Lemma hom_1 l x : hom l x C1 = root_product l x.
Proof. induction l as [|r l IH]; [reflexivity|]. rewrite hom_cons, IH. cbn [root_product fold_right]. fold (root_product l x). f_equal. ring. Qed.
Lemma hom_scale l c a b : hom l (c * a)%C (c * b)%C = (cpow c (length l) * hom l a b)%C.
Proof. induction l as [|r l IH]; [cbn; apply C_ext; cbn; ring|]. rewrite !hom_cons, IH. cbn [length cpow]. ring. Qed.
Lemma hom_div l a b : b <> C0 -> hom l a b = (cpow b (length l) * root_product l (a / b))%C.
Proof.
  intros Hb. rewrite <- hom_1, <- hom_scale. f_equal; field; exact Hb.
Qed.
Lemma hom_map (f c : C -> C) l a b a' b' :
  (forall r, In r l -> (a - b * f r = c r * (a' - b' * r))%C) -> hom (map f l) a b = (cpl (map c l) * hom l a' b')%C.
Proof.
  intros Hf. induction l as [|r l IH]; [cbn; apply C_ext; cbn; ring|].
  cbn [map]. rewrite cpl_cons, !hom_cons, IH, Hf by (intros; try apply Hf; cbn; auto). ring.
Qed.
Lemma hom_perm l m a b : Permutation l m -> hom l a b = hom m a b.
Proof.
  induction 1; [reflexivity| | |congruence].
  - rewrite !hom_cons, IHPermutation. reflexivity.
  - rewrite !hom_cons. ring.
Qed.
Lemma cconj_hom l a b : cconj (hom l a b) = hom (map cconj l) (cconj a) (cconj b).
Proof. induction l as [|r l IH]; [apply cconj_1|]. cbn [map]. rewrite !hom_cons, cconj_mul, IH, cconj_sub, cconj_mul. reflexivity. Qed.
Lemma hom_real l x y : conj_closed l -> cim (hom l (RtoC x) (RtoC y)) = 0.
Proof.
  intros Hc. assert (Q : cconj (hom l (RtoC x) (RtoC y)) = hom l (RtoC x) (RtoC y)).
  { rewrite cconj_hom, !cconj_RtoC. apply hom_perm. exact Hc. }
  apply (f_equal snd) in Q. cbn in Q. unfold cim in *. lra.
Qed.
Lemma hom_neq0 l a b : Forall (fun r => (a - b * r)%C <> C0) l -> hom l a b <> C0.
Proof. induction 1; [exact C10|]. rewrite hom_cons. apply Cmul_neq0; assumption. Qed.
Lemma root_product_neq0 l x : ~ In x l -> root_product l x <> C0.
Proof.
  intros Hn. rewrite <- hom_1. apply hom_neq0. apply Forall_forall. intros r Hr E0. apply Hn.
  replace x with r; [exact Hr|]. symmetry. apply Csub_eq0. rewrite <- E0. ring.
Qed.
Lemma H_hom f x : H f x = (RtoC (zk_k f) * hom (zk_z f) x C1 / hom (zk_p f) x C1)%C.
Proof. unfold H. rewrite !hom_1. reflexivity. Qed.

Lemma cpl_map_sub l f : cpl (map (fun zi => csub f zi) l) = hom l f C1.
Proof.
  induction l as [|r l IH]; [reflexivity|]. rewrite hom_cons. cbn [map].
  rewrite cpl_cons, IH. f_equal. ring.
Qed.
Lemma cpl_map_neg l : cpl (map cneg l) = hom l C0 C1.
Proof.
  induction l as [|r l IH]; [reflexivity|]. rewrite hom_cons. cbn [map].
  rewrite cpl_cons, IH. f_equal. ring.
Qed.
Lemma cpl_map_inv (f : C -> C) l : (forall r, In r l -> f r <> C0) ->
  cpl (map (fun r => C1 / f r)%C l) = (C1 / cpl (map f l))%C.
Proof.
  intros Hf. induction l as [|r l IH]; [cbn [map]; rewrite cpl_nil; field; exact C10|].
  cbn [map]. rewrite !cpl_cons.
  assert (Hl : cpl (map f l) <> C0).
  { apply cpl_neq0, Forall_forall. intros y Hy. apply in_map_iff in Hy. destruct Hy as [x [<- Hx]]. apply Hf. right. exact Hx. }
  assert (Hr : f r <> C0) by (apply Hf; left; reflexivity).
  rewrite IH by (intros; apply Hf; right; assumption). field. split; assumption.
Qed.
Lemma real_div (a b : C) : b <> C0 -> cim a = 0 -> cim b = 0 -> RtoC (cre (a / b)%C) = (a / b)%C.
Proof.
  intros Hb Ia Ib. apply C_ext; cbn; [reflexivity|]. unfold cim in *. rewrite Ia, Ib. unfold Rdiv. ring.
Qed.

(** Conjugate closure through maps. *)
Lemma conj_closed_map f l : (forall r, f (cconj r) = cconj (f r)) -> conj_closed l -> conj_closed (map f l).
Proof.
  intros Hf Hc. unfold conj_closed in *. rewrite map_map.
  rewrite (map_ext _ (fun r => f (cconj r))) by (intros; symmetry; apply Hf).
  rewrite <- (map_map cconj f). apply Permutation_map. exact Hc.
Qed.
Lemma conj_closed_app l m : conj_closed l -> conj_closed m -> conj_closed (l ++ m).
Proof. unfold conj_closed. intros Hl Hm. rewrite map_app. apply Permutation_app; assumption. Qed.
Lemma map_repeat {A B} (g : A -> B) x n : map g (repeat x n) = repeat (g x) n.
Proof. induction n as [|n IH]; cbn; [reflexivity|]. rewrite IH. reflexivity. Qed.
Lemma conj_closed_repeat r n : cim r = 0 -> conj_closed (repeat r n).
Proof.
  intros Hr. unfold conj_closed. rewrite map_repeat. replace (cconj r) with r; [apply Permutation_refl|].
  apply C_ext; cbn; unfold cim in *; [reflexivity|lra].
Qed.
Lemma cconj_div z w : cconj (z / w)%C = (cconj z / cconj w)%C.
Proof. apply C_ext; cbn; unfold Rdiv; [|rewrite Ropp_mult_distr_l]; f_equal; try ring; f_equal; ring. Qed.

Lemma relative_degree_ok z p d : @relative_degree_dyn R z p = Ok d -> (length z <= length p)%nat /\ d = (length p - length z)%nat.
Proof. unfold relative_degree_dyn. destruct (Nat.ltb_spec (length p) (length z)); [discriminate|]. intros Q. injection Q as <-. auto. Qed.
Lemma relative_degree_le z p : (length z <= length p)%nat -> @relative_degree_dyn R z p = Ok (length p - length z)%nat.
Proof. unfold relative_degree_dyn. destruct (Nat.ltb_spec (length p) (length z)); [lia|reflexivity]. Qed.
Lemma relative_degree_gt z p : (length p < length z)%nat -> @relative_degree_dyn R z p = Panic.
Proof. unfold relative_degree_dyn. destruct (Nat.ltb_spec (length p) (length z)); [reflexivity|lia]. Qed.

Lemma npow_pow x n : npow x n = (x ^ n)%R.
Proof. induction n as [|n IH]; [reflexivity|]. cbn [npow pow]. rewrite IH. reflexivity. Qed.
Lemma RtoC_pow x n : RtoC (x ^ n) = cpow (RtoC x) n.
Proof. induction n as [|n IH]; [reflexivity|]. cbn [pow cpow]. rewrite RtoC_mul, IH. reflexivity. Qed.

(** ** Bilinear transform *)
Section Bilinear.
Variables (f : @ZpkFormatFilter R) (fs : R).
Notation F2 := (RtoC (2 * fs)%R).
Definition bil (r : C) : C := ((F2 + r) / (F2 - r))%C.

Lemma bilinear_eq f' : bilinear_zpk_dyn f fs = Ok f' ->
  proper f /\ zk_z f' = map bil (zk_z f) ++ repeat (- C1)%C (length (zk_p f) - length (zk_z f)) /\
  zk_p f' = map bil (zk_p f) /\ zk_k f' = zk_k f * cre (hom (zk_z f) F2 C1 / hom (zk_p f) F2 C1)%C.
Proof.
  unfold bilinear_zpk_dyn. destruct (relative_degree_dyn _ _) as [d| | |] eqn:Ed; try discriminate. cbn [bind].
  apply relative_degree_ok in Ed. destruct Ed as [Hp ->]. intros Q. injection Q as <-. cbn [zk_z zk_p zk_k].
  change ((nmul (two (F := R)) fs, nzero)) with F2. rewrite !cprod_cpl, !cpl_map_sub.
  split; [exact Hp|]. split; [|split; reflexivity].
  f_equal. replace (- C1)%C with ((Ropp 1, 0) : C) by cx. reflexivity.
Qed.
Lemma bilinear_panics : (length (zk_p f) < length (zk_z f))%nat -> bilinear_zpk_dyn f fs = Panic.
Proof. intros Hl. unfold bilinear_zpk_dyn. rewrite relative_degree_gt by exact Hl. reflexivity. Qed.
Lemma bilinear_total : proper f -> exists f', bilinear_zpk_dyn f fs = Ok f'.
Proof. intros Hl. unfold bilinear_zpk_dyn. rewrite relative_degree_le by exact Hl. cbn [bind]. eauto. Qed.

Lemma bil_hom l a b : ~ In F2 l -> hom (map bil l) a b = (hom l (F2 * (a - b)) (a + b) / hom l F2 C1)%C.
Proof.
  intros Hn. rewrite (hom_map bil (fun r => C1 / (F2 - r))%C l a b (F2 * (a - b))%C (a + b)%C).
  - rewrite (cpl_map_inv (fun r => F2 - r)%C), cpl_map_sub.
    + rewrite (Cdiv_mul_inv C1), Cdiv_mul_inv. ring.
    + intros r Hr E0. apply Hn. rewrite (Csub_eq0 _ _ E0). exact Hr.
  - intros r Hr. unfold bil.
    assert ((F2 - r)%C <> C0) by (intros E0; apply Hn; rewrite (Csub_eq0 _ _ E0); exact Hr). field. assumption.
Qed.

Hypothesis Hz : ~ In F2 (zk_z f).
Hypothesis Hp : ~ In F2 (zk_p f).

Lemma F2_hom l : ~ In F2 l -> hom l F2 C1 <> C0.
Proof. intros Hn. rewrite hom_1. apply root_product_neq0, Hn. Qed.
Lemma bilinear_gain : real_filter f ->
  RtoC (cre (hom (zk_z f) F2 C1 / hom (zk_p f) F2 C1)%C) = (hom (zk_z f) F2 C1 / hom (zk_p f) F2 C1)%C.
Proof. intros [Rz Rp]. apply real_div; [apply F2_hom, Hp|apply (hom_real _ _ 1), Rz|apply (hom_real _ _ 1), Rp]. Qed.
Lemma bilinear_num f' a b : bilinear_zpk_dyn f fs = Ok f' -> real_filter f ->
  (RtoC (zk_k f') * hom (zk_z f') a b =
   RtoC (zk_k f) * hom (zk_z f) (F2 * (a - b)) (a + b) * cpow (a + b) (length (zk_p f) - length (zk_z f)) / hom (zk_p f) F2 C1)%C.
Proof.
  intros Hf Hr. apply bilinear_eq in Hf. destruct Hf as [_ [-> [_ ->]]].
  rewrite RtoC_mul, bilinear_gain by exact Hr. rewrite hom_app, bil_hom by exact Hz. rewrite hom_repeat.
  replace (a - b * - C1)%C with (a + b)%C by ring. field. split; [apply F2_hom, Hp|apply F2_hom, Hz].
Qed.
Lemma bilinear_den f' a b : bilinear_zpk_dyn f fs = Ok f' ->
  hom (zk_p f') a b = (hom (zk_p f) (F2 * (a - b)) (a + b) / hom (zk_p f) F2 C1)%C.
Proof. intros Hf. apply bilinear_eq in Hf. destruct Hf as [_ [_ [-> _]]]. apply bil_hom, Hp. Qed.
Lemma bilinear_H f' x : bilinear_zpk_dyn f fs = Ok f' -> real_filter f -> (x + C1)%C <> C0 ->
  ~ In (F2 * (x - C1) / (x + C1))%C (zk_p f) -> H f' x = H f (F2 * (x - C1) / (x + C1))%C.
Proof.
  intros Hf Hr Hx Hs. rewrite H_hom, (bilinear_num f') by assumption. rewrite (bilinear_den f') by assumption.
  rewrite !(hom_div _ (F2 * (x - C1))%C) by exact Hx. unfold H. apply bilinear_eq in Hf. destruct Hf as [Hl _]. unfold proper in Hl.
  replace (length (zk_p f)) with (length (zk_z f) + (length (zk_p f) - length (zk_z f)))%nat at 2 by lia.
  rewrite cpow_add. field. repeat split; try (apply cpow_neq0; exact Hx); try apply F2_hom, Hp. apply root_product_neq0. exact Hs.
Qed.
End Bilinear.

Lemma bil_inside fs r : 0 < fs -> r <> RtoC (2 * fs) -> (cnorm_sqr (bil fs r) < 1 <-> cre r < 0).
Proof.
  intros Hf Hr. assert (Hn : (RtoC (2 * fs)%R - r)%C <> C0) by (intros E0; apply Hr; symmetry; exact (Csub_eq0 _ _ E0)).
  apply cnorm_sqr_pos in Hn. unfold bil. destruct r as [u v]. cbn in *.
  set (g := (2 * fs - u) * (2 * fs - u) + (0 - v) * (0 - v)) in *.
  match goal with |- ?L < 1 <-> _ => replace L with (((2 * fs + u) * (2 * fs + u) + (0 + v) * (0 + v)) / g) by (unfold g; field; repeat split; intros Q; assert (g = 0) by (rewrite <- Q; unfold g; ring); lra) end.
  split; intros Hlt.
  - apply (Rmult_lt_compat_r g) in Hlt; [|exact Hn]. unfold Rdiv in Hlt. rewrite Rmult_assoc, Rinv_l in Hlt by lra. unfold g in Hlt. nra.
  - apply (Rmult_lt_reg_r g); [exact Hn|]. unfold Rdiv. rewrite Rmult_assoc, Rinv_l by lra. unfold g. nra.
Qed.
Lemma bil_conj fs r : bil fs (cconj r) = cconj (bil fs r).
Proof. unfold bil. rewrite cconj_div, cconj_add, cconj_sub, cconj_RtoC. reflexivity. Qed.

(** ** Low-pass to low-pass *)
Section Lp2lp.
Variables (f : @ZpkFormatFilter R) (wo : R).
Lemma lp2lp_eq f' : lp2lp_zpk_dyn f (Some wo) = Ok f' ->
  proper f /\ zk_z f' = map (fun r => r * RtoC wo)%C (zk_z f) /\ zk_p f' = map (fun r => r * RtoC wo)%C (zk_p f) /\
  zk_k f' = zk_k f * wo ^ (length (zk_p f) - length (zk_z f)).
Proof.
  unfold lp2lp_zpk_dyn. destruct (relative_degree_dyn _ _) as [d| | |] eqn:Ed; try discriminate. cbn [bind].
  apply relative_degree_ok in Ed. destruct Ed as [Hp ->]. intros Q. injection Q as <-. cbn [zk_z zk_p zk_k unwrap_or].
  rewrite npow_pow. repeat split. exact Hp.
Qed.
Lemma lp2lp_hom l a b : hom (map (fun r => r * RtoC wo)%C l) a b = hom l a (b * RtoC wo)%C.
Proof.
  rewrite (hom_map _ (fun _ => C1) l a b a (b * RtoC wo)%C) by (intros; ring).
  replace (cpl (map (fun _ => C1) l)) with C1; [ring|]. symmetry. induction l as [|r l IH]; [reflexivity|].
  cbn [map]. rewrite cpl_cons, IH. ring.
Qed.
Lemma lp2lp_H f' x : lp2lp_zpk_dyn f (Some wo) = Ok f' -> wo <> 0 -> ~ In (x / RtoC wo)%C (zk_p f) -> H f' x = H f (x / RtoC wo)%C.
Proof.
  intros Hf Hw Hs. apply lp2lp_eq in Hf. destruct Hf as [Hl [Ez [Ep Ek]]]. rewrite H_hom, Ez, Ep, Ek, !lp2lp_hom.
  assert (Hc : RtoC wo <> C0) by (apply RtoC_neq0, Hw).
  replace (C1 * RtoC wo)%C with (RtoC wo) by ring. rewrite !hom_div by exact Hc. unfold H, proper in *.
  replace (length (zk_p f)) with (length (zk_z f) + (length (zk_p f) - length (zk_z f)))%nat at 2 by lia.
  rewrite cpow_add, RtoC_mul, RtoC_pow. field. repeat split; try (apply cpow_neq0; exact Hc). apply root_product_neq0. exact Hs.
Qed.
End Lp2lp.

(** ** Low-pass to high-pass, no zeros *)
Section Lp2hp.
Variables (f : @ZpkFormatFilter R) (wo : R).
Hypothesis Z0 : zk_z f = [].
Hypothesis Hp : ~ In C0 (zk_p f).
Hypothesis Hr : conj_closed (zk_p f).
Lemma lp2hp_eq : exists f', lp2hp_zpk_dyn f (Some wo) = Ok f' /\
  zk_z f' = repeat C0 (length (zk_p f)) /\ zk_p f' = map (fun r => RtoC wo / r)%C (zk_p f) /\
  RtoC (zk_k f') = (RtoC (zk_k f) / hom (zk_p f) C0 C1)%C.
Proof.
  unfold lp2hp_zpk_dyn. rewrite relative_degree_le by (rewrite Z0; cbn; lia). cbn [bind]. eexists. split; [reflexivity|].
  cbn [zk_z zk_p zk_k unwrap_or]. rewrite Z0. cbn [map length app]. rewrite Nat.sub_0_r. repeat split.
  rewrite RtoC_mul. rewrite (map_ext_in (fun pi => cmul (nofZ (-1), nzero) pi) cneg) by (intros; cx).
  rewrite !cprod_cpl, cpl_map_neg. cbn [cpl fold_right].
  assert (Hd : hom (zk_p f) C0 C1 <> C0) by (rewrite hom_1; apply root_product_neq0, Hp).
  rewrite real_div; [field; exact Hd|exact Hd|reflexivity|apply (hom_real _ 0 1), Hr].
Qed.
Lemma inv_hom w l a b : ~ In C0 l -> hom (map (fun r => w / r)%C l) a b = (hom l (b * w) a / hom l C0 C1)%C.
Proof.
  intros Hn. rewrite (hom_map _ (fun r => C1 / cneg r)%C l a b (b * w)%C a).
  - rewrite (cpl_map_inv cneg), cpl_map_neg, (Cdiv_mul_inv C1), Cdiv_mul_inv; [ring|].
    intros r Hi E0. apply Hn. replace C0 with r; [exact Hi|]. transitivity (- - r)%C; [ring|]. rewrite E0. ring.
  - intros r Hi. assert (N0 : r <> C0) by congruence. assert (N1 : (- r)%C <> C0).
    { intros E0. apply N0. transitivity (- - r)%C; [ring|]. rewrite E0. ring. }
    field. split; assumption.
Qed.
End Lp2hp.

(** ** Square roots *)
Lemma csqrt_sq (z : C) : (csqrt z * csqrt z = z)%C.
Proof.
  destruct z as [x y]. set (r := sqrt (x * x + y * y)).
  assert (Hr : r * r = x * x + y * y) by (apply sqrt_sqrt; nra).
  assert (P : 0 <= r) by apply sqrt_pos.
  assert (A : 0 <= r + x) by nra. assert (B : 0 <= r - x) by nra.
  assert (S1 : sqrt ((r + x) / (1 + 1)) * sqrt ((r + x) / (1 + 1)) = (r + x) / 2) by (rewrite sqrt_sqrt; lra).
  assert (S2 : sqrt ((r - x) / (1 + 1)) * sqrt ((r - x) / (1 + 1)) = (r - x) / 2) by (rewrite sqrt_sqrt; lra).
  assert (S3 : sqrt ((r + x) / (1 + 1)) * sqrt ((r - x) / (1 + 1)) = Rabs y / 2).
  { rewrite <- sqrt_mult by lra. replace ((r + x) / (1 + 1) * ((r - x) / (1 + 1))) with (Rsqr (Rabs y / 2)).
    - apply sqrt_Rsqr. pose proof (Rabs_pos y). lra.
    - unfold Rsqr. replace (Rabs y / 2 * (Rabs y / 2)) with (Rabs y * Rabs y / 4) by field.
      assert (Rabs y * Rabs y = y * y) by (pose proof (Rsqr_abs y) as Q; unfold Rsqr in Q; lra). nra. }
  rewrite csqrt_alg. cbn [cre cim fst snd nsqrt nadd nsub ndiv none nltb nneg nzero RNum cnorm cnorm_sqr nmul thypot RTrans]. fold r.
  unfold Rltb. destruct (Rlt_dec y 0) as [L|L].
  - rewrite Rabs_left in S3 by exact L. apply C_ext; cbn; lra.
  - rewrite Rabs_right in S3 by lra. apply C_ext; cbn; lra.
Qed.

(** ** The two roots a +- sqrt(a^2 - wo^2) of x^2 - 2ax + wo^2 *)
Section Quad.
Variable wo : R.
Notation wo2 := (RtoC (wo * wo)%R).
Definition rp (a : C) : C := (a + csqrt (csquare a - wo2))%C.
Definition rm (a : C) : C := (a - csqrt (csquare a - wo2))%C.
Lemma rp_rm_sum a : (rp a + rm a = a + a)%C.
Proof. unfold rp, rm. ring. Qed.
Lemma rp_rm_prod a : (rp a * rm a = wo2)%C.
Proof.
  unfold rp, rm. set (c := csqrt _). assert (Q : (c * c = csquare a - wo2)%C) by apply csqrt_sq.
  transitivity (csquare a - c * c)%C; [unfold csquare; ring|]. rewrite Q. ring.
Qed.
Lemma quad_hom l a b : hom (map rp l ++ map rm l) a b = hom l (a * a + b * b * wo2)%C (RtoC 2%R * a * b)%C.
Proof.
  rewrite hom_app. induction l as [|r l IH]; [cbn; apply C_ext; cbn; ring|].
  cbn [map]. rewrite !hom_cons, <- IH.
  transitivity ((a * a - a * b * (rp r + rm r) + b * b * (rp r * rm r)) * (hom (map rp l) a b * hom (map rm l) a b))%C; [ring|].
  rewrite rp_rm_sum, rp_rm_prod. replace (RtoC 2) with (C1 + C1)%C by cx. ring.
Qed.
Lemma quad_stable a : wo <> 0 -> cre a < 0 -> cre (rp a) < 0 /\ cre (rm a) < 0.
Proof.
  intros Hw Ha. pose proof (rp_rm_sum a) as S. pose proof (rp_rm_prod a) as P.
  destruct (rp a) as [u v], (rm a) as [u' v'], a as [x y]. cbn in *.
  injection S as S1 S2. injection P as P1 P2. assert (0 < wo * wo) by nra.
  (* u' |r|^2 = u wo^2 *)
  assert (Q : u' * (u * u + v * v) = u * (wo * wo)).
  { rewrite <- P1. transitivity (u * (u * u' - v * v') + v * (u * v' + v * u')); [ring|]. rewrite P2. ring. }
  split.
  - destruct (Rlt_or_le u 0); [assumption|]. exfalso. assert (L : u' < 0) by lra.
    assert (N : 0 <= u * u + v * v) by nra. assert (P0 : u' * (u * u + v * v) <= 0) by nra. assert (u * (wo * wo) >= 0) by nra.
    assert (U0 : u = 0) by nra. subst u. assert (V : v * v = 0) by nra. assert (v = 0) by nra. subst v. lra.
  - destruct (Rlt_or_le u' 0); [assumption|]. exfalso. assert (L : u < 0) by lra.
    assert (N : 0 <= u * u + v * v) by nra. assert (0 <= u' * (u * u + v * v)) by (apply Rmult_le_pos; assumption). nra.
Qed.
Lemma sq_cases (c d : C) : (c * c = d * d)%C -> c = d \/ c = (- d)%C.
Proof.
  intros Q. assert (P : ((c - d) * (c + d) = C0)%C) by (transitivity (c * c - d * d)%C; [ring|rewrite Q; ring]).
  apply Cmul_eq0 in P. destruct P as [P|P]; [left; apply Csub_eq0; exact P|right].
  transitivity (c + d - d)%C; [ring|]. rewrite P. ring.
Qed.
Lemma quad_conj a : Permutation [cconj (rp a); cconj (rm a)] [rp (cconj a); rm (cconj a)].
Proof.
  unfold rp, rm. rewrite cconj_add, cconj_sub. set (c := cconj (csqrt _)). set (d := csqrt (csquare (cconj a) - _)%C).
  assert (Q : (c * c = d * d)%C).
  { unfold c, d. rewrite <- cconj_mul, !csqrt_sq. unfold csquare. rewrite cconj_sub, cconj_mul, cconj_RtoC. reflexivity. }
  apply sq_cases in Q. destruct Q as [-> | ->]; [apply Permutation_refl|].
  replace (cconj a + - d)%C with (cconj a - d)%C by ring. replace (cconj a - - d)%C with (cconj a + d)%C by ring. apply perm_swap.
Qed.
Lemma pairs_perm {A B} (g h : A -> B) l : Permutation (map g l ++ map h l) (flat_map (fun x => [g x; h x]) l).
Proof.
  induction l as [|x l IH]; [apply Permutation_refl|]. cbn [map app flat_map]. apply perm_skip.
  rewrite <- Permutation_middle. apply perm_skip. exact IH.
Qed.
Lemma quad_conj_closed l : conj_closed l -> conj_closed (map rp l ++ map rm l).
Proof.
  intros Hc. unfold conj_closed. rewrite map_app, !map_map.
  rewrite (pairs_perm (fun x => cconj (rp x)) (fun x => cconj (rm x)) l), (pairs_perm rp rm l).
  transitivity (flat_map (fun x => [rp x; rm x]) (map cconj l)).
  - clear Hc. induction l as [|x l IH]; [apply Permutation_refl|].
    change (Permutation ([cconj (rp x); cconj (rm x)] ++ flat_map (fun x => [cconj (rp x); cconj (rm x)]) l)
       ([rp (cconj x); rm (cconj x)] ++ flat_map (fun x => [rp x; rm x]) (map cconj l))).
    apply Permutation_app; [apply quad_conj|exact IH].
  - apply Permutation_flat_map. exact Hc.
Qed.
End Quad.

(** ** Low-pass to band-pass *)
Section Lp2bp.
Variables (f : @ZpkFormatFilter R) (wo bw : R).
Notation half := (fun r => r * RtoC (bw / 2)%R)%C.
Lemma lp2bp_eq f' : lp2bp_zpk_dyn f (Some wo) (Some bw) = Ok f' ->
  proper f /\
  zk_z f' = (map (rp wo) (map half (zk_z f)) ++ map (rm wo) (map half (zk_z f))) ++ repeat C0 (length (zk_p f) - length (zk_z f)) /\
  zk_p f' = map (rp wo) (map half (zk_p f)) ++ map (rm wo) (map half (zk_p f)) /\
  zk_k f' = zk_k f * bw ^ (length (zk_p f) - length (zk_z f)).
Proof.
  unfold lp2bp_zpk_dyn. destruct (relative_degree_dyn _ _) as [d| | |] eqn:Ed; try discriminate. cbn [bind].
  apply relative_degree_ok in Ed. destruct Ed as [Hp ->]. intros Q. injection Q as <-. cbn [zk_z zk_p zk_k unwrap_or].
  assert (W2 : ((wo * (wo * 1), 0) : C) = RtoC (wo * wo)%R) by (apply C_ext; cbn; [ring|reflexivity]).
  rewrite W2. rewrite npow_pow. rewrite !map_map. cbn [fst snd]. repeat split. exact Hp.
Qed.
Lemma bp_hom l a b : bw <> 0 -> hom (map (rp wo) (map half l) ++ map (rm wo) (map half l)) a b
  = hom l (a * a + b * b * RtoC (wo * wo)%R)%C (RtoC bw * a * b)%C.
Proof.
  intros Hb. rewrite quad_hom, lp2lp_hom. f_equal.
  replace (RtoC bw) with (RtoC 2%R * RtoC (bw / 2)%R)%C; [ring|]. rewrite <- RtoC_mul. f_equal. field.
Qed.
Lemma lp2bp_H f' x : lp2bp_zpk_dyn f (Some wo) (Some bw) = Ok f' -> bw <> 0 -> x <> C0 ->
  ~ In ((x * x + RtoC (wo * wo)%R) / (x * RtoC bw))%C (zk_p f) ->
  H f' x = H f ((x * x + RtoC (wo * wo)%R) / (x * RtoC bw))%C.
Proof.
  intros Hf Hb Hx Hs. apply lp2bp_eq in Hf. destruct Hf as [Hl [Ez [Ep Ek]]]. rewrite H_hom, Ez, Ep, Ek, hom_app, !bp_hom, hom_repeat by exact Hb.
  assert (Hc : RtoC bw <> C0) by (apply RtoC_neq0, Hb).
  replace (x * x + C1 * C1 * RtoC (wo * wo)%R)%C with (x * x + RtoC (wo * wo)%R)%C by ring.
  replace (RtoC bw * x * C1)%C with (x * RtoC bw)%C by ring. replace (x - C1 * C0)%C with x by ring.
  assert (Hxb : (x * RtoC bw)%C <> C0) by (apply Cmul_neq0; assumption).
  rewrite !hom_div by exact Hxb. unfold H, proper in *.
  assert (Q : cpow (x * RtoC bw)%C (length (zk_p f)) = (cpow (x * RtoC bw)%C (length (zk_z f)) * (cpow x (length (zk_p f) - length (zk_z f)) * cpow (RtoC bw) (length (zk_p f) - length (zk_z f))))%C).
  { replace (length (zk_p f)) with (length (zk_z f) + (length (zk_p f) - length (zk_z f)))%nat at 1 by lia. rewrite cpow_add. f_equal.
    generalize (length (zk_p f) - length (zk_z f))%nat. intros n. induction n as [|n IH]; cbn [cpow]; [ring|]. rewrite IH. ring. }
  rewrite Q, RtoC_mul, RtoC_pow. field.
  repeat split; try (apply cpow_neq0; assumption). apply root_product_neq0. exact Hs.
Qed.
End Lp2bp.

(** ** Low-pass to band-stop, no zeros *)
Section Lp2bs.
Variables (f : @ZpkFormatFilter R) (wo bw : R).
Hypothesis Z0 : zk_z f = [].
Hypothesis Hp : ~ In C0 (zk_p f).
Hypothesis Hr : conj_closed (zk_p f).
Notation inv := (fun r => RtoC (bw / 2)%R / r)%C.
Lemma lp2bs_eq : exists f', lp2bs_zpk_dyn f (Some wo) (Some bw) = Ok f' /\
  zk_z f' = repeat (0, wo) (length (zk_p f)) ++ repeat (0, - wo) (length (zk_p f)) /\
  zk_p f' = map (rp wo) (map inv (zk_p f)) ++ map (rm wo) (map inv (zk_p f)) /\
  RtoC (zk_k f') = (RtoC (zk_k f) / hom (zk_p f) C0 C1)%C.
Proof.
  unfold lp2bs_zpk_dyn. rewrite relative_degree_le by (rewrite Z0; cbn; lia). cbn [bind]. eexists. split; [reflexivity|].
  cbn [zk_z zk_p zk_k unwrap_or]. rewrite Z0. cbn [map length app fold_left]. rewrite Nat.sub_0_r. split; [|split].
  - f_equal; f_equal; apply C_ext; cbn; ring.
  - rewrite !map_map. cbn [fst snd].
    assert (W2 : (npow wo 2, @nzero R RNum) = RtoC (wo * wo)%R) by (apply C_ext; cbn; [ring|reflexivity]).
    rewrite W2. assert (I : forall r, In r (zk_p f) -> cmul (cdiv (nzero, bw / 2) r) (@nzero R RNum, nofZ (-1)) = inv r).
    { intros r Hi. apply C_ext; cbn; unfold Rdiv; ring. }
    f_equal; apply map_ext_in; intros r Hi; unfold rp, rm; rewrite <- (I r Hi); reflexivity.
  - rewrite RtoC_mul. rewrite (map_ext_in (fun pi => cmul (nofZ (-1), nzero) pi) cneg) by (intros; cx).
    rewrite !cprod_cpl, cpl_map_neg.
    assert (Hd : hom (zk_p f) C0 C1 <> C0) by (rewrite hom_1; apply root_product_neq0, Hp).
    assert (I : cim (hom (zk_p f) C0 C1) = 0) by apply (hom_real _ 0 1), Hr.
    assert (N : cre (hom (zk_p f) C0 C1) <> 0) by (intros Q; apply Hd; apply C_ext; assumption).
    change (ndiv none (cre (hom (zk_p f) C0 C1))) with (1 / cre (hom (zk_p f) C0 C1)).
    rewrite RtoC_div by exact N. rewrite (real_is_RtoC _ I). change (RtoC 1) with C1. field. exact Hd.
Qed.
Lemma bs_hom l a b : ~ In C0 l -> hom (map (rp wo) (map inv l) ++ map (rm wo) (map inv l)) a b
  = (hom l (RtoC bw * a * b) (a * a + b * b * RtoC (wo * wo)%R) / hom l C0 C1)%C.
Proof.
  intros Hn. rewrite quad_hom, inv_hom by exact Hn. f_equal. f_equal.
  replace (RtoC bw) with (RtoC 2%R * RtoC (bw / 2)%R)%C; [ring|]. rewrite <- RtoC_mul. f_equal. field.
Qed.
Lemma bs_zeros n a b : hom (repeat (0, wo) n ++ repeat (0, - wo) n) a b = cpow (a * a + b * b * RtoC (wo * wo)%R)%C n.
Proof.
  rewrite hom_app, !hom_repeat. induction n as [|n IH]; cbn [cpow]; [ring|]. rewrite <- IH.
  assert (Q : ((a - b * (0, wo)) * (a - b * (0, (- wo)%R)) = a * a + b * b * RtoC (wo * wo)%R)%C) by cx. rewrite <- Q. ring.
Qed.
End Lp2bs.

(** ** Transfer functions of the zero-free high-pass and band-stop transforms *)
Lemma lp2hp_H f wo f' x : lp2hp_zpk_dyn f (Some wo) = Ok f' -> zk_z f = [] -> ~ In C0 (zk_p f) -> conj_closed (zk_p f) ->
  x <> C0 -> ~ In (RtoC wo / x)%C (zk_p f) -> H f' x = H f (RtoC wo / x)%C.
Proof.
  intros Hf Z0 Hp Hr Hx Hs. destruct (lp2hp_eq f wo Z0 Hp Hr) as [g [Eg [Ez [Ep Ek]]]].
  assert (g = f') by congruence. subst g. rewrite H_hom, Ez, Ep, Ek, hom_repeat, inv_hom by exact Hp.
  replace (C1 * RtoC wo)%C with (RtoC wo) by ring. rewrite (hom_div _ (RtoC wo) x) by exact Hx.
  unfold H. rewrite Z0. cbn [root_product fold_right]. replace (x - C1 * C0)%C with x by ring.
  field. repeat split; try (apply cpow_neq0; exact Hx); try (rewrite ?hom_1; apply root_product_neq0; assumption).
Qed.
Lemma lp2bs_H f wo bw f' x : lp2bs_zpk_dyn f (Some wo) (Some bw) = Ok f' -> zk_z f = [] -> ~ In C0 (zk_p f) -> conj_closed (zk_p f) ->
  (x * x + RtoC (wo * wo)%R)%C <> C0 -> ~ In (x * RtoC bw / (x * x + RtoC (wo * wo)%R))%C (zk_p f) ->
  H f' x = H f (x * RtoC bw / (x * x + RtoC (wo * wo)%R))%C.
Proof.
  intros Hf Z0 Hp Hr Hx Hs. destruct (lp2bs_eq f wo bw Z0 Hp Hr) as [g [Eg [Ez [Ep Ek]]]].
  assert (g = f') by congruence. subst g. rewrite H_hom, Ez, Ep, Ek, bs_zeros, bs_hom by exact Hp.
  replace (x * x + C1 * C1 * RtoC (wo * wo)%R)%C with (x * x + RtoC (wo * wo)%R)%C by ring.
  replace (RtoC bw * x * C1)%C with (x * RtoC bw)%C by ring. rewrite (hom_div _ (x * RtoC bw)%C) by exact Hx.
  unfold H. rewrite Z0. cbn [root_product fold_right].
  field. repeat split; try (apply cpow_neq0; exact Hx); try (rewrite ?hom_1; apply root_product_neq0; assumption).
Qed.

(** ** Stability and conjugate closure through the transforms *)
Lemma Forall_map_in {A B} (g : A -> B) (P : A -> Prop) (Q : B -> Prop) l : (forall x, P x -> Q (g x)) -> Forall P l -> Forall Q (map g l).
Proof. intros Hg. induction 1; cbn [map]; constructor; auto. Qed.
Lemma scale_stable w r : 0 < w -> cre r < 0 -> cre (r * RtoC w)%C < 0.
Proof. destruct r. cbn. intros. nra. Qed.
Lemma inv_stable w r : 0 < w -> cre r < 0 -> cre (RtoC w / r)%C < 0.
Proof.
  destruct r as [u v]. cbn. intros Hw Hu. assert (0 < u * u + v * v) by nra. unfold Rdiv.
  assert (0 < / (u * u + v * v)) by (apply Rinv_0_lt_compat; assumption).
  assert (w * u < 0) by nra. replace (w * u + 0 * v) with (w * u) by ring. nra.
Qed.
Lemma quad_Forall w l : w <> 0 -> Forall (fun r => cre r < 0) l -> Forall (fun r => cre r < 0) (map (rp w) l ++ map (rm w) l).
Proof.
  intros Hw Hl. apply Forall_app. split; apply (Forall_map_in _ (fun r => cre r < 0)); auto; intros r Hr; apply (quad_stable w r Hw Hr).
Qed.
Lemma scale_conj w r : (cconj r * RtoC w)%C = cconj (r * RtoC w)%C.
Proof. rewrite cconj_mul, cconj_RtoC. reflexivity. Qed.
Lemma inv_conj w r : (RtoC w / cconj r)%C = cconj (RtoC w / r)%C.
Proof. rewrite cconj_div, cconj_RtoC. reflexivity. Qed.
Lemma conj_closed_nil : conj_closed [].
Proof. apply Permutation_refl. Qed.
Lemma conj_closed_pm y n : conj_closed (repeat (0, y) n ++ repeat (0, - y) n).
Proof.
  unfold conj_closed. rewrite map_app, !map_repeat.
  replace (cconj (0, y)) with ((0, - y) : C) by cx. replace (cconj (0, - y)) with ((0, y) : C) by cx. apply Permutation_app_comm.
Qed.
