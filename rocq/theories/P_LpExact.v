(** Proofs that the high-pass and band-stop transforms are right for no prototype with
    zeros: products of linear factors that agree off a finite set agree everywhere, so the
    zeros of the result would have to be the images of the zeros. *)
From Coq Require Import List Arith ZArith Reals Permutation Lra Lia.
From Verif Require Import Base P_Sqrt Num Trans M_Complex M_Filter M_Design RSum Cx S_Design P_Poly P_Lp P_Stable.
Import ListNotations.
Local Open Scope R_scope.

Lemma cn_pos (z : C) : z <> C0 -> 0 < cnorm z.
Proof.
  intros N. pose proof (cnorm_sqr_pos z N) as P. rewrite <- cnorm_sq in P. pose proof (cnorm_pos z). nra.
Qed.
Lemma rp_cons r l x : root_product (r :: l) x = ((x - r) * root_product l x)%C.
Proof. reflexivity. Qed.
Lemma rp_root l x : In x l -> root_product l x = C0.
Proof. induction l as [|r l IH]; [intros []|]. intros [->|Hx]; rewrite rp_cons; [ring|]. rewrite (IH Hx). ring. Qed.
Lemma rp_zero l x : root_product l x = C0 -> In x l.
Proof.
  induction l as [|r l IH]; [intros Q; exfalso; apply C10; exact Q|]. rewrite rp_cons. intros Q. apply Cmul_eq0 in Q. destruct Q as [Q|Q]; [left; symmetry; apply Csub_eq0; exact Q|right; apply IH; exact Q].
Qed.

(** Products of linear factors are continuous along the real direction. *)
Lemma rp_lip l (x : C) : exists B, 0 <= B /\ forall t, 0 <= t <= 1 -> cnorm (root_product l (x + RtoC t) - root_product l x)%C <= B * t.
Proof.
  induction l as [|r l (B & HB & IH)].
  - exists 0. split; [lra|]. intros t Ht. change (root_product [] (x + RtoC t)%C) with C1. change (root_product [] x) with C1. replace (C1 - C1)%C with (RtoC 0) by cx. rewrite cnorm_RtoC, Rabs_R0. lra.
  - exists ((cnorm (x - r)%C + 1) * B + cnorm (root_product l x)). pose proof (cnorm_pos (x - r)%C). pose proof (cnorm_pos (root_product l x)). split; [nra|]. intros t Ht. specialize (IH t Ht). rewrite !rp_cons.
    replace ((x + RtoC t - r) * root_product l (x + RtoC t) - (x - r) * root_product l x)%C with ((x - r + RtoC t) * (root_product l (x + RtoC t) - root_product l x) + RtoC t * root_product l x)%C by ring.
    eapply Rle_trans; [apply cnorm_add|]. rewrite !cnorm_mul, !cnorm_RtoC, (Rabs_right t) by lra. pose proof (cnorm_add (x - r)%C (RtoC t)) as T. rewrite cnorm_RtoC, (Rabs_right t) in T by lra.
    pose proof (cnorm_pos (x - r + RtoC t)%C). pose proof (cnorm_pos (root_product l (x + RtoC t) - root_product l x)%C).
    assert (M : cnorm (x - r + RtoC t)%C * cnorm (root_product l (x + RtoC t) - root_product l x)%C <= (cnorm (x - r)%C + 1) * (B * t)) by (apply Rmult_le_compat; lra). lra.
Qed.
Lemma avoid (e : list C) (x : C) : exists d, 0 < d <= 1 /\ forall t, 0 < t < d -> ~ In (x + RtoC t)%C e.
Proof.
  induction e as [|r e (d & Hd & IH)]; [exists 1; split; [lra|]; intros t _ []|].
  destruct (Req_EM_T (cim x) (cim r)) as [Q|Q].
  - destruct (Rlt_dec 0 (cre r - cre x)) as [L|L].
    + exists (Rmin d (cre r - cre x)). pose proof (Rmin_l d (cre r - cre x)). pose proof (Rmin_r d (cre r - cre x)). split; [split; [apply Rmin_pos; lra|lra]|].
      intros t Ht [E|E]; [apply (f_equal fst) in E; cbn in E; unfold cre in *; lra|apply (IH t); [lra|exact E]].
    + exists d. split; [exact Hd|]. intros t Ht [E|E]; [apply (f_equal fst) in E; cbn in E; unfold cre in *; lra|apply (IH t); [lra|exact E]].
  - exists d. split; [exact Hd|]. intros t Ht [E|E]; [apply (f_equal snd) in E; cbn in E; unfold cim in *; lra|apply (IH t); [lra|exact E]].
Qed.
(** Agreement off a finite set is agreement. *)
Lemma rp_everywhere (a b : C) u v e : (forall x, ~ In x e -> (a * root_product u x = b * root_product v x)%C) -> forall x, (a * root_product u x = b * root_product v x)%C.
Proof.
  intros H x. apply Csub_eq0. destruct (Rle_lt_or_eq_dec 0 _ (cnorm_pos (a * root_product u x - b * root_product v x)%C)) as [Q|Q].
  2:{ apply cnorm_sqr_zero. rewrite <- cnorm_sq, <- Q. ring. }
  exfalso. set (g := cnorm (a * root_product u x - b * root_product v x)%C) in *.
  destruct (rp_lip u x) as (B1 & P1 & L1). destruct (rp_lip v x) as (B2 & P2 & L2). destruct (avoid e x) as (d & Hd & A).
  set (S := cnorm a * B1 + cnorm b * B2 + 1). pose proof (cnorm_pos a). pose proof (cnorm_pos b). assert (S1 : 1 <= S) by (unfold S; nra).
  set (t := Rmin (d / 2) (g / (2 * S))). assert (T0 : 0 < g / (2 * S)) by (apply Rdiv_lt_0_compat; lra). pose proof (Rmin_l (d / 2) (g / (2 * S))). pose proof (Rmin_r (d / 2) (g / (2 * S))).
  assert (T1 : 0 < t) by (apply Rmin_pos; lra). assert (T2 : t <= d / 2) by (unfold t; lra). assert (T3 : t <= g / (2 * S)) by (unfold t; lra).
  specialize (H (x + RtoC t)%C (A t ltac:(lra))). specialize (L1 t ltac:(lra)). specialize (L2 t ltac:(lra)).
  assert (E : (a * root_product u x - b * root_product v x)%C = (RtoC (-1) * (a * (root_product u (x + RtoC t) - root_product u x)) + b * (root_product v (x + RtoC t) - root_product v x))%C).
  { replace (RtoC (-1)) with (- C1)%C by cx. transitivity (a * root_product u x - b * root_product v x - (a * root_product u (x + RtoC t) - b * root_product v (x + RtoC t)))%C; [|ring]. rewrite H. ring. }
  assert (G : g <= cnorm a * (B1 * t) + cnorm b * (B2 * t)).
  { unfold g. rewrite E. eapply Rle_trans; [apply cnorm_add|]. rewrite !cnorm_mul, cnorm_RtoC. replace (Rabs (-1)) with 1 by (rewrite Rabs_left; lra). rewrite Rmult_1_l.
    apply Rplus_le_compat; apply Rmult_le_compat_l; assumption. }
  assert (G2 : g <= S * t - t) by (unfold S; lra). assert (G3 : S * t <= g / 2). { apply Rle_trans with (S * (g / (2 * S))); [apply Rmult_le_compat_l; lra|]. right. field. lra. } lra.
Qed.
(** The zeros, and the constants, are then the same. *)
Lemma rp_match (a b : C) u v e : (forall x, ~ In x e -> (a * root_product u x = b * root_product v x)%C) -> b <> C0 -> forall x, In x v -> In x u.
Proof.
  intros H Hb x Hx. pose proof (rp_everywhere a b u v e H) as G. assert (A : a <> C0).
  { intros ->. destruct (avoid v C0) as (d & Hd & A). specialize (A (d / 2) ltac:(lra)). specialize (G (C0 + RtoC (d / 2)%R)%C).
    replace (C0 * root_product u (C0 + RtoC (d / 2)%R))%C with C0 in G by ring. symmetry in G. apply Cmul_eq0 in G. destruct G as [G|G]; [exact (Hb G)|]. exact (A (rp_zero _ _ G)). }
  specialize (G x). rewrite (rp_root v x Hx) in G. replace (b * C0)%C with C0 in G by ring. apply Cmul_eq0 in G. destruct G as [G|G]; [contradiction|exact (rp_zero _ _ G)].
Qed.
Lemma min_modulus (l : list C) : l <> [] -> exists x, In x l /\ forall y, In y l -> cnorm x <= cnorm y.
Proof.
  induction l as [|r l IH]; [congruence|]. intros _. destruct l as [|s l]; [exists r; split; [left; reflexivity|]; intros y [<-|[]]; lra|].
  destruct IH as (x & Hx & M); [discriminate|]. destruct (Rle_dec (cnorm r) (cnorm x)) as [L|L].
  - exists r. split; [left; reflexivity|]. intros y [<-|Hy]; [lra|]. specialize (M y Hy). lra.
  - exists x. split; [right; exact Hx|]. intros y [<-|Hy]; [lra|]. exact (M y Hy).
Qed.

(** ** Low-pass to high-pass *)
Section Hp.
Variables (f f' : @ZpkFormatFilter R) (wo : R).
Hypothesis Hz : ~ In C0 (zk_z f).
Hypothesis Hp : ~ In C0 (zk_p f).
Hypothesis Hw : wo <> 0.
Hypothesis Hk : zk_k f <> 0.
Hypothesis Pr : proper f.
Hypothesis Ef : lp2hp_zpk_dyn f (Some wo) = Ok f'.
Definition badz (r : C) : C := (RtoC (2 * wo)%R * (0, 1) / r)%C.
Lemma hp_shape : zk_z f' = map badz (zk_z f) ++ repeat C0 (length (zk_p f) - length (zk_z f)) /\ zk_p f' = map (fun r => RtoC wo / r)%C (zk_p f).
Proof.
  unfold lp2hp_zpk_dyn in Ef. rewrite relative_degree_le in Ef by exact Pr. cbn [bind unwrap_or] in Ef. injection Ef as <-. cbn [zk_z zk_p]. split; [|reflexivity].
  f_equal. apply map_ext_in. intros r Hr. unfold badz. apply C_ext; cbn; unfold Rdiv; ring.
Qed.
Lemma hp_numerators : (forall s, s <> C0 -> ~ In (RtoC wo / s)%C (zk_p f) -> H f' s = H f (RtoC wo / s)%C) ->
  forall s, ~ In s (C0 :: zk_p f') -> (RtoC (zk_k f') * hom (zk_p f) C0 C1 * root_product (map badz (zk_z f)) s =
    RtoC (zk_k f) * hom (zk_z f) C0 C1 * root_product (map (fun r => RtoC wo / r)%C (zk_z f)) s)%C.
Proof.
  intros HH s Hs. assert (S0 : s <> C0) by (intros ->; apply Hs; left; reflexivity). destruct hp_shape as [Ez Ep].
  assert (NP : ~ In (RtoC wo / s)%C (zk_p f)).
  { intros Q. apply Hs. right. rewrite Ep. apply in_map_iff. exists (RtoC wo / s)%C. split; [|exact Q]. field. split; [exact S0|apply RtoC_neq0; exact Hw]. }
  specialize (HH s S0 NP). rewrite H_hom, Ez, Ep, hom_app, hom_repeat, (inv_hom (RtoC wo)) in HH by exact Hp. unfold H in HH.
  assert (P0 : hom (zk_p f) C0 C1 <> C0) by (rewrite hom_1; apply root_product_neq0, Hp). assert (Z0 : hom (zk_z f) C0 C1 <> C0) by (rewrite hom_1; apply root_product_neq0, Hz).
  assert (R0 : root_product (zk_p f) (RtoC wo / s)%C <> C0) by (apply root_product_neq0; exact NP).
  rewrite <- !hom_1, (inv_hom (RtoC wo)) by exact Hz. replace (C1 * RtoC wo)%C with (RtoC wo) in * by ring. rewrite (hom_div (zk_z f) (RtoC wo) s) by exact S0. rewrite (hom_div (zk_p f) (RtoC wo) s) in HH by exact S0. rewrite <- !hom_1. rewrite <- !hom_1 in HH. rewrite <- hom_1 in R0.
  unfold proper in Pr. set (d := (length (zk_p f) - length (zk_z f))%nat) in *. replace (length (zk_p f)) with (length (zk_z f) + d)%nat in HH by (unfold d; lia). rewrite cpow_add in HH.
  replace (s - C1 * C0)%C with s in HH by ring.
  assert (D1 : cpow s (length (zk_z f)) <> C0) by (apply cpow_neq0; exact S0). assert (D2 : cpow s d <> C0) by (apply cpow_neq0; exact S0).
  set (q := hom (zk_p f) (RtoC wo / s)%C C1) in *. set (n := hom (zk_z f) (RtoC wo / s)%C C1) in *. set (m := hom (map badz (zk_z f)) s C1) in *. set (p0 := hom (zk_p f) C0 C1) in *. set (z0 := hom (zk_z f) C0 C1) in *. set (A := cpow s (length (zk_z f))) in *. set (B := cpow s d) in *.
  clearbody q n m p0 z0 A B.
  assert (X : (RtoC (zk_k f') * (m * B) / (A * B * q / p0) * (A * q) = RtoC (zk_k f) * n / q * (A * q))%C) by (rewrite HH; reflexivity).
  replace (RtoC (zk_k f') * (m * B) / (A * B * q / p0) * (A * q))%C with (RtoC (zk_k f') * p0 * m)%C in X by (field; auto).
  replace (RtoC (zk_k f) * n / q * (A * q))%C with (RtoC (zk_k f) * n * A)%C in X by (field; auto). rewrite X. field. exact Z0.
Qed.
Lemma hp_wrong : zk_z f <> [] -> ~ forall s, s <> C0 -> ~ In (RtoC wo / s)%C (zk_p f) -> H f' s = H f (RtoC wo / s)%C.
Proof.
  intros NE HH. pose proof (hp_numerators HH) as G.
  assert (B0 : (RtoC (zk_k f) * hom (zk_z f) C0 C1)%C <> C0) by (apply Cmul_neq0; [apply RtoC_neq0, Hk|rewrite hom_1; apply root_product_neq0, Hz]).
  pose proof (rp_match _ _ _ _ _ G B0) as M. destruct (min_modulus (map (fun r => RtoC wo / r)%C (zk_z f))) as (x & Hx & Mn); [destruct (zk_z f); [congruence|discriminate]|].
  pose proof (M x Hx) as Hu. apply in_map_iff in Hu. destruct Hu as (r & Er & Hr). specialize (Mn (RtoC wo / r)%C (in_map (fun r => RtoC wo / r)%C _ _ Hr)).
  assert (R0 : r <> C0) by congruence. assert (N0 : (RtoC wo / r)%C <> C0).
  { intros Q. apply (RtoC_neq0 wo Hw). transitivity (RtoC wo / r * r)%C; [field; exact R0|]. rewrite Q. ring. }
  apply cn_pos in N0. replace x with (RtoC 2 * (0, 1) * (RtoC wo / r))%C in Mn.
  - rewrite !cnorm_mul, cnorm_RtoC, Rabs_right in Mn by lra. assert (I1 : cnorm ((0, 1) : C) = 1). { pose proof (cnorm_sq ((0, 1) : C)) as Q. pose proof (cnorm_pos ((0, 1) : C)). unfold cnorm_sqr in Q. cbn [cre cim fst snd nadd nmul RNum] in Q. nra. }
    rewrite I1 in Mn. lra.
  - rewrite <- Er. unfold badz. rewrite RtoC_mul. field. exact R0.
Qed.
End Hp.

(** ** Low-pass to band-stop *)
Section Bs.
Variables (f f' : @ZpkFormatFilter R) (wo bw : R).
Hypothesis Hz : ~ In C0 (zk_z f).
Hypothesis Hp : ~ In C0 (zk_p f).
Hypothesis Hw : wo <> 0.
Hypothesis Hb : bw <> 0.
Hypothesis Hk : zk_k f <> 0.
Hypothesis Pr : proper f.
Hypothesis Ef : lp2bs_zpk_dyn f (Some wo) (Some bw) = Ok f'.
Notation inv := (fun r => RtoC (bw / 2)%R / r)%C.
Notation W2 := (RtoC (wo * wo)%R).
(** The real part and the imaginary part the code gives the image of the zero [r]. *)
Definition bs_re (r : C) : R := cre (RtoC bw * (0, 1) / r)%C.
Definition bs_im (r : C) : R := cim (csqrt (RtoC (bs_re r * bs_re r - wo * wo)%R)).
Definition bs_bad (l : list C) : list C := map (fun r => (bs_re r, bs_im r)) l ++ map (fun r => (bs_re r, - bs_im r)) l.
Lemma bs_shape : zk_z f' = (bs_bad (zk_z f) ++ repeat (0, wo) (length (zk_p f) - length (zk_z f))) ++ repeat (0, - wo) (length (zk_p f) - length (zk_z f)) /\
  zk_p f' = map (rp wo) (map inv (zk_p f)) ++ map (rm wo) (map inv (zk_p f)).
Proof.
  enough (Q : exists g, lp2bs_zpk_dyn f (Some wo) (Some bw) = Ok g /\ zk_z g = (bs_bad (zk_z f) ++ repeat (0, wo) (length (zk_p f) - length (zk_z f))) ++ repeat (0, - wo) (length (zk_p f) - length (zk_z f)) /\
    zk_p g = map (rp wo) (map inv (zk_p f)) ++ map (rm wo) (map inv (zk_p f))) by (destruct Q as (g & Eg & Q); assert (g = f') by congruence; subst g; exact Q).
  unfold lp2bs_zpk_dyn. rewrite relative_degree_le by exact Pr. cbn [bind]. eexists. split; [reflexivity|]. cbn [zk_z zk_p unwrap_or].
  assert (E2 : (npow wo 2, @nzero R RNum) = W2) by (apply C_ext; cbn; [ring|reflexivity]). rewrite E2. rewrite !map_map. cbn [fst snd]. split.
  - apply (f_equal2 (@app C)); [apply (f_equal2 (@app C)); [unfold bs_bad; apply (f_equal2 (@app C))|]|]; [| |apply (f_equal (fun c => repeat c _)); apply C_ext; cbn; ring|apply (f_equal (fun c => repeat c _)); apply C_ext; cbn; ring].
    + apply map_ext_in. intros r Hr. assert (A : cre (cmul (cdiv (bw * nofZ (-1), nzero) r) (@nzero R RNum, nofZ (-1))) = bs_re r) by (unfold bs_re; cbn; unfold Rdiv; ring).
      set (h := cmul _ _) in *. cbn [cre cim fst snd]. unfold bs_im. rewrite <- A. f_equal. f_equal. f_equal. apply C_ext; cbn; ring.
    + apply map_ext_in. intros r Hr. assert (A : cre (cmul (cdiv (bw * nofZ (-1), nzero) r) (@nzero R RNum, nofZ (-1))) = bs_re r) by (unfold bs_re; cbn; unfold Rdiv; ring).
      set (h := cmul _ _) in *. cbn [cre cim fst snd]. unfold bs_im. rewrite <- A. f_equal. replace (csub (csquare (csub h (nzero, cim h))) W2) with (RtoC (cre h * cre h - wo * wo)%R) by (apply C_ext; cbn; ring). cbn [nmul nofZ RNum]. change (IZR (-1)) with (-1). ring.
  - assert (I : forall r, In r (zk_p f) -> cmul (cdiv (nzero, bw / 2) r) (@nzero R RNum, nofZ (-1)) = inv r) by (intros r Hi; apply C_ext; cbn; unfold Rdiv; ring).
    f_equal; apply map_ext_in; intros r Hi; unfold rp, rm; rewrite <- (I r Hi); reflexivity.
Qed.
Definition bs_sub (s : C) : C := (s * RtoC bw / (s * s + W2))%C.
Definition bs_right : list C := map (rp wo) (map inv (zk_z f)) ++ map (rm wo) (map inv (zk_z f)).
Lemma bs_numerators : (forall s, (s * s + W2)%C <> C0 -> ~ In (bs_sub s) (zk_p f) -> H f' s = H f (bs_sub s)) ->
  forall s, ~ In s ([(0, wo); (0, - wo)] ++ zk_p f') -> (RtoC (zk_k f') * hom (zk_p f) C0 C1 * root_product (bs_bad (zk_z f)) s =
    RtoC (zk_k f) * hom (zk_z f) C0 C1 * root_product bs_right s)%C.
Proof.
  intros HH s Hs. destruct bs_shape as [Ez Ep].
  assert (S0 : (s * s + W2)%C <> C0).
  { intros Q. apply Hs. apply in_or_app. left. assert (F : ((s - (0, wo)) * (s - (0, (- wo)%R)) = C0)%C) by (rewrite <- Q; cx). apply Cmul_eq0 in F. destruct F as [F|F]; apply Csub_eq0 in F; subst s; cbn; auto. }
  assert (NP : ~ In (bs_sub s) (zk_p f)).
  { intros Q. apply Hs. apply in_or_app. right. apply rp_zero. rewrite Ep, <- hom_1, bs_hom by exact Hp.
    replace (s * s + C1 * C1 * W2)%C with (s * s + W2)%C by ring. replace (RtoC bw * s * C1)%C with (s * RtoC bw)%C by ring. rewrite (hom_div _ (s * RtoC bw)%C) by exact S0. fold (bs_sub s). rewrite (rp_root _ _ Q).
    apply C_ext; cbn; unfold Rdiv; ring. }
  specialize (HH s S0 NP). rewrite H_hom, Ez, Ep, bs_hom in HH by exact Hp. rewrite <- app_assoc, hom_app, bs_zeros in HH. unfold H in HH.
  unfold bs_right. rewrite <- !hom_1, bs_hom by exact Hz.
  replace (s * s + C1 * C1 * W2)%C with (s * s + W2)%C in * by ring. replace (RtoC bw * s * C1)%C with (s * RtoC bw)%C in * by ring.
  rewrite (hom_div (zk_z f) (s * RtoC bw)%C) by exact S0. rewrite (hom_div (zk_p f) (s * RtoC bw)%C) in HH by exact S0. fold (bs_sub s) in HH. fold (bs_sub s).
  assert (P0 : hom (zk_p f) C0 C1 <> C0) by (rewrite hom_1; apply root_product_neq0, Hp). assert (Z0 : hom (zk_z f) C0 C1 <> C0) by (rewrite hom_1; apply root_product_neq0, Hz).
  assert (R0 : root_product (zk_p f) (bs_sub s) <> C0) by (apply root_product_neq0; exact NP).
  unfold proper in Pr. set (d := (length (zk_p f) - length (zk_z f))%nat) in *. replace (length (zk_p f)) with (length (zk_z f) + d)%nat in HH by (unfold d; lia). rewrite cpow_add in HH.
  assert (D1 : cpow (s * s + W2)%C (length (zk_z f)) <> C0) by (apply cpow_neq0; exact S0). assert (D2 : cpow (s * s + W2)%C d <> C0) by (apply cpow_neq0; exact S0).
  set (q := root_product (zk_p f) (bs_sub s)) in *. set (n := root_product (zk_z f) (bs_sub s)) in *. set (m := hom (bs_bad (zk_z f)) s C1) in *. set (p0 := hom (zk_p f) C0 C1) in *. set (z0 := hom (zk_z f) C0 C1) in *. set (A := cpow (s * s + W2)%C (length (zk_z f))) in *. set (B := cpow (s * s + W2)%C d) in *.
  clearbody q n m p0 z0 A B.
  assert (X : (RtoC (zk_k f') * (m * B) / (A * B * q / p0) * (A * q) = RtoC (zk_k f) * n / q * (A * q))%C) by (rewrite HH; reflexivity).
  replace (RtoC (zk_k f') * (m * B) / (A * B * q / p0) * (A * q))%C with (RtoC (zk_k f') * p0 * m)%C in X by (field; auto).
  replace (RtoC (zk_k f) * n / q * (A * q))%C with (RtoC (zk_k f) * n * A)%C in X by (field; auto). rewrite X. field. exact Z0.
Qed.
(** A zero the code computes is real or of modulus [wo]. *)
Lemma bad_cases r x : x = (bs_re r, bs_im r) \/ x = (bs_re r, - bs_im r) -> cim x = 0 \/ (cre x * cre x + cim x * cim x = wo * wo).
Proof.
  intros Hx. pose proof (csqrt_sq (RtoC (bs_re r * bs_re r - wo * wo)%R)) as Q. pose proof (f_equal fst Q) as Q1. pose proof (f_equal snd Q) as Q2. unfold bs_im in Hx. destruct (csqrt (RtoC (bs_re r * bs_re r - wo * wo)%R)) as [u v]. cbn in Q1, Q2, Hx.
  assert (UV : u * v = 0) by lra. apply Rmult_integral in UV. destruct UV as [-> | ->].
  - right. destruct Hx as [-> | ->]; cbn; nra.
  - left. destruct Hx as [-> | ->]; cbn; lra.
Qed.
Lemma right_root r : In r (zk_z f) -> In (rp wo (inv r)) bs_right /\ (rp wo (inv r) * rp wo (inv r) + W2 = RtoC bw / r * rp wo (inv r))%C.
Proof.
  intros Hr. split; [unfold bs_right; apply in_or_app; left; apply in_map, (in_map inv); exact Hr|]. assert (R0 : r <> C0) by congruence.
  pose proof (rp_rm_sum wo (inv r)) as S. pose proof (rp_rm_prod wo (inv r)) as P. rewrite <- P. transitivity (rp wo (inv r) * (rp wo (inv r) + rm wo (inv r)))%C; [ring|]. rewrite S.
  replace (RtoC bw) with (RtoC (bw / 2)%R + RtoC (bw / 2)%R)%C by (apply C_ext; cbn; field). field. exact R0.
Qed.
Lemma bs_wrong : zk_z f <> [] -> ~ forall s, (s * s + W2)%C <> C0 -> ~ In (bs_sub s) (zk_p f) -> H f' s = H f (bs_sub s).
Proof.
  intros NE HH. pose proof (bs_numerators HH) as G.
  assert (B0 : (RtoC (zk_k f) * hom (zk_z f) C0 C1)%C <> C0) by (apply Cmul_neq0; [apply RtoC_neq0, Hk|rewrite hom_1; apply root_product_neq0, Hz]).
  pose proof (rp_match _ _ _ _ _ G B0) as M. assert (WP : 0 < wo * wo) by nra.
  assert (AN : forall r, In r (zk_z f) -> exists q x, In q (zk_z f) /\ (x = (bs_re q, bs_im q) \/ x = (bs_re q, - bs_im q)) /\ x <> C0 /\ (x * x + W2 = RtoC bw / r * x)%C).
  { intros r Hr. destruct (right_root r Hr) as [I Q]. pose proof (M _ I) as U. set (x := rp wo (inv r)) in *. unfold bs_bad in U. apply in_app_or in U.
    assert (X0 : x <> C0). { intros Z. rewrite Z in Q. pose proof (f_equal fst Q) as Q1. replace (RtoC bw / r * C0)%C with C0 in Q1 by ring. cbn in Q1. lra. }
    destruct U as [U|U]; apply in_map_iff in U; destruct U as (q & E & Hq); exists q, x; auto. }
  assert (RL : forall r, In r (zk_z f) -> cim r = 0).
  { intros r Hr. destruct (AN r Hr) as (q & x & Hq & Cx & X0 & E). assert (R0 : r <> C0) by congruence. apply bad_cases in Cx.
    assert (T : exists t, (RtoC bw / r = RtoC t)%C).
    { destruct Cx as [I|I].
      - exists (cre x + wo * wo / cre x). assert (X1 : cre x <> 0) by (intros Z; apply X0; apply C_ext; assumption).
        transitivity ((x * x + W2) / x)%C; [rewrite E; field; auto|]. destruct x as [u v]. cbn in I, X1. subst v. apply C_ext; cbn; field; exact X1.
      - exists (2 * cre x). transitivity ((x * x + W2) / x)%C; [rewrite E; field; auto|]. destruct x as [u v]. cbn in I. rewrite <- I. replace (RtoC (u * u + v * v)) with ((u, v) * (u, (- v)%R))%C by (apply C_ext; cbn; ring).
        transitivity ((u, v) + (u, (- v)%R))%C; [field; exact X0|apply C_ext; cbn; ring]. }
    destruct T as [t T]. assert (T0 : t <> 0). { intros ->. assert (Z : RtoC bw = C0) by (transitivity (RtoC bw / r * r)%C; [field; exact R0|]; rewrite T; change (RtoC 0) with C0; ring). exact (RtoC_neq0 bw Hb Z). }
    assert (E2 : r = RtoC (bw / t)). { rewrite RtoC_div by exact T0. rewrite <- T. field. split; [exact R0|apply RtoC_neq0; exact Hb]. } rewrite E2. reflexivity. }
  destruct (zk_z f) as [|r l] eqn:Ez; [congruence|]. rewrite <- Ez in *. assert (Hr : In r (zk_z f)) by (rewrite Ez; left; reflexivity).
  destruct (AN r Hr) as (q & x & Hq & Cx & X0 & E). assert (R0 : r <> C0) by congruence. pose proof (RL q Hq) as Iq.
  assert (Re : bs_re q = 0). { unfold bs_re. destruct q as [a b]. cbn in Iq. subst b. cbn. unfold Rdiv. ring. }
  assert (X1 : cre x = 0) by (destruct Cx as [-> | ->]; exact Re). apply bad_cases in Cx.
  assert (S : (x * x + W2)%C = C0). { destruct Cx as [I|I]; [exfalso; apply X0; apply C_ext; assumption|]. destruct x as [u v]. cbn in I, X1. subst u. apply C_ext; cbn; lra. }
  rewrite S in E. symmetry in E. apply Cmul_eq0 in E. destruct E as [E|E]; [|contradiction].
  apply (RtoC_neq0 bw Hb). transitivity (RtoC bw / r * r)%C; [field; exact R0|]. rewrite E. ring.
Qed.
End Bs.
