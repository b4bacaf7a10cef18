(** Theorems about [zpk2sos_dyn]: C45, C46, and the Sos output of the design functions. *)
From Coq Require Import List Arith ZArith Reals Permutation Lra Lia Bool.
From Verif Require Import Base Num Trans M_Complex M_Fourier M_Filter M_Design Cx S_Design P_Bessel P_Zi P_Poly P_Lp P_Sort P_Proto P_Iir P_Iir2 T_Iir P_Sos P_Sos2.
Import ListNotations.
Local Open Scope R_scope.

(** ** C45: digital *)

(** The transfer function in negative powers, as [sosfilt] applies it:
    k prod(1 - z_i/x) / prod(1 - p_i/x).  It is H with as many zeros or poles added at
    the origin as are needed to make their numbers equal. *)
Definition Hd (f : @ZpkFormatFilter R) (x : C) : C :=
  (RtoC (zk_k f) * fold_right (fun r acc => (C1 - r / x) * acc) C1 (zk_z f)
    / fold_right (fun r acc => (C1 - r / x) * acc) C1 (zk_p f))%C.
(** Fresh sections whose product is that transfer function. *)
Definition realises (sos : list (Sos R)) (f : @ZpkFormatFilter R) : Prop :=
  Forall (fun s => a0 s = 1 /\ zi0 s = 0 /\ zi1 s = 0) sos /\
  forall x, x <> C0 -> ~ In x (zk_p f) -> sos_den sos x <> C0 /\ (sos_num sos x / sos_den sos x)%C = Hd f x.

Lemma neg_product l x : x <> C0 -> root_product l x = (cpow x (length l) * fold_right (fun r acc => (C1 - r / x) * acc) C1 l)%C.
Proof.
  intros Hx. induction l as [|r l IH]; cbn [root_product fold_right length cpow]; [ring|]. fold (root_product l x). rewrite IH. field. exact Hx.
Qed.
Lemma Hd_H f x : x <> C0 -> ~ In x (zk_p f) -> (Hd f x * cpow x (length (zk_z f)))%C = (H f x * cpow x (length (zk_p f)))%C.
Proof.
  intros Hx Hp. unfold Hd, H. rewrite (neg_product (zk_z f) x Hx).
  assert (Hn := root_product_neq0 _ _ Hp). rewrite (neg_product (zk_p f) x Hx) in *.
  set (A := fold_right _ _ (zk_z f)). set (B := fold_right _ _ (zk_p f)) in *. set (c1 := cpow x (length (zk_z f))) in *. set (c2 := cpow x (length (zk_p f))) in *.
  clearbody A B c1 c2. assert (c2 <> C0) by (intros ->; apply Hn; ring). assert (B <> C0) by (intros ->; apply Hn; ring). field. split; assumption.
Qed.
(** With equally many zeros and poles nothing is added. *)
Lemma Hd_balanced f x : x <> C0 -> ~ In x (zk_p f) -> length (zk_z f) = length (zk_p f) -> Hd f x = H f x.
Proof.
  intros Hx Hp El. pose proof (Hd_H f x Hx Hp) as Q. rewrite El in Q. assert (Hn := cpow_neq0 x (length (zk_p f)) Hx).
  set (c := cpow x (length (zk_p f))) in *. clearbody c. transitivity (Hd f x * c / c)%C; [field; exact Hn|]. rewrite Q. field. exact Hn.
Qed.
Lemma realise_ratio f sos L : Forall fresh sos -> (length (zk_z f) <= 2 * L)%nat -> (length (zk_p f) <= 2 * L)%nat ->
  (forall x, sos_num sos x = (RtoC (zk_k f) * root_product (zk_z f) x * cpow x (2 * L - length (zk_z f)))%C /\
             sos_den sos x = (root_product (zk_p f) x * cpow x (2 * L - length (zk_p f)))%C) -> realises sos f.
Proof.
  intros Fs Lz Lp Hx. split; [exact Fs|]. intros x Hx0 Hxp. destruct (Hx x) as [-> ->].
  assert (Hn := root_product_neq0 _ _ Hxp). rewrite (neg_product (zk_z f) x Hx0), (neg_product (zk_p f) x Hx0) in *. unfold Hd.
  set (A := fold_right _ _ (zk_z f)). set (B := fold_right _ _ (zk_p f)) in *. 
  assert (E1 : (cpow x (length (zk_z f)) * cpow x (2 * L - length (zk_z f)))%C = cpow x (2 * L)) by (rewrite <- cpow_add; f_equal; lia).
  assert (E2 : (cpow x (length (zk_p f)) * cpow x (2 * L - length (zk_p f)))%C = cpow x (2 * L)) by (rewrite <- cpow_add; f_equal; lia).
  set (c1 := cpow x (length (zk_z f))) in *. set (c2 := cpow x (length (zk_p f))) in *.
  set (d1 := cpow x (2 * L - length (zk_z f))) in *. set (d2 := cpow x (2 * L - length (zk_p f))) in *.
  assert (Hc := cpow_neq0 x (2 * L) Hx0). set (c := cpow x (2 * L)) in *. clearbody A B c1 c2 d1 d2 c.
  assert (B <> C0) by (intros ->; apply Hn; ring).
  replace (RtoC (zk_k f) * (c1 * A) * d1)%C with (RtoC (zk_k f) * A * (c1 * d1))%C by ring. replace (c2 * B * d2)%C with (B * (c2 * d2))%C by ring.
  rewrite E1, E2. split; [apply Cmul_neq0; assumption|]. field. split; assumption.
Qed.

(** The sections have a0 = 1 and zero state, there are ceil(n/2) of them (one if there
    are neither zeros nor poles), and their product is the filter.  The exact numerator
    and denominator are given too.  Missing for the full property: filters with a zero
    or pole that is not real but closer to the real axis than the relative tolerance
    100 epsilon; there the code panics (C45_near_real_refuted). *)
Theorem C45_zpk2sos_digital_partial epsilon sort order f pairing analog :
  0 <= epsilon -> is_sort sort ->
  real_filter f -> separated epsilon (zk_z f) -> separated epsilon (zk_p f) ->
  analog <> Some true -> (pairing = None \/ pairing = Some Nearest) ->
  let L := Nat.max 1 ((Nat.max (length (zk_z f)) (length (zk_p f)) + 1) / 2) in
  exists sos, zpk2sos_dyn epsilon sort order f pairing analog = Ok sos /\ length sos = L /\ realises sos f /\
    forall x, sos_num sos x = (RtoC (zk_k f) * root_product (zk_z f) x * cpow x (2 * L - length (zk_z f)))%C /\
              sos_den sos x = (root_product (zk_p f) x * cpow x (2 * L - length (zk_p f)))%C.
Proof.
  intros He Hs Hr Hz Hp Ha Hpr L. destruct (zpk2sos_nearest epsilon He sort Hs order f pairing analog Hr Hz Hp Ha Hpr) as [sos [E' [Ls [Fs Hx]]]].
  fold L in Ls, Hx. exists sos. split; [exact E'|]. split; [exact Ls|]. split; [|exact Hx].
  assert (HL : (Nat.max (length (zk_z f)) (length (zk_p f)) <= 2 * L)%nat).
  { unfold L. set (M := Nat.max (length (zk_z f)) (length (zk_p f))). pose proof (Nat.div_mod (M + 1) 2 ltac:(lia)). pose proof (Nat.mod_upper_bound (M + 1) 2 ltac:(lia)). lia. }
  apply (realise_ratio f sos L Fs); [lia|lia|exact Hx].
Qed.
Print Assumptions C45_zpk2sos_digital_partial.

(** A conjugate pair of poles within the tolerance: both are taken for real ones, one of
    them is paired with its own conjugate and the other is left over. *)
Lemma near_real_pair_panics epsilon sort order r k pairing analog :
  is_sort sort -> cim r <> 0 -> Rabs (cim r) <= epsilon * 100 * Rabs (cre r) ->
  analog <> Some true -> (pairing = None \/ pairing = Some Nearest) ->
  zpk2sos_dyn epsilon sort order (mkZpk [] [r; cconj r] k) pairing analog = Panic.
Proof.
  intros Hs Hi Hn Ha Hpr.
  assert (Ea : unwrap_or analog false = false) by (destruct analog as [[|]|]; [contradiction Ha; reflexivity|reflexivity|reflexivity]).
  assert (Ep : unwrap_or pairing (if unwrap_or analog false then Minimal else Nearest) = Nearest) by (rewrite Ea; destruct Hpr as [->| ->]; reflexivity).
  rewrite zpk2sos_body; [|right; discriminate|rewrite Ea; reflexivity]. rewrite Ep, Ea. cbn [zk_z zk_p zk_k].
  unfold pad_zp. cbn [is_minimal negb length Nat.sub repeat app Nat.max Nat.add Nat.odd Nat.even rassert Nat.eqb bind]. change (3 / 2)%nat with 1%nat.
  assert (Nr : forall w, w = r \/ w = cconj r -> near_real (epsilon * 100) w = true /\ isr w = false).
  { assert (Nn : forall w, cim w <> 0 -> Rabs (cim w) <= epsilon * 100 * Rabs (cre w) -> near_real (epsilon * 100) w = true /\ isr w = false).
    { intros w W1 W2. split; [|apply isr_false, W1]. unfold near_real. rewrite csqrt_square_re. cbn [nabs nleb nmul RNum]. destruct (Rleb_spec (Rabs (cim w)) (epsilon * 100 * Rabs (cre w))); [reflexivity|contradiction]. }
    intros w [->| ->]; apply Nn; try assumption; change (cim (cconj r)) with (- cim r); change (cre (cconj r)) with (cre r); rewrite ?Rabs_Ropp; [lra|assumption]. }
  assert (CP : exists zs, cplxreal_dyn epsilon sort [r; cconj r] None = Ok ([], zs) /\ Permutation [r; cconj r] zs).
  { unfold cplxreal_dyn. cbn [unwrap_or]. change (nmul epsilon (nofZ 100)) with (epsilon * 100). destruct (Hs _ le_cplx_abs [r; cconj r]) as [HP _].
    set (zs := sort _ le_cplx_abs [r; cconj r]) in *. cbv zeta.
    replace (filter (near_real (epsilon * 100)) zs) with zs; [rewrite Nat.eqb_refl; exists zs; split; [reflexivity|exact HP]|].
    rewrite (filter_ext_in _ (fun _ => true)); [clear; induction zs as [|x zs IH]; [reflexivity|cbn; f_equal; exact IH]|].
    intros w Hw. apply (Permutation_in _ (Permutation_sym HP)) in Hw. apply Nr. destruct Hw as [<-|[<-|[]]]; auto. }
  destruct CP as [zs [EP HP]].
  unfold body.
  assert (CZ : cplxreal_dyn epsilon sort [czero; czero] None = Ok ([], [czero; czero])).
  { unfold cplxreal_dyn. cbn [unwrap_or]. change (nmul epsilon (nofZ 100)) with (epsilon * 100). destruct (Hs _ le_cplx_abs [@czero R RNum; czero]) as [HP' _].
    set (zz := sort _ le_cplx_abs [czero; czero]) in *.
    assert (Ez : zz = [czero; czero]).
    { pose proof (Permutation_length HP') as L'. destruct zz as [|u [|v [|? ?]]]; try discriminate L'.
      assert (In u [@czero R RNum; czero]) by (apply (Permutation_in _ (Permutation_sym HP')); left; reflexivity).
      assert (In v [@czero R RNum; czero]) by (apply (Permutation_in _ (Permutation_sym HP')); right; left; reflexivity).
      f_equal; [|f_equal]; cbn in *; intuition. }
    rewrite Ez. clear. cbv zeta.
    assert (N0 : near_real (epsilon * 100) (@czero R RNum) = true).
    { unfold near_real. rewrite csqrt_square_re. cbn. rewrite Rabs_R0, Rmult_0_r. destruct (Rleb_spec 0 0); [reflexivity|lra]. }
    cbn [filter]. rewrite N0. reflexivity. }
  rewrite CZ, EP. cbn [bind app seq rfold].
  destruct (pick_worst false zs) as [i1 [p1 [p' [E1 [E2 HP1]]]]].
  { intros ->. apply Permutation_sym, Permutation_nil in HP. discriminate HP. }
  unfold pair_step. rewrite E1. cbn [bind]. rewrite E2. cbn [bind]. change (is_zero (cim p1)) with (isr p1).
  assert (Hin : forall w, In w (p1 :: p') -> isr w = false).
  { intros w Hw. apply (Permutation_in _ (Permutation_sym HP1)), (Permutation_in _ (Permutation_sym HP)) in Hw. apply Nr. destruct Hw as [<-|[<-|[]]]; auto. }
  rewrite (Hin p1) by (left; reflexivity). cbn [andb negb].
  assert (C0' : count_real p' = 0%nat).
  { destruct (Nat.eq_dec (count_real p') 0) as [Q|Q]; [exact Q|]. destruct (count_real_pos p' Q) as [w [Hw Ew]]. rewrite (Hin w) in Ew by (right; exact Hw). discriminate. }
  assert (L' : length p' = 1%nat).
  { pose proof (Permutation_length HP) as Q1. pose proof (Permutation_length HP1) as Q2. cbn in Q1, Q2. lia. }
  rewrite C0', L'. cbn [Nat.eqb andb Nat.add bind length negb].
  assert (I0 : isr (@czero R RNum) = true) by (apply isr_true; reflexivity).
  destruct (pick_nearest [czero; czero] p1 WAny) as [j1 [z1 [z' [G1 [G2 [HZ _]]]]]]; [exists czero; split; [left; reflexivity|reflexivity]|].
  rewrite G1. cbn [bind]. rewrite G2. cbn [bind].
  assert (Hz : forall w, In w (z1 :: z') -> isr w = true).
  { intros w Hw. apply (Permutation_in _ (Permutation_sym HZ)) in Hw. destruct Hw as [<-|[<-|[]]]; exact I0. }
  change (is_zero (cim z1)) with (isr z1). rewrite (Hz z1) by (left; reflexivity). cbn [negb].
  pose proof (Permutation_length HZ) as LZ. cbn [length] in LZ. destruct z' as [|w [|? ?]]; try discriminate LZ. cbn [length Nat.eqb negb].
  destruct (pick_nearest [w] p1 WReal) as [j2 [z2 [z'' [K1 [K2 [HZ' Ez2]]]]]].
  { exists w. split; [left; reflexivity|apply Hz; right; left; reflexivity]. }
  rewrite K1. cbn [bind]. rewrite K2. cbn [bind]. cbn [sel] in Ez2. change (is_zero (cim z2)) with (isr z2). rewrite Ez2. cbn [rassert bind].
  destruct (single_ok sort Hs [z1; z2] [p1; cconj p1]) as [s [-> _]]; try (cbn; lia).
  { apply conj_closed_reals. constructor; [apply Hz; left; reflexivity|constructor; [exact Ez2|constructor]]. }
  { apply conj_closed_pair. }
  pose proof (Permutation_length HZ') as LZ'. cbn [length] in LZ'. cbn [bind]. rewrite L'. replace (length z'') with 0%nat by lia. reflexivity.
Qed.

(** The property fails there, even for a stable filter with real coefficients. *)
Theorem C45_near_real_refuted epsilon sort order k :
  0 < epsilon < 1 / 2 -> is_sort sort ->
  exists f, real_filter f /\ stable_digital f /\ zk_k f = k /\ zpk2sos_dyn epsilon sort order f None None = Panic.
Proof.
  intros He Hs. exists (mkZpk [] [(1 / 2, epsilon); cconj (1 / 2, epsilon)] k). split; [split; [constructor|apply conj_closed_pair]|].
  split; [unfold stable_digital; cbn [zk_p]; repeat constructor; unfold cnorm_sqr; cbn; nra|]. split; [reflexivity|].
  apply near_real_pair_panics; [exact Hs| | |discriminate|left; reflexivity].
  - cbn. lra.
  - cbn. rewrite !Rabs_right by lra. lra.
Qed.
Print Assumptions C45_near_real_refuted.

(** ** C46: analog, and minimal pairing in general *)

(** Proved: equally many zeros and poles, and either an even number of poles, or exactly
    one real pole, or only real zeros (this covers every band-stop and high-pass design).
    The rest of the property is false: fewer zeros than poles gives a different filter
    (C46_fewer_zeros_refuted) or a panic (C46_odd_zero_free_refuted), and an odd filter with
    several real poles and complex zeros may panic (C46_odd_complex_zeros_refuted).  In every
    case a result that is returned is known (C46_result_law). *)
Theorem C46_zpk2sos_analog_partial epsilon sort order f pairing analog :
  0 <= epsilon -> is_sort sort ->
  (pairing = Some Minimal \/ (pairing = None /\ analog = Some true)) ->
  real_filter f -> separated epsilon (zk_z f) -> separated epsilon (zk_p f) ->
  length (zk_z f) = length (zk_p f) ->
  (Nat.Even (length (zk_p f)) \/ length (filter (fun r => Reqb (cim r) 0) (zk_p f)) = 1%nat \/ Forall (fun r => cim r = 0) (zk_z f)) ->
  exists sos, zpk2sos_dyn epsilon sort order f pairing analog = Ok sos /\
    length sos = Nat.max 1 ((length (zk_p f) + 1) / 2) /\
    ((0 < length (zk_p f))%nat -> Forall (fun s => a0 s = 1 /\ zi0 s = 0 /\ zi1 s = 0) sos) /\
    forall s, s <> C0 -> ~ In s (zk_p f) -> sos_den sos s <> C0 /\ (sos_num sos s / sos_den sos s)%C = H f s.
Proof.
  intros He Hs Hm Hr Hsz Hsp El Hpar.
  assert (Ep : unwrap_or pairing (if unwrap_or analog false then Minimal else Nearest) = Minimal) by (destruct Hm as [->|[-> ->]]; reflexivity).
  destruct (Nat.eq_dec (length (zk_p f)) 0) as [L0|L0].
  { rewrite L0. destruct f as [z p k]. cbn [zk_z zk_p zk_k] in *. apply length_zero_iff_nil in L0. subst p. cbn in El. apply length_zero_iff_nil in El. subst z.
    unfold zpk2sos_dyn. rewrite Ep. cbn [is_minimal negb zk_z zk_p zk_k length Nat.eqb andb]. rewrite andb_false_r.
    destruct (unwrap_or analog false); cbn [negb]; (eexists; split; [reflexivity|]); (split; [reflexivity|]); (split; [lia|]); intros x Hx _;
    rewrite sos_num_cons, sos_den_cons, !rpoly3; cbn [Sos_new M_Filter.b0 M_Filter.b1 M_Filter.b2 M_Filter.a0 M_Filter.a1 M_Filter.a2 sos_num sos_den fold_right H zk_z zk_p zk_k root_product];
    change (RtoC nzero) with C0; change (RtoC none) with C1; unfold H; cbn [zk_z zk_p zk_k root_product fold_right].
    - replace ((C0 * (x * x) + C0 * x + C1) * C1)%C with C1 by ring. split; [intros Q; apply (f_equal fst) in Q; cbn in Q; lra|f_equal; ring].
    - assert (Hxx : (x * x)%C <> C0) by (apply Cmul_neq0; exact Hx). replace ((C1 * (x * x) + C0 * x + C0) * C1)%C with (x * x)%C by ring. split; [exact Hxx|].
      field. split; [intros Q; apply (f_equal fst) in Q; cbn in Q; lra|exact Hx]. }
  assert (Fin : forall sos e, (forall x, sos_num sos x = (RtoC (zk_k f) * root_product (zk_z f) x * cpow x e)%C /\ sos_den sos x = (root_product (zk_p f) x * cpow x e)%C) ->
    forall s, s <> C0 -> ~ In s (zk_p f) -> sos_den sos s <> C0 /\ (sos_num sos s / sos_den sos s)%C = H f s).
  { intros sos e Hx s Hs0 Hsp0. destruct (Hx s) as [-> ->]. assert (Hn := root_product_neq0 _ _ Hsp0). assert (Hc := cpow_neq0 s e Hs0).
    split; [apply Cmul_neq0; assumption|]. unfold H. field. split; assumption. }
  destruct (Nat.even (length (zk_p f))) eqn:Ee.
  - apply Nat.even_spec in Ee. destruct Ee as [m Em]. destruct m as [|n]; [lia|].
    destruct (zpk2sos_minimal_even epsilon He sort Hs order f pairing analog n (S n) Hm Hr Hsz Hsp Em ltac:(lia) ltac:(lia)) as [sos [E' [Ls [Fs Hx]]]].
    exists sos. split; [exact E'|]. split.
    { rewrite Ls, Em. replace ((2 * S n + 1) / 2)%nat with (S n) by (rewrite Nat.mul_comm, Nat.div_add_l by lia; cbn; lia). lia. }
    split; [intros _; exact Fs|]. apply (Fin sos 0%nat). intros x. destruct (Hx x) as [-> ->]. rewrite El, Nat.sub_diag. cbn [cpow]. split; ring.
  - assert (Eo : Nat.odd (length (zk_p f)) = true) by (rewrite <- Nat.negb_even, Ee; reflexivity). apply Nat.odd_spec in Eo. destruct Eo as [n En].
    assert (Q : exists sos, zpk2sos_dyn epsilon sort order f pairing analog = Ok sos /\ length sos = S n /\ Forall fresh sos /\
      forall x, sos_num sos x = (RtoC (zk_k f) * root_product (zk_z f) x * x)%C /\ sos_den sos x = (root_product (zk_p f) x * x)%C).
    { destruct Hpar as [Hev|[H1|H1]]; [apply Nat.even_spec in Hev; congruence| |].
      - apply (zpk2sos_minimal_one_real epsilon He sort Hs order f pairing analog n Hm Hr Hsz Hsp En ltac:(lia) H1).
      - apply (zpk2sos_minimal_real_zeros epsilon He sort Hs order f pairing analog n Hm Hr Hsz Hsp En ltac:(lia) H1). }
    destruct Q as [sos [E' [Ls [Fs Hx]]]].
    exists sos. split; [exact E'|]. split.
    { rewrite Ls, En. replace ((2 * n + 1 + 1) / 2)%nat with (S n) by (replace (2 * n + 1 + 1)%nat with (S n * 2)%nat by lia; symmetry; apply Nat.div_mul; lia). lia. }
    split; [intros _; exact Fs|]. apply (Fin sos 1%nat). intros x. destruct (Hx x) as [-> ->]. cbn [cpow]. split; ring.
Qed.
Print Assumptions C46_zpk2sos_analog_partial.

(** Fewer zeros than poles, both even: the result has the extra factor s^(#p - #z), so a
    low-pass filter comes out as a high-pass one. *)
Lemma C46_fewer_zeros_law epsilon sort order f pairing analog :
  0 <= epsilon -> is_sort sort ->
  (pairing = Some Minimal \/ (pairing = None /\ analog = Some true)) ->
  real_filter f -> proper f -> separated epsilon (zk_z f) -> separated epsilon (zk_p f) ->
  Nat.Even (length (zk_z f)) -> Nat.Even (length (zk_p f)) -> (0 < length (zk_p f))%nat ->
  exists sos, zpk2sos_dyn epsilon sort order f pairing analog = Ok sos /\
    forall s, ~ In s (zk_p f) -> sos_den sos s <> C0 /\
      (sos_num sos s / sos_den sos s)%C = (H f s * cpow s (length (zk_p f) - length (zk_z f)))%C.
Proof.
  intros He Hs Hm Hr Hpr Hsz Hsp [m Em] [n En] Hpos. destruct n as [|n]; [lia|]. unfold proper in Hpr.
  destruct (zpk2sos_minimal_even epsilon He sort Hs order f pairing analog n m Hm Hr Hsz Hsp En Em ltac:(lia)) as [sos [E' [_ [_ Hx]]]].
  exists sos. split; [exact E'|]. intros s Hs0. destruct (Hx s) as [-> ->]. assert (Hn := root_product_neq0 _ _ Hs0). split; [exact Hn|].
  unfold H. field. exact Hn.
Qed.
(** The analog filter 2 / (s^2 + 2 s + 2): at s = 2 it is 1/5, the returned section 4/5. *)
Theorem C46_fewer_zeros_refuted epsilon sort order : 0 <= epsilon < 1 / 100 -> is_sort sort ->
  exists f sos s, real_filter f /\ proper f /\ stable_analog f /\ separated epsilon (zk_p f) /\
    zpk2sos_dyn epsilon sort order f None (Some true) = Ok sos /\ ~ In s (zk_p f) /\
    H f s = RtoC (1 / 5) /\ (sos_num sos s / sos_den sos s)%C = RtoC (4 / 5).
Proof.
  intros He Hs. set (f := mkZpk [] [(-1, 1); cconj (-1, 1)] 2 : @ZpkFormatFilter R).
  assert (Hr : real_filter f) by (split; [constructor|apply conj_closed_pair]).
  assert (Hsp : separated epsilon (zk_p f)).
  { unfold f. cbn [zk_p]. constructor; [|constructor; [|constructor]]; right; cbn; rewrite ?Rabs_Ropp, (Rabs_left (-1)), (Rabs_right 1) by lra; lra. }
  destruct (C46_fewer_zeros_law epsilon sort order f None (Some true)) as [sos [E' Hx]]; try assumption.
  { lra. } { right. split; reflexivity. } { cbv; lia. } { constructor. } { exists 0%nat. reflexivity. } { exists 1%nat. reflexivity. } { cbv; lia. }
  exists f, sos, (RtoC 2).
  assert (Hni : ~ In (RtoC 2) (zk_p f)).
  { unfold f. cbn. intros [Q|[Q|[]]]; apply (f_equal fst) in Q; cbn in Q; lra. }
  assert (HH : H f (RtoC 2) = RtoC (1 / 5)).
  { unfold H, f. cbn [zk_z zk_p zk_k root_product fold_right]. apply C_ext; cbn; field. }
  split; [exact Hr|]. split; [cbv; lia|]. split; [unfold stable_analog, f; cbn [zk_p]; repeat constructor; cbn; lra|]. split; [exact Hsp|].
  split; [exact E'|]. split; [exact Hni|]. split; [exact HH|]. destruct (Hx _ Hni) as [_ ->]. rewrite HH.
  apply C_ext; cbn; field.
Qed.
Print Assumptions C46_fewer_zeros_refuted.
(** An odd number of poles and no zeros (every odd-order low-pass design): panic. *)
Theorem C46_odd_zero_free_refuted epsilon sort order p k pairing analog :
  0 <= epsilon -> is_sort sort ->
  (pairing = Some Minimal \/ (pairing = None /\ analog = Some true)) ->
  conj_closed p -> separated epsilon p -> Nat.Odd (length p) ->
  zpk2sos_dyn epsilon sort order (mkZpk [] p k) pairing analog = Panic.
Proof.
  intros He Hs Hm Hc Hsp [n En]. apply (zpk2sos_minimal_odd_panics epsilon He sort Hs order p k pairing analog n Hm Hc Hsp En).
Qed.
Print Assumptions C46_odd_zero_free_refuted.

(** Every outcome: a panic, or fresh normalised sections whose transfer function is that of
    the filter times s^(#poles - #zeros) - so the right one exactly when the numbers agree. *)
Theorem C46_result_law epsilon sort order f pairing analog :
  0 <= epsilon -> is_sort sort ->
  (pairing = Some Minimal \/ (pairing = None /\ analog = Some true)) ->
  real_filter f -> separated epsilon (zk_z f) -> separated epsilon (zk_p f) -> (0 < length (zk_p f))%nat ->
  zpk2sos_dyn epsilon sort order f pairing analog = Panic \/
  exists sos, zpk2sos_dyn epsilon sort order f pairing analog = Ok sos /\ length sos = ((length (zk_p f) + 1) / 2)%nat /\
    Forall (fun s => a0 s = 1 /\ zi0 s = 0 /\ zi1 s = 0) sos /\ (length (zk_z f) <= length (zk_p f))%nat /\
    forall s, s <> C0 -> ~ In s (zk_p f) -> sos_den sos s <> C0 /\
      (sos_num sos s / sos_den sos s)%C = (H f s * cpow s (length (zk_p f) - length (zk_z f)))%C.
Proof.
  intros He Hs Hm Hr Hsz Hsp Hp. destruct (zpk2sos_minimal_any epsilon He sort Hs order f pairing analog Hm Hr Hsz Hsp Hp) as [E|[sos [E [Ls [Fs [Hpr Hx]]]]]]; [left; exact E|right].
  exists sos. split; [exact E|]. split; [exact Ls|]. split; [exact Fs|]. split; [exact Hpr|]. intros s Hs0 Hsp0. destruct (Hx s) as [-> ->]. unfold proper in Hpr.
  set (n := ((length (zk_p f) + 1) / 2)%nat) in *.
  assert (B : (length (zk_p f) <= 2 * n)%nat).
  { unfold n. pose proof (Nat.div_mod (length (zk_p f) + 1) 2 ltac:(lia)). pose proof (Nat.mod_upper_bound (length (zk_p f) + 1) 2 ltac:(lia)). lia. }
  assert (Hn := root_product_neq0 _ _ Hsp0). assert (Hc := cpow_neq0 s (2 * n - length (zk_p f)) Hs0).
  split; [apply Cmul_neq0; assumption|].
  replace (2 * n - length (zk_z f))%nat with ((length (zk_p f) - length (zk_z f)) + (2 * n - length (zk_p f)))%nat by lia. rewrite cpow_add.
  unfold H. field. split; assumption.
Qed.
Print Assumptions C46_result_law.
(** Poles -1, -2, -3 and zeros -2, 100i, -100i: the two real poles that are paired first take
    the only real zero and look in vain for a second one. *)
Theorem C46_odd_complex_zeros_refuted epsilon sort order : 0 <= epsilon < 1 / 100 -> is_sort sort ->
  let f := mkZpk [(0, 100); (0, -100); RtoC (-2)] [RtoC (-1); RtoC (-2); RtoC (-3)] 1 in
  real_filter f /\ stable_analog f /\ separated epsilon (zk_z f) /\ separated epsilon (zk_p f) /\ length (zk_z f) = length (zk_p f) /\
  zpk2sos_dyn epsilon sort order f None (Some true) = Panic.
Proof.
  intros He Hs f.
  assert (Hcz : conj_closed (zk_z f)).
  { unfold f, conj_closed. cbn [zk_z map]. replace (cconj (0, 100)) with ((0, -100) : C) by reflexivity. replace (cconj (0, -100)) with ((0, 100) : C) by (apply C_ext; cbn; lra).
    rewrite cconj_RtoC. apply perm_swap. }
  assert (Hcp : conj_closed (zk_p f)) by (apply conj_closed_reals; repeat constructor; apply isr_true; reflexivity).
  assert (Hsz : separated epsilon (zk_z f)).
  { unfold f. cbn [zk_z]. constructor; [|constructor; [|constructor; [|constructor]]]; [right|right|left]; cbn; try reflexivity; rewrite Rabs_R0; rewrite ?(Rabs_right 100), ?(Rabs_left (-100)) by lra; lra. }
  assert (Hsp : separated epsilon (zk_p f)) by (unfold f; cbn [zk_p]; repeat (constructor; [left; reflexivity|]); constructor).
  split; [split; [exact Hcz|exact Hcp]|]. split; [unfold stable_analog, f; cbn [zk_p]; repeat constructor; cbn; lra|]. split; [exact Hsz|]. split; [exact Hsp|]. split; [reflexivity|].
  rewrite (zpk2sos_minimal_body epsilon sort order f None (Some true)); [|right; split; reflexivity|cbn; lia|cbv; lia].
  unfold body.
  destruct (cplxreal_ok epsilon ltac:(lra) sort Hs _ Hcz Hsz) as [zc [zr [E' [Fc [Fr HP]]]]].
  rewrite E'. cbn [bind].
  destruct (cplxreal_ok epsilon ltac:(lra) sort Hs _ Hcp Hsp) as [pc [pr [E2 [Gc [Gr HQ]]]]]. rewrite E2. cbn [bind].
  assert (Em : forall r, In r (zk_z f) -> 0 < cim r -> r = (0, 100)).
  { unfold f. cbn [zk_z In]. intros r [<-|[<-|[<-|[]]]] Q; [reflexivity| |]; cbn in Q; lra. }
  assert (Er : forall r, In r (zk_z f) -> cim r = 0 -> r = RtoC (-2)).
  { unfold f. cbn [zk_z In]. intros r [<-|[<-|[<-|[]]]] Q; [| |reflexivity]; cbn in Q; lra. }
  assert (Lf : length zc = 1%nat /\ length zr = 1%nat).
  { pose proof (Permutation_length HP) as L. rewrite !app_length, map_length in L. cbn in L.
    assert (A : In (0, 100) (zc ++ map cconj zc ++ zr)) by (eapply Permutation_in; [exact HP|left; reflexivity]).
    assert (N : zc <> []). { intros ->. cbn in A. rewrite Forall_forall in Fr. apply Fr in A. cbn in A. lra. }
    destruct zc as [|c0 [|c1 zc]]; [contradiction|cbn in *; lia|cbn in L; lia]. }
  destruct Lf as [Lc Lr]. destruct zc as [|c0 [|]]; try discriminate Lc. destruct zr as [|r0 [|]]; try discriminate Lr.
  assert (c0 = (0, 100)) as ->. { apply Em; [eapply Permutation_in; [apply Permutation_sym, HP|left; reflexivity]|inversion Fc; assumption]. }
  assert (r0 = RtoC (-2)) as ->. { apply Er; [eapply Permutation_in; [apply Permutation_sym, HP|right; right; left; reflexivity]|inversion Fr; assumption]. }
  assert (pc = []) as ->.
  { destruct pc as [|c pc]; [reflexivity|]. exfalso. inversion Gc; subst. assert (Q : In c (zk_p f)) by (eapply Permutation_in; [apply Permutation_sym, HQ|left; reflexivity]).
    unfold f in Q. cbn in Q. destruct Q as [<-|[<-|[<-|[]]]]; cbn in *; lra. }
  cbn [app map] in *. change ((length (zk_p f) + 1) / 2)%nat with 2%nat. cbn [seq rfold].
  match goal with |- context [bind (pair_step ?a ?b ?c ?d)] => assert (E9 : pair_step a b c d = Panic); [|rewrite E9; reflexivity] end.
  pose proof (Permutation_length HQ) as Lq. cbn in Lq.
  assert (Hn : pr <> []) by (intros ->; discriminate Lq). cbn [unwrap_or].
  destruct (pick_worst true pr Hn) as [i1 [p1 [p' [E1 [E3 HP1]]]]]. unfold pair_step. rewrite E1. cbn [bind]. rewrite E3. cbn [bind].
  assert (I1 : In p1 (zk_p f)) by (eapply Permutation_in; [apply Permutation_sym, HQ|eapply Permutation_in; [apply Permutation_sym, HP1|left; reflexivity]]).
  assert (Rp : Forall (fun r => isr r = true) (p1 :: p')).
  { eapply Permutation_Forall; [exact HP1|]. eapply Forall_impl; [|exact Gr]. intros r Q. apply isr_true. exact Q. }
  inversion Rp as [|? ? R1 R2]; subst. change (is_zero (cim p1)) with (isr p1). rewrite R1. cbn [andb negb].
  destruct (all_real_full p' R2) as [_ Cr]. pose proof (Permutation_length HP1) as L1. cbn [length] in L1.
  replace (count_real p' =? 0)%nat with false by (symmetry; apply Nat.eqb_neq; lia). rewrite !andb_false_r. cbn [andb].
  destruct (pick_worst_real true p' ltac:(lia)) as [i [ip [p2 [p'' [F1 [F2 [F3 [HP' Er']]]]]]]]. cbv zeta. rewrite F1. cbn [bind]. rewrite F2. cbn [bind]. rewrite F3. cbn [bind length Nat.eqb negb].
  replace (nearest_real_complex_idx_dyn [(0, 100); RtoC (-2)] p1 WAny) with (Ok 1%nat).
  2:{ unfold nearest_real_complex_idx_dyn, enumerate. cbn [length seq zip map min_by_idx min_by_from fst snd].
      replace (nltb (cnorm (csub (RtoC (-2)) p1)) (cnorm (csub (0, 100) p1))) with true; [reflexivity|]. symmetry. unfold nltb. cbn [RNum]. unfold Rltb. 
      destruct (Rlt_dec (cnorm (csub (RtoC (-2)) p1)) (cnorm (csub (0, 100) p1))) as [_|Q]; [reflexivity|]. exfalso. apply Q. unfold cnorm. apply sqrt_lt_1_alt.
      unfold f in I1. cbn in I1. destruct I1 as [<-|[<-|[<-|[]]]]; unfold cnorm_sqr; cbn; lra. }
  cbn [bind]. change (remove_at [(0, 100); RtoC (-2)] 1) with (Ok (RtoC (-2), [((0, 100) : C)])). cbn [bind].
  change (is_zero (cim (RtoC (-2)))) with (isr (RtoC (-2))). replace (isr (RtoC (-2))) with true by (symmetry; apply isr_true; reflexivity). cbn [negb length Nat.eqb].
  match goal with |- context [nearest_real_complex_idx_dyn ?l ?q WReal] => rewrite (nearest_none l q WReal) end; [reflexivity|]. intros [r [[<-|[]] Q]]. cbn [sel] in Q. apply isr_true in Q. cbn in Q. lra.
Qed.
Print Assumptions C46_odd_complex_zeros_refuted.

(** A filter with three poles and three zeros meets the hypotheses of both theorems. *)
Example C45_C46_hyp_met : let f := mkZpk [RtoC (-1); RtoC (-1); RtoC (-1)] [(1 / 2, 1 / 2); RtoC (1 / 3); cconj (1 / 2, 1 / 2)] 1 in
  real_filter f /\ separated (1 / 1000) (zk_z f) /\ separated (1 / 1000) (zk_p f) /\ length (zk_z f) = length (zk_p f) /\
  length (filter (fun r => Reqb (cim r) 0) (zk_p f)) = 1%nat.
Proof.
  cbv zeta. cbn [zk_z zk_p]. split; [split|split; [|split; [|split]]].
  - apply conj_closed_reals. repeat constructor; apply isr_true; reflexivity.
  - unfold conj_closed. cbn [zk_p map]. rewrite cconj_conj. rewrite cconj_RtoC.
    eapply Permutation_trans; [apply perm_swap|]. eapply Permutation_trans; [apply perm_skip, perm_swap|]. apply perm_swap.
  - do 3 (constructor; [left; reflexivity|]). constructor.
  - constructor; [|constructor; [|constructor; [|constructor]]]; [right|left|right]; try reflexivity; cbn; rewrite ?Rabs_Ropp, Rabs_right by lra; lra.
  - reflexivity.
  - cbn [filter]. change (cim (cconj (1 / 2, 1 / 2))) with (- (1 / 2)). change (cim (1 / 2, 1 / 2)) with (1 / 2). change (cim (RtoC (1 / 3))) with 0.
    unfold Reqb. destruct (Req_EM_T (1 / 2) 0); [lra|]. destruct (Req_EM_T 0 0); [|lra]. destruct (Req_EM_T (- (1 / 2)) 0); [lra|]. reflexivity.
Qed.

(** ** C67: the Sos output of the digital designs *)
(** The sections represent the filter that the Zpk output describes, and every root of
    their denominators is inside the unit circle. *)
Lemma sos_agrees epsilon sort N (f : @ZpkFormatFilter R) : 0 <= epsilon -> is_sort sort -> real_filter f -> stable_digital f ->
  length (zk_z f) = length (zk_p f) -> separated epsilon (zk_z f) -> separated epsilon (zk_p f) ->
  exists sos, finish epsilon sort N false (Some OutSos) f = Ok (DSos sos) /\
    length sos = Nat.max 1 ((length (zk_p f) + 1) / 2) /\
    Forall (fun s => a0 s = 1 /\ zi0 s = 0 /\ zi1 s = 0) sos /\
    (forall x, x <> C0 -> ~ In x (zk_p f) -> sos_den sos x <> C0 /\ (sos_num sos x / sos_den sos x)%C = H f x) /\
    (forall x, sos_den sos x = C0 -> cnorm_sqr x < 1).
Proof.
  intros He Hs Hr Hst El Hz Hp.
  destruct (C45_zpk2sos_digital_partial epsilon sort N f None (Some false) He Hs Hr Hz Hp ltac:(discriminate) (or_introl eq_refl)) as [sos [E' [Ls [[Fs Hx] Hx']]]].
  exists sos. unfold finish. cbn [unwrap_or]. rewrite E'. split; [reflexivity|]. split; [rewrite Ls, El, Nat.max_id; reflexivity|]. split; [exact Fs|]. split.
  - intros x Hx0 Hxp. destruct (Hx x Hx0 Hxp) as [Q1 Q2]. split; [exact Q1|]. rewrite Q2. apply Hd_balanced; assumption.
  - intros x Hd0. destruct (Hx' x) as [_ Q]. rewrite Q in Hd0.
    destruct (Rlt_dec (cnorm_sqr x) 1) as [L|L]; [exact L|]. exfalso.
    assert (Hx0 : x <> C0) by (intros ->; apply L; unfold cnorm_sqr; cbn; lra).
    revert Hd0. apply Cmul_neq0; [|apply cpow_neq0, Hx0]. apply root_product_neq0. intros Hin. apply L.
    unfold stable_digital in Hst. rewrite Forall_forall in Hst. apply Hst, Hin.
Qed.
Theorem C67_sos_output epsilon sort N wn bt analog fs rp :
  0 <= epsilon -> is_sort sort -> analog <> Some true -> valid_digital bt (normalised wn fs) ->
  let agree (zpk sos : res DigitalFilter) := exists f, zpk = Ok (DZpk f) /\
    (separated epsilon (zk_z f) -> separated epsilon (zk_p f) ->
     exists l, sos = Ok (DSos l) /\ length l = Nat.max 1 ((band_arity bt * N + 1) / 2) /\
       Forall (fun s => a0 s = 1 /\ zi0 s = 0 /\ zi1 s = 0) l /\
       (forall x, x <> C0 -> ~ In x (zk_p f) -> sos_den l x <> C0 /\ (sos_num l x / sos_den l x)%C = H f x) /\
       (forall x, sos_den l x = C0 -> cnorm_sqr x < 1)) in
  agree (butter_dyn epsilon sort N wn (Some bt) analog (Some OutZpk) fs) (butter_dyn epsilon sort N wn (Some bt) analog (Some OutSos) fs) /\
  ((0 < N)%nat -> 0 < rp ->
   agree (cheby1_dyn epsilon sort N rp wn (Some bt) analog (Some OutZpk) fs) (cheby1_dyn epsilon sort N rp wn (Some bt) analog (Some OutSos) fs)).
Proof.
  intros He Hso Ha Hv agree. split.
  - destruct (butter_digital epsilon sort N wn bt analog fs Ha Hv) as [f [E1 [_ [E2 [R1 [R2 [L1 [L2 _]]]]]]]].
    exists f. split; [exact E1|]. intros Hz Hp. destruct (sos_agrees epsilon sort N f He Hso R1 R2 ltac:(congruence) Hz Hp) as [l [El Q]].
    exists l. rewrite E2, <- L2. split; [exact El|exact Q].
  - intros HN Hr. destruct (cheby1_setup N rp HN Hr) as [p [k [Hpr [Hs [Hc [Hl _]]]]]].
    assert (Ea : unwrap_or analog false = false) by (destruct analog as [[|]|]; [contradiction Ha; reflexivity|reflexivity|reflexivity]).
    destruct (digital_design epsilon sort ChebyshevI N (Some rp) None p k Hpr Hs Hc (cheby1_ripple_ok rp Hr)
              bt wn (Some bt) (Some ChebyshevI) analog fs eq_refl eq_refl Ea Hv) as [f [E' [Q1 [Q2 [Q3 [Q4 _]]]]]].
    rewrite Hl in *. exists f. unfold cheby1_dyn. rewrite !E'. split; [reflexivity|]. intros Hz Hp.
    destruct (sos_agrees epsilon sort N f He Hso Q1 Q2 ltac:(congruence) Hz Hp) as [l [El Q]]. exists l. rewrite <- Q4. split; [exact El|exact Q].
Qed.
Print Assumptions C67_sos_output.
(** In exact arithmetic (tolerance 0) every list is separated. *)
Example C67_separated_exact l : separated 0 l.
Proof.
  apply Forall_forall. intros r _. destruct (Req_dec (cim r) 0) as [Q|Q]; [left; exact Q|right]. rewrite Rmult_0_r, Rmult_0_l. apply Rabs_pos_lt, Q.
Qed.

(** ** C68: the Sos output of the analog Butterworth low-pass *)
(** Sections for H are expected.  For every even order the code returns H times s^N (a
    high-pass filter); for every odd order it panics. *)
Theorem C68_analog_sos_refuted epsilon sort N w : 0 <= epsilon -> is_sort sort -> (0 < N)%nat -> 0 < w ->
  exists f, butter_dyn epsilon sort N [w] (Some Lowpass) (Some true) (Some OutZpk) None = Ok (DZpk f) /\
    (separated epsilon (zk_p f) ->
     let sos := butter_dyn epsilon sort N [w] (Some Lowpass) (Some true) (Some OutSos) None in
     (Nat.Odd N -> sos = Panic) /\
     (Nat.Even N -> exists l, sos = Ok (DSos l) /\
        forall s, ~ In s (zk_p f) -> sos_den l s <> C0 /\ (sos_num l s / sos_den l s)%C = (H f s * cpow s N)%C)).
Proof.
  intros He Hso HN Hw.
  assert (Hv : valid_freqs Lowpass [w]) by (split; [reflexivity|split; [repeat constructor; exact Hw|repeat constructor]]).
  destruct (analog_design epsilon sort Butterworth N None None _ 1 (proto_butter N None None) (butter_poles_stable N) (buttap_closed N) butter_ripple_ok
              Lowpass [w] (Some Lowpass) (Some Butterworth) (Some true) eq_refl eq_refl eq_refl Hv) as [f [E' [Q0 [Q1 [Q2 [Q3 _]]]]]].
  rewrite butter_poles_length in Q3. cbn [band_arity] in Q3. rewrite Nat.mul_1_l in Q3.
  exists f. unfold butter_dyn. cbn [unwrap_or]. rewrite !E'. split; [reflexivity|]. intros Hsp.
  assert (Z0 : zk_z f = []).
  { specialize (E' (Some OutZpk)). rewrite iir_good in E'.
    2:{ cbn [unwrap_or]. apply valid_not_bad; [exact Hv|discriminate|reflexivity|exact butter_ripple_ok]. }
    cbn [unwrap_or] in E'. unfold reduced in E'. cbv zeta in E'. rewrite proto_butter in E'. cbn [apply_band normalised] in E'.
    unfold lp2lp_zpk_dyn, relative_degree_dyn in E'. cbn [zk_z zk_p zk_k length map] in E'. 
    destruct f as [z p k]. cbn in E' |- *. inversion E'. reflexivity. }
  destruct f as [z p k]. cbn [zk_z zk_p zk_k] in *. subst z. unfold finish. cbn [unwrap_or]. split.
  - intros Ho. rewrite C46_odd_zero_free_refuted; [reflexivity|exact He|exact Hso|right; split; reflexivity|apply Q1|exact Hsp|rewrite Q3; exact Ho].
  - intros Ev. destruct (C46_fewer_zeros_law epsilon sort N (mkZpk [] p k) None (Some true)) as [l [El Hx]]; try assumption.
    { right. split; reflexivity. } { constructor. } { exists 0%nat. reflexivity. } { cbn [zk_p]. rewrite Q3. exact Ev. } { cbn [zk_p]. lia. }
    exists l. rewrite El. split; [reflexivity|]. cbn [zk_p zk_z length] in Hx. rewrite Q3, Nat.sub_0_r in Hx. exact Hx.
Qed.
Print Assumptions C68_analog_sos_refuted.

(** ** C55 for section output *)
Lemma good_valid wn rp rs bt ft fs : ~ bad_arguments wn rp rs bt ft false fs -> valid_digital bt (normalised wn fs).
Proof.
  intros B. unfold bad_arguments in B.
  assert (L : length wn = band_arity bt) by (destruct (Nat.eq_dec (length wn) (band_arity bt)) as [Q|Q]; [exact Q|exfalso; apply B; tauto]).
  assert (Ln : length (normalised wn fs) = band_arity bt) by (rewrite normalised_length; exact L).
  split; [exact Ln|]. split.
  - apply Forall_forall. intros w Hw. split; apply Rnot_le_lt; intros Q; apply B.
    + right; right; left. exists w. split; assumption.
    + do 6 right. left. split; [reflexivity|]. exists w. split; assumption.
  - destruct (normalised wn fs) as [|u [|v [|x l]]]; [constructor|repeat constructor| |destruct bt; cbn in Ln; lia].
    constructor; [repeat constructor|]. constructor; [|constructor]. apply Rnot_le_lt. intros Q. apply B. do 3 right. left. exists u, v. repeat split. exact Q.
Qed.
(** Digital Butterworth sections and Chebyshev I sections with a positive ripple: a panic
    exactly for the listed arguments (as long as zeros and poles are clear of the
    tolerance, C45).  Missing: analog sections, for which the converse is false. *)
Theorem C55_iirfilter_sos_partial epsilon sort order wn rp rs btype ftype analog fs :
  0 <= epsilon -> is_sort sort -> analog <> Some true ->
  (unwrap_or ftype Butterworth = Butterworth \/ (unwrap_or ftype Butterworth = ChebyshevI /\ (0 < order)%nat /\ exists r, rp = Some r /\ 0 < r)) ->
  let bad := bad_arguments wn rp rs (unwrap_or btype Bandpass) (unwrap_or ftype Butterworth) (unwrap_or analog false) fs in
  (bad -> iirfilter_dyn epsilon sort order wn rp rs btype ftype analog (Some OutSos) fs = Panic) /\
  (~ bad -> exists f, iirfilter_dyn epsilon sort order wn rp rs btype ftype analog (Some OutZpk) fs = Ok (DZpk f) /\
     (separated epsilon (zk_z f) -> separated epsilon (zk_p f) ->
      exists l, iirfilter_dyn epsilon sort order wn rp rs btype ftype analog (Some OutSos) fs = Ok (DSos l))).
Proof.
  intros He Hso Ha Ht bad. split; [apply C55_iirfilter_bad_panics_sos|]. intros B.
  assert (Ea : unwrap_or analog false = false) by (destruct analog as [[|]|]; [contradiction Ha; reflexivity|reflexivity|reflexivity]).
  unfold bad in B. rewrite Ea in B. pose proof (good_valid _ _ _ _ _ _ B) as Hv.
  assert (Rn : (forall r, rp = Some r -> 0 <= r) /\ (forall r, rs = Some r -> 0 <= r)).
  { unfold bad_arguments in B. split; intros r Er; apply Rnot_lt_le; intros Q; apply B; [do 4 right; left|do 5 right; left]; exists r; split; assumption. }
  destruct Rn as [Rp Rs].
  assert (D : exists p k, proto (unwrap_or ftype Butterworth) order rp rs = mkZpk [] p k /\ stable_analog (mkZpk [] p k) /\ conj_closed p /\ ripple_ok (unwrap_or ftype Butterworth) rp rs).
  { destruct Ht as [->|[-> [HN [r [-> Hr]]]]].
    - eexists _, 1. split; [apply (proto_butter order rp rs)|]. split; [apply butter_poles_stable|]. split; [apply buttap_closed|].
      unfold ripple_ok. repeat split; try assumption; try discriminate.
    - destruct (cheby1_setup order r HN Hr) as [p [k [Hpr [Hs [Hc [Hl _]]]]]]. exists p, k. split; [exact Hpr|]. split; [exact Hs|]. split; [exact Hc|].
      unfold ripple_ok. repeat split; try assumption; try discriminate. }
  destruct D as [p [k [Hpr [Hs [Hc Hr]]]]].
  destruct (digital_design epsilon sort (unwrap_or ftype Butterworth) order rp rs p k Hpr Hs Hc Hr (unwrap_or btype Bandpass) wn btype ftype analog fs eq_refl eq_refl Ea Hv) as [f [E' [Q1 [Q2 [Q3 [Q4 _]]]]]].
  exists f. rewrite !E'. split; [reflexivity|]. intros Hz Hp.
  destruct (sos_agrees epsilon sort order f He Hso Q1 Q2 ltac:(congruence) Hz Hp) as [l [El _]]. exists l. exact El.
Qed.
Print Assumptions C55_iirfilter_sos_partial.
Example C55_sos_hyp_met : ~ bad_arguments [1 / 4] None None Lowpass Butterworth false None.
Proof. exact C55_hyp_met. Qed.

(** None of the listed conditions holds, and the analog sections of order 1 panic. *)
Theorem C55_sos_analog_refuted epsilon sort : 0 <= epsilon -> is_sort sort ->
  ~ bad_arguments [1] None None Lowpass Butterworth true None /\
  iirfilter_dyn epsilon sort 1 [1] None None (Some Lowpass) (Some Butterworth) (Some true) (Some OutSos) None = Panic.
Proof.
  intros He Hso.
  assert (Hv : valid_freqs Lowpass [1]) by (split; [reflexivity|split; [repeat constructor; lra|repeat constructor]]).
  split.
  - intros Q. apply (valid_not_bad Lowpass [1] None true None None Butterworth); [exact Hv|discriminate|reflexivity|apply butter_ripple_ok|left; exact Q].
  - destruct (analog_design epsilon sort Butterworth 1 None None _ 1 (proto_butter 1 None None) (butter_poles_stable 1) (buttap_closed 1) butter_ripple_ok
              Lowpass [1] (Some Lowpass) (Some Butterworth) (Some true) eq_refl eq_refl eq_refl Hv) as [f [E' [Q0 [Q1 [Q2 [Q3 _]]]]]].
    destruct (C68_analog_sos_refuted epsilon sort 1 1 He Hso Nat.lt_0_1 Rlt_0_1) as [g [Eg Hg]].
    unfold butter_dyn in Eg, Hg. cbn [unwrap_or] in Eg, Hg. assert (g = f) by (rewrite E' in Eg; cbn in Eg; congruence). subst g.
    apply Hg; [|exists 0%nat; reflexivity].
    rewrite butter_poles_length in Q3. cbn [band_arity] in Q3.
    apply Forall_forall. intros r Hr. left.
    destruct Q1 as [_ Q1]. unfold conj_closed in Q1.
    destruct (zk_p f) as [|q [|q' l]]; [contradiction|destruct Hr as [<-|[]]|cbn in Q3; lia]. cbn [map] in Q1. apply Permutation_length_1 in Q1.
    apply (f_equal cim) in Q1. destruct q as [x y]. unfold cconj, cim in *. cbn [fst snd] in *. change (- y = y) in Q1. lra.
Qed.
Print Assumptions C55_sos_analog_refuted.
