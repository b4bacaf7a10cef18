(** Zero-phase filtering with sections designed in floats. *)
From Coq Require Import Reals ZArith SpecFloat List Lia Lra Bool Permutation Sorted Classical.
From Flocq Require Import Core BinarySingleNaN.
From Verif Require Import Base Num Trans M_Complex M_Filter M_Design Cx S_Design S_Filter S_Stable S_Float S_FloatFft S_FloatZpk S_FloatTrans S_FloatSos
  P_Float P_FloatStats P_Sosfilt P_Poly P_Lp P_Proto P_Cheb P_Sos P_Stable P_Zi P_Filtfilt P_FloatMed P_FloatI0 P_FloatZi P_FloatPoly T_FloatPoly P_FloatDesign T_FloatDesign P_FloatBand T_FloatBand P_FloatFilt T_FloatFilt
  P_FloatSym P_FloatMate P_FloatSos P_FloatPipe P_FloatFiltNear T_FloatFiltfilt T_Sos P_Unique T_Unique P_FiltfiltSame P_FloatSosCore.
Import ListNotations.
Local Open Scope R_scope.

(** ** One pass with near coefficients *)
Lemma close_near prec emax e D s t : coef_close prec emax e s t -> state_near prec emax D s t -> sec_near prec emax e D s t.
Proof.
  intros (F & W & E0) (S0 & S1 & S2 & S3). unfold finite_coefs, coefs in F, W. repeat match goal with H : Forall _ (_ :: _) |- _ => inversion H; clear H; subst end.
  repeat match goal with H : Forall2 _ (_ :: _) _ |- _ => inversion H; clear H; subst end. unfold sec_near, coef_fin, near_coefs. cbn [sos_val b0 b1 b2 a1 a2]. tauto.
Qed.
Lemma pass_near r C n0 Z K0 K1 : 0 <= r < 1 -> 1 <= C -> 1 <= Z -> 0 <= K0 -> 1 <= K1 -> exists K, 1 <= K /\
  forall prec emax sz zf zl, (1 < prec < emax)%Z -> length zl = n0 -> Forall (poles_within r) zl -> Forall (coef_le C) zl -> Forall (fun s => Rabs (zi0 s) <= Z /\ Rabs (zi1 s) <= Z) zl ->
  Forall2 (coef_close prec emax (K0 * uround prec)) zf zl -> Forall2 (state_near prec emax (K1 * uround prec)) zf zl -> K * uround prec <= 1 -> pass_prop prec emax sz zf zl K.
Proof.
  intros Hr HC HZ HK0 HK1. destruct (cascade_near_st r C n0 Hr HC) as (K2 & HK2 & N).
  set (G := out_gain r C ^ n0). assert (HG : 1 <= G) by (apply pow_R1_Rle, out_gain_ge; assumption).
  set (S := st_gain r C ^ n0). assert (HS : 1 <= S) by (apply pow_R1_Rle, st_gain_ge; assumption).
  set (KA := K2 * (2 * (1 + K0) * (Z + 1) + (2 + K0) + (Z + 1 + K1)) + G). set (KC := S * Z).
  assert (A0 : 0 <= (1 + K0) * (Z + 1)) by (apply Rmult_le_pos; lra).
  assert (HA : 0 <= KA). { unfold KA. assert (0 <= K2 * (2 * (1 + K0) * (Z + 1) + (2 + K0) + (Z + 1 + K1))) by (apply Rmult_le_pos; nra). lra. }
  assert (HKC : 1 <= KC) by (unfold KC; nra). assert (HKF : 0 <= K2 * (Z + 1)) by (apply Rmult_le_pos; lra). assert (HKE : 0 <= K2 * K0) by (apply Rmult_le_pos; lra).
  exists (K1 + KA + KC + Z + 1 + 2 * (K2 * (Z + 1)) + K2 * K0 + K2). split; [lra|].
  intros prec emax sz zf zl Hpe Hl Hp Hc FZ Cz Nz Hu. intros xf x M E Hlen Fx HM HE Bxf Bx Hx Hfm yf y.
  destruct (u_half prec ltac:(lia)) as [U0 U1]. pose proof (tiny_pos prec emax) as T0.
  set (u := uround prec) in *. set (t := ftiny prec emax) in *.
  assert (HuM : 0 <= u * M) by (apply Rmult_le_pos; lra).
  set (x0f := nth 0 xf (S754_zero false)) in *. set (x0 := nth 0 x 0) in *.
  assert (X0 : finite prec emax x0f /\ Rabs (fval x0f) <= M /\ Rabs x0 <= M /\ Rabs (fval x0f - x0) <= E).
  { unfold x0f, x0. destruct xf as [|a xf], x as [|b x]; try discriminate Hlen; cbn [nth].
    - cbn [fval]. rewrite Rminus_diag_eq, Rabs_R0 by reflexivity. split; [split; [reflexivity|exact Logic.I]|]. split; [exact HM|]. split; [exact HM|exact HE].
    - inversion Fx; inversion Bxf; inversion Bx; subst. specialize (Hx 0%nat ltac:(cbn; lia)). cbn [nth] in Hx. repeat split; try assumption; apply H1. }
  destruct X0 as (X1 & X2 & X3 & X4).
  set (sf := @scale_state _ (SFNum prec emax sz) x0f zf) in *. set (sr := scale_state x0 zl) in *.
  set (W := u * M + t + E). assert (HW : 0 < W) by (unfold W; lra). set (D := (Z + 1 + K1) * W). set (X' := 2 * (Z + 1) * M + t).
  assert (KU : forall c, 0 <= c -> c <= K1 + KA + KC + Z + 1 + 2 * (K2 * (Z + 1)) + K2 * K0 + K2 -> c * u <= 1) by (intros c C0 Cl; eapply Rle_trans; [|exact Hu]; apply Rmult_le_compat_r; lra).
  assert (K1u : K1 * u <= 1) by (apply KU; lra).
  assert (ZM : (Z + 1) * M <= fmax prec emax) by (eapply Rle_trans; [|exact Hfm]; apply Rmult_le_compat; lra).
  assert (ONE : forall a b, finite prec emax a -> Rabs (fval a - b) <= K1 * u -> Rabs b <= Z ->
       finite prec emax (SFmul prec emax a x0f) /\ Rabs (fval (SFmul prec emax a x0f)) <= X' /\
       Rabs (fval (SFmul prec emax a x0f) - b * x0) <= D /\ Rabs (b * x0) <= Z * M).
  { intros a b Fa Ea Eb. assert (Ba : Rabs (fval a) <= Z + 1).
    { replace (fval a) with ((fval a - b) + b) by ring. eapply Rle_trans; [apply Rabs_triang|]. lra. }
    destruct (mul_step prec emax Hpe a x0f (Z + 1) M Fa X1 Ba X2 ZM) as [F E']. fold u t in E'. split; [exact F|].
    pose proof (Rabs_pos (fval a)). pose proof (Rabs_pos (fval x0f)). pose proof (Rabs_pos b). pose proof (Rabs_pos (fval a - b)).
    assert (P : Rabs (fval a * fval x0f) <= (Z + 1) * M) by (rewrite Rabs_mult; apply Rmult_le_compat; assumption).
    assert (UZ : u * ((Z + 1) * M) <= (Z + 1) * M) by (rewrite <- (Rmult_1_l ((Z + 1) * M)) at 2; apply Rmult_le_compat_r; [apply Rmult_le_pos; lra|lra]).
    split; [|split].
    - replace (fval (SFmul prec emax a x0f)) with ((fval (SFmul prec emax a x0f) - fval a * fval x0f) + fval a * fval x0f) by ring.
      eapply Rle_trans; [apply Rabs_triang|]. unfold X'. lra.
    - replace (fval (SFmul prec emax a x0f) - b * x0) with ((fval (SFmul prec emax a x0f) - fval a * fval x0f) + ((fval a - b) * fval x0f + b * (fval x0f - x0))) by ring.
      eapply Rle_trans; [apply Rabs_triang|].
      assert (P2 : Rabs ((fval a - b) * fval x0f + b * (fval x0f - x0)) <= K1 * u * M + Z * E).
      { eapply Rle_trans; [apply Rabs_triang|]. rewrite !Rabs_mult. apply Rplus_le_compat; apply Rmult_le_compat; try assumption; apply Rabs_pos. }
      unfold D, W. assert (0 <= Z * t) by (apply Rmult_le_pos; lra). assert (0 <= K1 * t) by (apply Rmult_le_pos; lra). assert (0 <= K1 * E) by (apply Rmult_le_pos; lra).
      assert (K1 * u * M = K1 * (u * M)) by ring. assert (u * ((Z + 1) * M) = (Z + 1) * (u * M)) by ring. lra.
    - rewrite Rabs_mult. apply Rmult_le_compat; try assumption; apply Rabs_pos. }
  assert (ST : Forall2 (sec_near prec emax (K0 * u) D) sf sr /\ Forall (fun s => Rabs (fval (zi0 s)) <= X' /\ Rabs (fval (zi1 s)) <= X') sf /\ Forall (fun s => Rabs (zi0 s) <= Z * M /\ Rabs (zi1 s) <= Z * M) sr /\
     Forall (poles_within r) sr /\ Forall (coef_le C) sr).
  { unfold sf, sr, scale_state. clear - Nz Cz FZ ONE Hp Hc. revert Cz FZ Hp Hc. induction Nz as [|a b zf zl (F0 & F1 & E0 & E1) Nz IH]; intros Cz FZ Hp Hc; [repeat split; constructor|].
    inversion FZ as [|? ? [Z0 Z1] FZ']; subst. inversion Cz as [|? ? ? ? Ca Cz']; subst. destruct (IH Cz' FZ' (Forall_inv_tail Hp) (Forall_inv_tail Hc)) as (I1 & I2 & I3 & I4 & I5).
    destruct (ONE _ _ F0 E0 Z0) as (A1 & A2 & A3 & A4). destruct (ONE _ _ F1 E1 Z1) as (B1 & B2 & B3 & B4).
    assert (SN : sec_near prec emax (K0 * u) D (set_state a (SFmul prec emax (zi0 a) x0f) (SFmul prec emax (zi1 a) x0f)) (set_state b (zi0 b * x0) (zi1 b * x0))).
    { apply close_near; [exact Ca|]. unfold state_near. cbn [set_state zi0 zi1]. tauto. }
    cbn [map]. split; [constructor; [exact SN|exact I1]|]. split; [constructor; [split; assumption|exact I2]|]. split; [constructor; [split; assumption|exact I3]|].
    split; constructor; try assumption; [exact (Forall_inv Hp)|exact (Forall_inv Hc)]. }
  destruct ST as (ST & SX & SZ & SP & SC).
  assert (Lsr : length sr = n0) by (unfold sr, scale_state; rewrite map_length; exact Hl).
  set (xs := fun k => nth k xf (S754_zero false)).
  assert (D0 : 0 <= D) by (unfold D; apply Rmult_le_pos; lra). assert (ZM0 : 0 <= Z * M) by (apply Rmult_le_pos; lra).
  assert (X'0 : 0 <= X') by (unfold X'; assert (0 <= (Z + 1) * M) by (apply Rmult_le_pos; lra); lra).
  assert (MX : M <= X') by (unfold X'; nra).
  assert (GF : forall n, (n < length x)%nat -> finite prec emax (@gcout _ (SFNum prec emax sz) sf xs n) /\ Rabs (fval (@gcout _ (SFNum prec emax sz) sf xs n) - cout sr (fun k => fval (xs k)) n) <= K2 * ((u + K0 * u) * X' + t + D)).
  { intros n Hn. destruct (N prec emax sz (K0 * u) D sf sr xs X' (length x) Hpe Lsr SP SC ST) with (n := n) as (F & _ & B); try assumption.
    - apply Rmult_le_pos; lra.
    - rewrite <- Rmult_assoc. apply KU; lra.
    - intros k Hk. rewrite Forall_forall in Fx, Bxf. assert (IN : In (xs k) xf) by (apply nth_In; lia). split; [apply Fx, IN|]. specialize (Bxf _ IN). cbn beta in Bxf. lra.
    - fold u. apply KU; lra.
    - fold t. eapply Rle_trans; [|exact Hfm]. apply Rle_trans with ((2 * (K2 * (Z + 1))) * (M + t)).
      + unfold X'. assert (0 <= K2 * Z * t) by (apply Rmult_le_pos; [apply Rmult_le_pos|]; lra). lra.
      + apply Rmult_le_compat_r; lra.
    - split; assumption. }
  assert (GY : forall n, (n < length x)%nat -> nth n yf (S754_zero false) = @gcout _ (SFNum prec emax sz) sf xs n) by (intros n Hn; unfold yf; exact (@gfilt_cout _ (SFNum prec emax sz) (S754_zero false) sf xf n ltac:(lia))).
  assert (RY : forall n, (n < length x)%nat -> nth n y 0 = cout sr (fun k => nth k x 0) n) by (intros n Hn; unfold y; apply filt_cout; exact Hn).
  split; [|split].
  - apply Forall_forall. intros v Hv. destruct (In_nth _ _ (S754_zero false) Hv) as [n [Hn <-]]. unfold yf in Hn. rewrite filt_length_out in Hn. rewrite (GY n ltac:(lia)). apply GF. lia.
  - apply Forall_forall. intros v Hv. destruct (In_nth _ _ 0 Hv) as [n [Hn <-]]. unfold y in Hn. rewrite filt_length_out in Hn. rewrite (RY n Hn).
    eapply Rle_trans; [apply (cascade_bound_st r C sr Hr HC SP SC (fun k => nth k x 0) (Z * M) (length x) ZM0 SZ)|].
    + intros k Hk. rewrite Forall_forall in Bx. specialize (Bx _ (nth_In x 0 Hk)). cbn beta in Bx. nra.
    + exact Hn.
    + rewrite Lsr. fold S. replace (S * (Z * M)) with (KC * M) by (unfold KC; ring). apply Rmult_le_compat_r; lra.
  - intros n Hn. rewrite (GY n Hn), (RY n Hn). destruct (GF n Hn) as [_ B].
    pose proof (cascade_input_lip_st r C sr Hr HC SP SC (fun k => fval (xs k)) (fun k => nth k x 0) E (length x) HE Hx n Hn) as P. rewrite Lsr in P. fold G in P.
    set (g := fval (@gcout _ (SFNum prec emax sz) sf xs n)) in *. set (c1 := cout sr (fun k => fval (xs k)) n) in *. set (c2 := cout sr (fun k => nth k x 0) n) in *.
    replace (g - c2) with ((g - c1) + (c1 - c2)) by ring. eapply Rle_trans; [apply Rabs_triang|]. fold W.
    assert (Q : K2 * ((u + K0 * u) * X' + t + D) + G * E <= KA * W).
    { unfold KA, D, X'. assert (Q1 : (u + K0 * u) * (2 * (Z + 1) * M + t) <= 2 * ((1 + K0) * (Z + 1)) * W + (1 + K0) * W).
      { replace ((u + K0 * u) * (2 * (Z + 1) * M + t)) with (2 * ((1 + K0) * (Z + 1)) * (u * M) + (1 + K0) * (u * t)) by ring.
        assert (u * M <= W) by (unfold W; lra). assert (u * t <= W). { unfold W. assert (u * t <= 1 * t) by (apply Rmult_le_compat_r; lra). lra. }
        apply Rplus_le_compat; apply Rmult_le_compat_l; lra. }
      assert (Q2 : G * E <= G * W) by (apply Rmult_le_compat_l; [lra|unfold W; lra]).
      assert (Q3 : K2 * ((u + K0 * u) * (2 * (Z + 1) * M + t) + t + (Z + 1 + K1) * W) <= K2 * ((2 * (1 + K0) * (Z + 1) + (2 + K0) + (Z + 1 + K1)) * W)).
      { apply Rmult_le_compat_l; [lra|]. assert (t <= W) by (unfold W; lra). lra. }
      replace ((K2 * (2 * (1 + K0) * (Z + 1) + (2 + K0) + (Z + 1 + K1)) + G) * W) with (K2 * ((2 * (1 + K0) * (Z + 1) + (2 + K0) + (Z + 1 + K1)) * W) + G * W) by ring. lra. }
    assert (KA * W <= (K1 + KA + KC + Z + 1 + 2 * (K2 * (Z + 1)) + K2 * K0 + K2) * W) by (apply Rmult_le_compat_r; lra). lra.
Qed.

(** ** Initial states, over all lists of sections from a finite set *)
Definition idz : Type := (Z * Z * bool * list (Sos spec_float))%type.
Definition zi_good K0 K1 Z (sr : list (Sos R)) : Prop := Forall stable_section sr -> exists zl, sosfilt_zi_dyn sr = Ok zl /\ same_coefs zl sr /\ Forall (fun s => Rabs (zi0 s) <= Z /\ Rabs (zi1 s) <= Z) zl /\
  forall prec emax sz sf, (1 < prec < emax)%Z -> K1 * uround prec <= 1 -> Forall2 (coef_close prec emax (K0 * uround prec)) sf sr ->
  exists zf, @sosfilt_zi_dyn _ (SFNum prec emax sz) sf = Ok zf /\ same_coefs zf sf /\ Forall2 (state_near prec emax (K1 * uround prec)) zf zl.
Lemma zi_good_mono K0 K1 Z K1' Z' sr : zi_good K0 K1 Z sr -> K1 <= K1' -> Z <= Z' -> zi_good K0 K1' Z' sr.
Proof.
  intros H HK HZ S. destruct (H S) as (zl & E & C & B & Q). exists zl. split; [exact E|]. split; [exact C|]. split; [eapply Forall_impl; [|exact B]; cbn beta; intros a [A1 A2]; split; lra|].
  intros prec emax sz sf Hpe Hu W. destruct (u_half prec ltac:(lia)) as [U0 _]. assert (LE : K1 * uround prec <= K1' * uround prec) by (apply Rmult_le_compat_r; lra).
  destruct (Q prec emax sz sf Hpe ltac:(lra) W) as (zf & E1 & C1 & F). exists zf. split; [exact E1|]. split; [exact C1|].
  clear - F LE. induction F as [|a b zf zl (A1 & A2 & A3 & A4) F IH]; constructor; [|exact IH]. unfold state_near. repeat split; try apply A1; try apply A2; lra.
Qed.
Lemma zi_one K0 sr : 0 <= K0 -> exists K1 Z, 1 <= K1 /\ 1 <= Z /\ zi_good K0 K1 Z sr.
Proof.
  intros HK0. destruct (classic (Forall stable_section sr)) as [S|S]; [|exists 1, 1; split; [lra|]; split; [lra|]; intros H; contradiction].
  set (pr := fun i : idz => fst (fst (fst i))). set (em := fun i : idz => snd (fst (fst i))). set (szf := fun i : idz => snd (fst i)). set (lff := fun i : idz => snd i).
  set (V := fun i : idz => Forall2 (coef_close (pr i) (em i) (K0 * uround (pr i))) (lff i) sr).
  destruct (sosfilt_zi_close sr S K0 idz pr em V szf 1 (fun i => SpecFloat.binary_normalize (pr i) (em i) 1 0 false) lff HK0 (napp_one idz pr em V) (fun i H => H)) as (zl & K1 & Ez & Cz & HK1 & Qz).
  destruct (states_max zl) as [Z [HZ FZ]]. exists K1, Z. split; [exact HK1|]. split; [exact HZ|]. intros _. exists zl. split; [exact Ez|]. split; [exact Cz|]. split; [exact FZ|].
  intros prec emax sz sf Hpe Hu W. destruct (Qz (prec, emax, sz, sf)) as (zf & E1 & C1 & F); [split; [exact W|split; [exact Hpe|exact Hu]]|]. exists zf. split; [exact E1|]. split; [exact C1|exact F].
Qed.
Lemma zi_all K0 (LL : list (list (Sos R))) : 0 <= K0 -> exists K1 Z, 1 <= K1 /\ 1 <= Z /\ forall sr, In sr LL -> zi_good K0 K1 Z sr.
Proof.
  intros HK0. induction LL as [|a LL (K1 & Z & HK1 & HZ & IH)]; [exists 1, 1; split; [lra|]; split; [lra|]; intros sr H; destruct H|].
  destruct (zi_one K0 a HK0) as (K2 & Z2 & HK2 & HZ2 & Q). exists (K1 + K2), (Z + Z2). split; [lra|]. split; [lra|]. intros sr [<-|H].
  - apply (zi_good_mono K0 K2 Z2); [exact Q|lra|lra].
  - apply (zi_good_mono K0 K1 Z); [exact (IH sr H)|lra|lra].
Qed.
Fixpoint lists_over {A} (n : nat) (s : list A) : list (list A) := match n with O => [[]] | S m => flat_map (fun a => map (cons a) (lists_over m s)) s end.
Lemma lists_over_in {A} (s l : list A) : Forall (fun a => In a s) l -> In l (lists_over (length l) s).
Proof.
  intros H. induction H as [|a l Ha H IH]; [left; reflexivity|]. cbn [length lists_over]. apply in_flat_map. exists a. split; [exact Ha|]. apply in_map. exact IH.
Qed.

(** ** Taps of rounded sections *)
Lemma b2_low (SS : list (Sos R)) : exists K, 1 <= K /\ forall t, In t SS -> b2 t <> 0 -> 1 <= K * Rabs (b2 t).
Proof.
  induction SS as [|s SS (K & HK & IH)]; [exists 1; split; [lra|]; intros t H; destruct H|]. destruct (Req_EM_T (b2 s) 0) as [Q|Q].
  - exists K. split; [exact HK|]. intros t [<-|H] N; [contradiction|exact (IH t H N)].
  - pose proof (Rabs_pos_lt _ Q) as P. pose proof (Rinv_0_lt_compat _ P) as P'. exists (K + / Rabs (b2 s)). split; [lra|]. intros t [<-|H] N.
    + rewrite Rmult_plus_distr_r, Rinv_l by lra. assert (0 <= K * Rabs (b2 s)) by (apply Rmult_le_pos; lra). lra.
    + rewrite Rmult_plus_distr_r. specialize (IH t H N). assert (0 <= / Rabs (b2 s) * Rabs (b2 t)) by (apply Rmult_le_pos; [lra|apply Rabs_pos]). lra.
Qed.
Lemma b2_close prec emax e s t : coef_close prec emax e s t -> Rabs (fval (b2 s) - b2 t) <= e.
Proof. intros (_ & W & _). unfold coefs in W. repeat match goal with H : Forall2 _ (_ :: _) _ |- _ => inversion H; clear H; subst end. assumption. Qed.
Lemma b2_zeros_float prec emax e sf sr : Forall2 (coef_close prec emax e) sf sr -> Forall (fun t => b2 t <> 0 -> e < Rabs (b2 t)) sr -> (b2_zeros (map sos_val sf) <= b2_zeros sr)%nat.
Proof.
  intros W F. unfold b2_zeros. induction W as [|s t sf sr Ws W IH]; [apply le_n|]. specialize (IH (Forall_inv_tail F)). pose proof (Forall_inv F) as Ft. cbn beta in Ft.
  cbn [map filter]. pose proof (b2_close _ _ _ _ _ Ws) as B. change (b2 (sos_val s)) with (fval (b2 s)).
  destruct (Reqb (fval (b2 s)) 0) eqn:Q, (Reqb (b2 t) 0) eqn:P; cbn [length]; try lia.
  exfalso. apply Reqb_true in Q. apply Reqb_false in P. specialize (Ft P). rewrite Q in B. unfold Rminus in B. rewrite Rplus_0_l, Rabs_Ropp in B. lra.
Qed.
Lemma Exists_vals (p : Sos spec_float -> spec_float) (q : Sos R -> R) sf : (forall s, q (sos_val s) = fval (p s)) -> Exists (fun s => fval (p s) = 0) sf -> Exists (fun s => q s = 0) (map sos_val sf).
Proof. intros H X. induction X as [s sf Hs|s sf X IH]; cbn [map]; [apply Exists_cons_hd; rewrite H; exact Hs|apply Exists_cons_tl; exact IH]. Qed.
Lemma within_close prec emax e sf sr : Forall2 (sos_within prec emax e) sf sr -> Forall2 (coef_close prec emax e) sf sr.
Proof. intros W. induction W as [|s t sf sr (A & B & D & _) W IH]; constructor; [|exact IH]. split; [exact A|]. split; [exact B|exact D]. Qed.
Lemma close_same prec emax e zf sf zr sr : Forall2 (coef_close prec emax e) sf sr -> same_coefs zf sf -> same_coefs zr sr -> Forall2 (coef_close prec emax e) zf zr.
Proof.
  intros W. revert zf zr. induction W as [|s t sf sr Ws W IH]; intros [|a zf] [|b zr] C1 C2; try discriminate; constructor.
  - pose proof (f_equal (hd []) C1) as E1. pose proof (f_equal (hd []) C2) as E2. cbn [map hd] in E1, E2. destruct Ws as (F & V & A). unfold coef_close, finite_coefs. rewrite E1, E2. split; [exact F|]. split; [exact V|].
    unfold coefs in E1, E2. injection E1 as _ _ _ Q1 _ _. injection E2 as _ _ _ Q2 _ _. congruence.
  - apply IH; [exact (f_equal (@tl _) C1)|exact (f_equal (@tl _) C2)].
Qed.
Lemma coefs_Forall (P : Sos R -> Prop) zr sr : (forall s t, coefs s = coefs t -> P t -> P s) -> same_coefs zr sr -> Forall P sr -> Forall P zr.
Proof.
  intros H C F. revert zr C. induction F as [|t sr Ft F IH]; intros [|a zr] C; try discriminate; constructor; [|apply IH; exact (f_equal (@tl _) C)].
  apply (H a t); [exact (f_equal (hd []) C)|exact Ft].
Qed.
Lemma coef_le_coefs C (s t : Sos R) : coefs s = coefs t -> coef_le C t -> coef_le C s.
Proof. unfold coefs. intros E. injection E as Q0 Q1 Q2 Q3 Q4 Q5. unfold coef_le. rewrite Q0, Q1, Q2, Q4, Q5. tauto. Qed.
Lemma poles_coefs r (s t : Sos R) : coefs s = coefs t -> poles_within r t -> poles_within r s.
Proof. unfold coefs. intros E. injection E as Q0 Q1 Q2 Q3 Q4 Q5. unfold poles_within. rewrite Q4, Q5. tauto. Qed.

(** ** Design, then zero-phase filtering *)
Section CoreFilt.
Variable I : Type.
Variables pr em : I -> Z.
Variable sz : I -> bool.
Variable E : R.
Hypothesis HE : 0 <= E.
Variable T : I -> Trans spec_float.
Variable V : I -> Prop.
Hypothesis HT : forall i, V i -> (1 < pr i < em i)%Z -> accurate_trans (pr i) (em i) E (T i).
Hypothesis HS : forall i, V i -> (1 < pr i < em i)%Z -> symmetric_trans (pr i) (em i) (T i).
Notation NF i := (SFNum (pr i) (em i) (sz i)).
Variables (h : @ZpkFormatFilter R) (hf : I -> @ZpkFormatFilter spec_float).
Hypothesis A : znapp I pr em V sz h hf.
Hypothesis M : zmate I pr em V sz h hf.
Hypothesis Rh : real_filter h.
Hypothesis Sh : stable_digital h.
Hypothesis Lh : length (zk_z h) = length (zk_p h).
Hypothesis L0 : (0 < length (zk_p h))%nat.
Hypothesis Kh : zk_k h <> 0.
Hypothesis Zh : ~ In C0 (zk_z h).
Let n : nat := length (zk_p h).
Let L : nat := Nat.max 1 ((length (zk_p h) + 1) / 2).
Lemma pole_not_one : ~ In C1 (zk_p h).
Proof. intros H. unfold stable_digital in Sh. rewrite Forall_forall in Sh. specialize (Sh _ H). unfold cnorm_sqr in Sh. cbn in Sh. lra. Qed.
Lemma core_filtfilt : exists K, 1 <= K /\ forall i, fmt_ok I pr em V K i -> forall sort order, is_list_sort sort ->
  exists sf, emitted I pr em sz T hf i sort order = Ok (DSos sf) /\ @taps _ (NF i) sf = S n /\
  forall x X, Forall (finite (pr i) (em i)) x -> Forall (fun v => Rabs (fval v) <= X) x -> (3 * S n < length x)%nat -> K * (X + ftiny (pr i) (em i)) <= fmax (pr i) (em i) ->
  exists yf, @sosfiltfilt_dyn _ (NF i) x sf = Ok yf /\ length yf = length x /\ Forall (finite (pr i) (em i)) yf /\
  forall l, realises l h -> taps l = S n -> exists y, sosfiltfilt_dyn (map fval x) l = Ok y /\ length y = length x /\
    forall k, (k < length x)%nat -> Rabs (fval (nth k yf (S754_zero false)) - nth k y 0) <= K * (uround (pr i) * X + ftiny (pr i) (em i)).
Proof.
  destruct (core_full I pr em sz E HE T V HT HS h hf A M Rh Sh Lh) as (K0 & r & C & SS & HK0 & Hr & HC & Q).
  destruct (b2_low SS) as (Kb & HKb & LB). destruct (zi_all K0 (lists_over L SS) ltac:(lra)) as (K1 & Z & HK1 & HZ & ZG).
  destruct (pass_near r C L Z K0 K1 Hr HC HZ ltac:(lra) HK1) as (K2 & HK2 & PN).
  assert (P0 : 0 <= K0 * Kb) by (apply Rmult_le_pos; lra). assert (P2 : K2 <= K2 ^ 2) by nra.
  exists (K0 + 2 * (K0 * Kb) + K1 + 40 * K2 ^ 2). split; [lra|]. intros i Hi sort order Hs.
  destruct (Q i (fmt_mono I pr em V _ K0 i Hi ltac:(lra)) sort order Hs) as (sf & sr & E1 & (Ls & RE & ST & W & PW & CL & _) & IS & HX & EXB & EXA).
  pose proof Hi as (Vi & Hpe & Hu). destruct (u_half (pr i) (proj1 Hpe)) as [U0 U1]. set (u := uround (pr i)) in *.
  assert (KU : forall c, 0 <= c -> c <= K0 + 2 * (K0 * Kb) + K1 + 40 * K2 ^ 2 -> c * u <= 1) by (intros c C0' Cl; eapply Rle_trans; [|exact Hu]; apply Rmult_le_compat_r; lra).
  pose proof (within_close _ _ _ _ _ W) as WC.
  assert (DV : (n <= 2 * L /\ 2 * L <= n + 1)%nat) by (unfold n, L; pose proof (Nat.div_mod (length (zk_p h) + 1) 2 ltac:(lia)); pose proof (Nat.mod_upper_bound (length (zk_p h) + 1) 2 ltac:(lia)); lia).
  assert (TR : b2_zeros sr = (2 * L - n)%nat /\ (2 * L - n <= a2_zeros sr)%nat /\ taps sr = S n).
  { pose proof (taps_zpk sr (zk_k h) (zk_z h) (zk_p h) Kh Zh Lh) as TZ. rewrite Ls, Lh in TZ. apply TZ; [unfold n in DV; lia|unfold n in DV; lia|]. rewrite Lh in HX. exact HX. }
  destruct TR as (TB & TA & TR).
  assert (FC : Forall (finite_coefs (pr i) (em i)) sf) by (clear - W; induction W as [|s t sf sr (F & _) W IH]; constructor; assumption).
  assert (TF : @taps _ (NF i) sf = S n).
  { rewrite (taps_val (pr i) (em i) (sz i) sf Hpe FC).
    assert (U : (b2_zeros (map sos_val sf) <= 2 * L - n)%nat).
    { rewrite <- TB. apply (b2_zeros_float _ _ _ _ _ WC). rewrite Forall_forall in IS |- *. intros t Ht N. specialize (LB t (IS t Ht) N).
      assert (KB : 2 * (K0 * Kb) * u <= 1) by (apply KU; lra). pose proof (Rabs_pos_lt _ N) as BP. assert (0 <= K0 * u) by (apply Rmult_le_pos; lra).
      assert (X1 : K0 * u <= K0 * u * (Kb * Rabs (b2 t))) by (rewrite <- (Rmult_1_r (K0 * u)) at 1; apply Rmult_le_compat_l; lra).
      assert (X2 : 2 * (K0 * Kb) * u * Rabs (b2 t) <= 1 * Rabs (b2 t)) by (apply Rmult_le_compat_r; lra). lra. }
    assert (Lf : length (map sos_val sf) = L) by (rewrite map_length, (Forall2_len _ _ _ W); exact Ls).
    assert (BA : b2_zeros (map sos_val sf) = (2 * L - n)%nat /\ (2 * L - n <= a2_zeros (map sos_val sf))%nat).
    { assert (D : (2 * L - n = 0 \/ 2 * L - n = 1)%nat) by lia. destruct D as [D|D]; [split; lia|].
      assert (HA : (length (zk_p h) < 2 * L)%nat) by (change (n < 2 * L)%nat; lia). assert (HB : (length (zk_z h) < 2 * L)%nat) by (rewrite Lh; exact HA). assert (XB := EXB HB). assert (XA := EXA HA).
      apply (Exists_vals b2 b2 sf (fun s => eq_refl)) in XB. apply (Exists_vals a2 a2 sf (fun s => eq_refl)) in XA. apply (exists_count b2) in XB. apply (exists_count a2) in XA.
      fold (b2_zeros (map sos_val sf)) in XB. fold (a2_zeros (map sos_val sf)) in XA. lia. }
    destruct BA as [BB BA]. rewrite (taps_counts _ _ BB BA), Lf. lia. }
  exists sf. split; [exact E1|]. split; [exact TF|]. intros x X Fx Bx Hlen HM.
  destruct (ZG sr) as (zl & Ez & Cz & Bz & QZ); [pose proof (lists_over_in SS sr IS) as LI; rewrite Ls in LI; exact LI|apply stable_each; exact ST|].
  destruct (QZ (pr i) (em i) (sz i) sf Hpe ltac:(fold u; apply KU; lra) WC) as (zf & Ezf & Czf & Nz).
  assert (PP : pass_prop (pr i) (em i) (sz i) zf zl K2).
  { apply PN; try assumption.
    - transitivity (length sr); [|exact Ls]. rewrite <- (map_length coefs zl), <- (map_length coefs sr). unfold same_coefs in Cz. rewrite Cz. reflexivity.
    - exact (coefs_Forall _ zl sr (poles_coefs r) Cz PW).
    - exact (coefs_Forall _ zl sr (coef_le_coefs C) Cz CL).
    - exact (close_same _ _ _ zf sf zl sr WC Czf Cz).
    - fold u. apply KU; lra. }
  assert (T0 : 0 < ftiny (pr i) (em i)) by apply tiny_pos.
  assert (X0 : 0 <= X). { destruct x as [|v x]; [cbn in Hlen; lia|]. inversion Bx; subst. eapply Rle_trans; [apply Rabs_pos|eassumption]. }
  destruct (filtfilt_err (pr i) (em i) (sz i) K2 sf sr zf zl x X HK2 Hpe PP ltac:(congruence) Fx Bx ltac:(rewrite TR; exact Hlen)) as [FY EY].
  { eapply Rle_trans; [|exact HM]. apply Rmult_le_compat_r; lra. }
  exists (@filtfilt _ (NF i) x sf zf). split; [|split; [|split; [exact FY|]]].
  - rewrite sosfiltfilt_eq, TF. destruct (Nat.leb_spec (length x) (3 * S n)); [lia|]. rewrite Ezf. reflexivity.
  - apply filtfilt_length.
  - intros l Rl Tl. exists (filtfilt (map fval x) sr zl). split; [|split; [rewrite filtfilt_length; apply map_length|]].
    + rewrite (realises_filtfilt l sr h Rl RE pole_not_one ltac:(congruence)), sosfiltfilt_eq, TR, map_length. destruct (Nat.leb_spec (length x) (3 * S n)); [lia|]. rewrite Ez. reflexivity.
    + intros k Hk. eapply Rle_trans; [apply EY; exact Hk|]. fold u. assert (0 <= u * X) by (apply Rmult_le_pos; lra). apply Rmult_le_compat_r; lra.
Qed.
End CoreFilt.
