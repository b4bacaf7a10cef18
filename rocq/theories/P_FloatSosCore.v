(** Sections from zeros and poles in floats that come in exactly conjugate pairs, and
    filtering with them, over any family of formats. *)
From Coq Require Import Reals ZArith SpecFloat List Lia Lra Bool Permutation Sorted Classical.
From Flocq Require Import Core BinarySingleNaN.
From Verif Require Import Base Num Trans M_Complex M_Filter M_Design Cx S_Design S_Filter S_Stable S_Float S_FloatFft S_FloatZpk S_FloatTrans S_FloatSos
  P_Float P_FloatStats P_Sosfilt P_Poly P_Lp P_Proto P_Cheb P_Sos P_Stable P_FloatMed P_FloatI0 P_FloatZi P_FloatPoly T_FloatPoly P_FloatDesign T_FloatDesign P_FloatBand T_FloatBand P_FloatFilt T_FloatFilt
  P_FloatSym P_FloatMate P_FloatSos P_FloatPipe T_Sos P_Unique T_Unique.
Import ListNotations.
Local Open Scope R_scope.

(** ** Sections from a finite list have a common radius and size *)
Lemma poles_mono r r' s : r <= r' -> poles_within r s -> poles_within r' s.
Proof. intros L (p & q & A & B & D & F). exists p, q. repeat split; try assumption; lra. Qed.
Lemma coef_le_mono C C' s : C <= C' -> coef_le C s -> coef_le C' s.
Proof. unfold coef_le. intros L (A & B & D & F & G). repeat split; lra. Qed.
Lemma uniform_sections (SS : list (Sos R)) : exists r C, 0 <= r < 1 /\ 1 <= C /\ forall t, In t SS ->
  coef_le C t /\ ((exists r', 0 <= r' < 1 /\ poles_within r' t) -> poles_within r t).
Proof.
  induction SS as [|s SS (r & C & Hr & HC & IH)]; [exists 0, 1; split; [lra|]; split; [lra|intros t Ht; destruct Ht]|].
  set (C' := C + (Rabs (b0 s) + Rabs (b1 s) + Rabs (b2 s) + Rabs (a1 s) + Rabs (a2 s))).
  assert (HC' : C <= C' /\ coef_le C' s).
  { pose proof (Rabs_pos (b0 s)). pose proof (Rabs_pos (b1 s)). pose proof (Rabs_pos (b2 s)). pose proof (Rabs_pos (a1 s)). pose proof (Rabs_pos (a2 s)). unfold C', coef_le. repeat split; lra. }
  destruct (classic (exists r', 0 <= r' < 1 /\ poles_within r' s)) as [[r' [Hr' Q]]|Q].
  - exists (Rmax r r'), C'. pose proof (Rmax_l r r'). pose proof (Rmax_r r r'). split; [split; [lra|apply Rmax_lub_lt; lra]|]. split; [lra|]. intros t [<-|Ht].
    + split; [apply HC'|]. intros _. exact (poles_mono r' _ s (Rmax_r r r') Q).
    + destruct (IH t Ht) as [A B]. split; [exact (coef_le_mono C C' t (proj1 HC') A)|]. intros W. exact (poles_mono r _ t (Rmax_l r r') (B W)).
  - exists r, C'. split; [exact Hr|]. split; [lra|]. intros t [<-|Ht].
    + split; [apply HC'|]. intros W. contradiction.
    + destruct (IH t Ht) as [A B]. split; [exact (coef_le_mono C C' t (proj1 HC') A)|exact B].
Qed.
Lemma poles_stable r l : r < 1 -> Forall (fun s => a0 s = 1) l -> Forall (poles_within r) l -> stable_sections l.
Proof.
  intros Hr HA HP. split; [exact HA|]. intros x. revert HA HP. induction l as [|s l IH]; intros HA HP Hx.
  - exfalso. exact (C10 Hx).
  - rewrite sos_den_cons in Hx. apply Cmul_eq0 in Hx. destruct Hx as [Hx|Hx]; [|apply IH; [inversion HA|inversion HP|]; assumption].
    destruct (Forall_inv HP) as (p & q & A1 & A2 & B1 & B2). rewrite rpoly3, (Forall_inv HA) in Hx.
    assert (Z : ((x - p) * (x - q))%C = C0). { rewrite <- Hx, <- A2. replace (RtoC (a1 s)) with (- (p + q))%C by (rewrite A1; apply C_ext; cbn; ring). change (RtoC 1) with C1. ring. }
    apply Cmul_eq0 in Z. assert (N : forall w, (x - w)%C = C0 -> cnorm w <= r -> cnorm_sqr x < 1).
    { intros w Hw Bw. apply Csub_eq0 in Hw. subst w. pose proof (cnorm_pos x) as P. pose proof (cnorm_sq x) as Q. rewrite <- Q. nra. }
    destruct Z as [Z|Z]; [exact (N p Z B1)|exact (N q Z B2)].
Qed.

Lemma bind_assoc {A B D} (m : res A) (k : A -> res B) (l : B -> res D) : (let! b := (let! a := m in k a) in l b) = (let! a := m in let! b := k a in l b).
Proof. destruct m; reflexivity. Qed.
(** ** The sections *)
Section Core.
Variable I : Type.
Variables pr em : I -> Z.
Variable sz : I -> bool.
Variable E : R.
Hypothesis HE : 0 <= E.
Variable T : I -> Trans spec_float.
Variable V : I -> Prop.
Hypothesis HT : forall i, V i -> (1 < pr i < em i)%Z -> accurate_trans (pr i) (em i) E (T i).
Hypothesis HS : forall i, V i -> (1 < pr i < em i)%Z -> symmetric_trans (pr i) (em i) (T i).
Notation NF i := (SFNum (pr i) (em i) (sz i)).
Variables (h : @ZpkFormatFilter R) (hf : I -> @ZpkFormatFilter spec_float).
Hypothesis A : znapp I pr em V sz h hf.
Hypothesis M : zmate I pr em V sz h hf.
Hypothesis Rh : real_filter h.
Hypothesis Sh : stable_digital h.
Hypothesis Lh : length (zk_z h) = length (zk_p h).
Let L : nat := Nat.max 1 ((length (zk_p h) + 1) / 2).
Definition emitted i sort order : res (@DigitalFilter spec_float) := @emit _ (NF i) (T i) (machine_eps (pr i)) sort order false OutSos (hf i).
Lemma core_full : exists K r C SS, 1 <= K /\ 0 <= r < 1 /\ 1 <= C /\ forall i, fmt_ok I pr em V K i -> forall sort order, is_list_sort sort ->
  exists sf sr, emitted i sort order = Ok (DSos sf) /\ (length sr = L /\ realises sr h /\ stable_sections sr /\
    Forall2 (sos_within (pr i) (em i) (K * uround (pr i))) sf sr /\ Forall (poles_within r) sr /\ Forall (coef_le C) sr /\ stable_sections (map sos_val sf)) /\
    Forall (fun t => In t SS) sr /\
    (forall x, sos_num sr x = (RtoC (zk_k h) * root_product (zk_z h) x * cpow x (2 * L - length (zk_z h)))%C /\
              sos_den sr x = (root_product (zk_p h) x * cpow x (2 * L - length (zk_p h)))%C) /\
    ((length (zk_z h) < 2 * L)%nat -> Exists (fun s => fval (b2 s) = 0) sf) /\ ((length (zk_p h) < 2 * L)%nat -> Exists (fun s => fval (a2 s) = 0) sf).
Proof.
  destruct (fzpk2sos I pr em V sz E HE T HT HS h hf A M Rh) as (K1 & SS & HK1 & Q). destruct (uniform_sections SS) as (r & C & Hr & HC & U).
  assert (D0 : 0 < (1 - r) ^ 2) by (apply pow_lt; lra). set (d := 13 * K1 / (1 - r) ^ 2). assert (Hd : 0 <= d) by (apply Rmult_le_pos; [lra|left; apply Rinv_0_lt_compat; exact D0]).
  exists (K1 + d), r, C, SS. split; [lra|]. split; [exact Hr|]. split; [exact HC|]. intros i Hi sort order Hs.
  destruct (Q i (fmt_mono I pr em V _ K1 i Hi ltac:(lra)) sort order None (Some false) Hs ltac:(discriminate) (or_introl eq_refl)) as (sf & sr & E1 & Ls & Fs & W & In & Hx & EXB & EXA).
  rewrite Lh, Nat.max_id in Ls. pose proof Hi as (Vi & Hpe & Hu). destruct (u_half (pr i) (proj1 Hpe)) as [U0 _]. set (u := uround (pr i)) in *.
  assert (RE : realises sr h). { apply (realise_ratio h sr L); try assumption; [rewrite Lh| |intros x; specialize (Hx x); rewrite Lh, Nat.max_id in Hx; fold L in Hx; exact Hx || (rewrite <- Lh in Hx at 1; exact Hx)]; unfold L; pose proof (Nat.div_mod (length (zk_p h) + 1) 2 ltac:(lia)); pose proof (Nat.mod_upper_bound (length (zk_p h) + 1) 2 ltac:(lia)); lia. }
  assert (A1 : Forall (fun s => a0 s = 1) sr) by (eapply Forall_impl; [|exact Fs]; cbn beta; intros s Hs'; apply Hs').
  assert (ST : stable_sections sr).
  { split; [exact A1|]. intros x Hx0. destruct (Hx x) as [_ Q2]. rewrite Q2 in Hx0. destruct (Rlt_dec (cnorm_sqr x) 1) as [Lt|Lt]; [exact Lt|]. exfalso.
    assert (X0 : x <> C0) by (intros ->; apply Lt; unfold cnorm_sqr; cbn; lra). revert Hx0. apply Cmul_neq0; [|apply cpow_neq0, X0]. apply root_product_neq0. intros Hin. apply Lt.
    unfold stable_digital in Sh. rewrite Forall_forall in Sh. apply Sh, Hin. }
  assert (PW : Forall (poles_within r) sr).
  { destruct (stable_poles sr ST) as (r' & Hr' & P). rewrite Forall_forall in P, In |- *. intros t Ht. apply (U t (In t Ht)). exists r'. split; [exact Hr'|apply P, Ht]. }
  assert (CL : Forall (coef_le C) sr) by (rewrite Forall_forall in In |- *; intros t Ht; apply (U t (In t Ht))).
  assert (LE : K1 * u <= (K1 + d) * u) by (apply Rmult_le_compat_r; lra).
  assert (W' : Forall2 (sos_within (pr i) (em i) ((K1 + d) * u)) sf sr).
  { clear - W LE. induction W as [|s t sf sr (F & N & H0 & H1 & H2) W IH]; constructor; [|exact IH]. split; [exact F|]. split; [|split; [exact H0|split; assumption]].
    clear - N LE. induction N; constructor; [lra|assumption]. }
  exists sf, sr. split.
  { unfold emitted. cbn [emit]. rewrite E1. reflexivity. }
  assert (LL : Nat.max 1 ((Nat.max (length (zk_z h)) (length (zk_p h)) + 1) / 2) = L) by (unfold L; rewrite Lh, Nat.max_id; reflexivity). rewrite LL in Hx, EXB, EXA.
  split; [|split; [exact In|split; [exact Hx|split; [exact EXB|exact EXA]]]].
  split; [exact Ls|]. split; [exact RE|]. split; [exact ST|]. split; [exact W'|]. split; [exact PW|]. split; [exact CL|].
  assert (E12 : 12 * (K1 * u) < (1 - r) ^ 2).
  { assert (Q1 : d * u <= 1) by nra. assert (Q2 : 13 * K1 * u <= (1 - r) ^ 2).
    { replace (13 * K1 * u) with (d * u * (1 - r) ^ 2) by (unfold d; field; lra). rewrite <- (Rmult_1_l ((1 - r) ^ 2)) at 2. apply Rmult_le_compat_r; lra. }
    assert (0 < K1 * u) by (apply Rmult_lt_0_compat; lra). lra. }
  apply (poles_stable ((1 + r) / 2)); [lra| |].
  - clear - W A1. induction W as [|s t sf sr (F & N & H0 & H1 & H2) W IH]; [constructor|]. inversion A1; subst. constructor; [|apply IH; assumption]. change (fval (a0 s) = 1). congruence.
  - clear - W PW E12 Hr. induction W as [|s t sf sr W0 W IH]; [constructor|]. inversion PW; subst. constructor; [|apply IH; assumption]. exact (pert_poles r (K1 * u) (sos_val s) t Hr ltac:(assumption) (within_near _ _ _ _ _ W0) E12).
Qed.

Lemma core_sos : exists K r C, 1 <= K /\ 0 <= r < 1 /\ 1 <= C /\ forall i, fmt_ok I pr em V K i -> forall sort order, is_list_sort sort ->
  exists sf sr, emitted i sort order = Ok (DSos sf) /\ length sr = L /\ realises sr h /\ stable_sections sr /\
    Forall2 (sos_within (pr i) (em i) (K * uround (pr i))) sf sr /\ Forall (poles_within r) sr /\ Forall (coef_le C) sr /\ stable_sections (map sos_val sf).
Proof.
  destruct core_full as (K & r & C & SS & HK & Hr & HC & Q). exists K, r, C. split; [exact HK|]. split; [exact Hr|]. split; [exact HC|]. intros i Hi sort order Hs.
  destruct (Q i Hi sort order Hs) as (sf & sr & E1 & Q1 & _). exists sf, sr. split; [exact E1|exact Q1].
Qed.

Lemma core_pipe : exists K, 1 <= K /\ forall i, fmt_ok I pr em V K i -> forall sort order, is_list_sort sort ->
  exists sf, emitted i sort order = Ok (DSos sf) /\ forall x X, Forall (finite (pr i) (em i)) x -> 0 <= X -> Forall (fun v => Rabs (fval v) <= X) x -> K * (X + ftiny (pr i) (em i)) <= fmax (pr i) (em i) ->
  exists yf lf', @sosfilt_dyn _ (NF i) x sf = Ok (yf, lf') /\ length yf = length x /\ Forall (finite (pr i) (em i)) yf /\
  forall l, realises l h -> exists y l', sosfilt_dyn (map fval x) l = Ok (y, l') /\ length y = length x /\
    forall n, (n < length x)%nat -> Rabs (fval (nth n yf (S754_zero false)) - nth n y 0) <= K * (uround (pr i) * X + ftiny (pr i) (em i)).
Proof.
  destruct core_sos as (K1 & r & C & HK1 & Hr & HC & Q). destruct (cascade_near r C L Hr HC) as (K2 & HK2 & N).
  set (K := K2 * (K1 + 1)). assert (P1 : K2 <= K) by (unfold K; nra). assert (P2 : K1 <= K) by (unfold K; nra). assert (P3 : K2 * K1 <= K) by (unfold K; nra).
  exists K. split; [lra|]. intros i Hi sort order Hs. destruct (Q i (fmt_mono I pr em V K K1 i Hi P2) sort order Hs) as (sf & sr & E1 & Ls & RE & ST & W & PW & CL & _).
  exists sf. split; [exact E1|]. intros x X Fx HX Bx HM. pose proof Hi as (Vi & Hpe & Hu). destruct (u_half (pr i) (proj1 Hpe)) as [U0 _].
  pose proof (tiny_pos (pr i) (em i)) as TP.
  set (xs := fun k => nth k x (S754_zero false)).
  assert (AR : Forall at_rest sr) by (destruct RE as [F _]; eapply Forall_impl; [|exact F]; cbn beta; intros s Hs'; split; apply Hs').
  assert (ER : forall n, (n < length x)%nat -> let y := @gcout _ (NF i) sf xs n in finite (pr i) (em i) y /\
     Rabs (fval y - cout sr (fun k => fval (xs k)) n) <= K * (uround (pr i) * X + ftiny (pr i) (em i))).
  { intros n Hn y. destruct (N (pr i) (em i) (sz i) (K1 * uround (pr i)) sf sr xs X (length x) Hpe Ls PW CL AR W) with (n := n) as (F & _ & B); try assumption.
    - apply Rmult_le_pos; lra.
    - rewrite <- Rmult_assoc. apply Rle_trans with (K * uround (pr i)); [apply Rmult_le_compat_r; lra|exact Hu].
    - intros k Hk. rewrite Forall_forall in Fx, Bx. split; [apply Fx|apply Bx]; apply nth_In; exact Hk.
    - apply Rle_trans with (K * uround (pr i)); [apply Rmult_le_compat_r; lra|exact Hu].
    - eapply Rle_trans; [|exact HM]. apply Rmult_le_compat_r; lra.
    - split; [exact F|]. eapply Rle_trans; [exact B|]. unfold K.
      replace (K2 * ((uround (pr i) + K1 * uround (pr i)) * X + ftiny (pr i) (em i))) with (K2 * (K1 + 1) * (uround (pr i) * X) + K2 * ftiny (pr i) (em i)) by ring.
      fold K. rewrite Rmult_plus_distr_l. apply Rplus_le_compat_l. apply Rmult_le_compat_r; [lra|]. exact P1. }
  exists (fst (@filt _ (NF i) x sf)), (snd (@filt _ (NF i) x sf)). split; [rewrite sosfilt_dyn_pure, <- surjective_pairing; reflexivity|]. split; [apply filt_length_out|].
  assert (GY : forall n, (n < length x)%nat -> nth n (fst (@filt _ (NF i) x sf)) (S754_zero false) = @gcout _ (NF i) sf xs n) by (intros n Hn; exact (@gfilt_cout _ (NF i) (S754_zero false) sf x n Hn)).
  split.
  { apply Forall_forall. intros v Hv0. destruct (In_nth _ _ (S754_zero false) Hv0) as [n [Hn <-]]. rewrite filt_length_out in Hn. rewrite (GY n Hn). apply (ER n Hn). }
  intros l Hl. exists (fst (filt (map fval x) l)), (snd (filt (map fval x) l)). split; [rewrite sosfilt_dyn_pure, <- surjective_pairing; reflexivity|]. split; [rewrite filt_length_out; apply map_length|].
  intros n Hn. rewrite (realises_same l sr h Hl RE (map fval x)), (GY n Hn). rewrite filt_cout by (rewrite map_length; exact Hn).
  rewrite (cout_local sr (fun k => nth k (map fval x) 0) (fun k => fval (xs k)) n) by (intros k Hk; apply nth_map_fval). apply (ER n Hn).
Qed.
End Core.
