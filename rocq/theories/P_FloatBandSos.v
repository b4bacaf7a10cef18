(** Band-pass and band-stop designs of sections in floats, and filtering with them: the
    sections and the output do not depend on the order in which the zeros and poles come. *)
From Coq Require Import Reals ZArith SpecFloat List Lia Lra Bool Permutation.
From Flocq Require Import Core BinarySingleNaN.
From Verif Require Import Base Num Trans M_Complex M_Filter M_Design Cx S_Design S_Filter S_Stable S_Float S_FloatFft S_FloatZpk S_FloatTrans S_FloatSos
  P_Float P_FloatStats P_Poly P_Lp P_Proto P_FloatI0 P_FloatZi P_FloatPoly T_FloatPoly P_FloatDesign T_FloatDesign P_FloatSqrt P_FloatBand P_FloatBandStage T_FloatBand P_FloatFilt T_FloatFilt
  P_FloatSym P_FloatMate P_FloatSos T_Sos P_FloatSosCore P_FloatBandMate.
Import ListNotations.
Local Open Scope R_scope.

Lemma same_sym h h0 : same_perm h h0 -> same_perm h0 h.
Proof. intros [A [B D]]. split; [apply Permutation_sym; exact A|split; [apply Permutation_sym; exact B|symmetry; exact D]]. Qed.
Lemma fold_factor_perm x l m : Permutation l m -> fold_right (fun r acc => ((C1 - r / x) * acc)%C) C1 l = fold_right (fun r acc => ((C1 - r / x) * acc)%C) C1 m.
Proof. intros P. induction P; cbn [fold_right]; [reflexivity|rewrite IHP; reflexivity|ring|congruence]. Qed.
Lemma realises_upto l h h0 : same_perm h h0 -> realises l h -> realises l h0.
Proof.
  intros [Z [P K]] [F H]. split; [exact F|]. intros x X0 NP. destruct (H x X0) as [A B]; [intros Q; apply NP; exact (Permutation_in _ P Q)|]. split; [exact A|].
  rewrite B. unfold Hd. rewrite K, (fold_factor_perm x _ _ P), (fold_factor_perm x _ _ Z). reflexivity.
Qed.
Lemma closed_perm l m : Permutation l m -> conj_closed m -> conj_closed l.
Proof. intros P B. unfold conj_closed in *. eapply Permutation_trans; [apply Permutation_map; exact P|]. eapply Permutation_trans; [exact B|]. apply Permutation_sym. exact P. Qed.
Lemma real_upto h h0 : same_perm h h0 -> real_filter h0 -> real_filter h.
Proof. intros [Z [P K]] [A B]. split; [exact (closed_perm _ _ Z A)|exact (closed_perm _ _ P B)]. Qed.
Lemma stable_upto h h0 : same_perm h h0 -> stable_digital h0 -> stable_digital h.
Proof. intros [Z [P K]] A. unfold stable_digital in *. exact (Permutation_Forall (Permutation_sym P) A). Qed.

Section BandSos.
Variable I : Type.
Variables pr em : I -> Z.
Variable sz : I -> bool.
Variable E : R.
Hypothesis HE : 0 <= E.
Variable T : I -> Trans spec_float.
Variable V : I -> Prop.
Hypothesis HT : forall i, V i -> (1 < pr i < em i)%Z -> accurate_trans (pr i) (em i) E (T i).
Hypothesis HS : forall i, V i -> (1 < pr i < em i)%Z -> symmetric_trans (pr i) (em i) (T i).
Notation NF i := (SFNum (pr i) (em i) (sz i)).
Variables (real : res (@ZpkFormatFilter R)) (float : I -> res (@ZpkFormatFilter spec_float)).
Hypothesis Hm : mstaged I pr em sz V real float good.
Variable k0 : @ZpkFormatFilter R.
Hypothesis Ek : (let! g := real in to_digital false g) = Ok k0.
Hypothesis Rk : real_filter k0.
Hypothesis Sk : stable_digital k0.
Hypothesis Lk : length (zk_z k0) = length (zk_p k0).
Let L : nat := Nat.max 1 ((length (zk_p k0) + 1) / 2).

(** The digital filter, with its poles paired, for each pattern of signs. *)
Lemma digital_mates : exists (pat : I -> list bool) n kf, (forall i, length (pat i) = n) /\ (forall i, V i -> (let! g := float i in @to_digital _ (NF i) false g) = Ok (kf i)) /\
  forall sg, exists k, same_perm k k0 /\ znapp I pr em (fun i => V i /\ pat i = sg) sz k kf /\ zmate I pr em (fun i => V i /\ pat i = sg) sz k kf.
Proof.
  destruct Hm as (pat & n & h0 & hf & Lp & ER & EF & G & H). rewrite ER in Ek. cbn [bind] in Ek.
  set (kf := fun i => match @to_digital _ (NF i) false (hf i) with Ok z => z | _ => hf i end).
  exists pat, n, kf.
  assert (KEY : forall sg, exists k, same_perm k k0 /\ znapp I pr em (fun i => V i /\ pat i = sg) sz k kf /\ zmate I pr em (fun i => V i /\ pat i = sg) sz k kf /\
     forall i, V i -> pat i = sg -> @to_digital _ (NF i) false (hf i) = Ok (kf i)).
  { intros sg. destruct (H sg) as (h & SU & N & M). pose proof (good_perm2 h h0 SU G) as Gh. set (W := fun i => V i /\ pat i = sg) in *.
    destruct (stage_dig I pr em sz W false h hf N Gh) as (k & kf' & NK & EK & FK & _).
    assert (KF : forall i, W i -> kf i = kf' i) by (intros i Wi; unfold kf; rewrite (FK i Wi); reflexivity).
    destruct (digital_perm false h h0 k0 SU Ek) as (k' & EK' & SK). assert (k' = k) by congruence. subst k'. exists k. split; [exact SK|].
    destruct Gh as (Z & P & LL). rewrite Forall_forall in Z, P.
    assert (HP : Forall (fun c => c <> (2 * 2, 0)) (zk_p h)) by (apply Forall_forall; intros c Hc Ec; apply P in Hc; rewrite Ec in Hc; cbn in Hc; lra).
    assert (HZ : Forall (fun c => c <> (2 * 2, 0)) (zk_z h)) by (apply Forall_forall; intros c Hc Ec; apply Z in Hc; rewrite Ec in Hc; cbn in Hc; lra).
    pose proof (mate_bilinear I pr em W sz h k hf kf M LL 2 (fun i => @two _ (NF i)) ltac:(lra) HP HZ (napp_intZ I pr em W sz 2) EK) as MB.
    split; [|split].
    - destruct NK as (A & B & D). split; [|split].
      + destruct A as [A1 A2]. split; [intros i Wi; rewrite (KF i Wi); apply A1; exact Wi|]. intros j Hj. eapply cnapp_ext; [reflexivity| |exact (A2 j Hj)]. cbn beta. intros i Wi _. rewrite (KF i Wi). reflexivity.
      + destruct B as [A1 A2]. split; [intros i Wi; rewrite (KF i Wi); apply A1; exact Wi|]. intros j Hj. eapply cnapp_ext; [reflexivity| |exact (A2 j Hj)]. cbn beta. intros i Wi _. rewrite (KF i Wi). reflexivity.
      + eapply napp_ext; [reflexivity| |exact D]. cbn beta. intros i Wi _. rewrite (KF i Wi). reflexivity.
    - apply MB. intros i Wi. rewrite (KF i Wi). apply FK. exact Wi.
    - intros i Vi Pi. rewrite (KF i (conj Vi Pi)). apply FK. split; assumption. }
  split; [exact Lp|]. split.
  - intros i Vi. rewrite (EF i Vi). cbn [bind]. destruct (KEY (pat i)) as (k & _ & _ & _ & Q). apply Q; [exact Vi|reflexivity].
  - intros sg. destruct (KEY sg) as (k & A & B & D & _). exists k. auto.
Qed.

Definition sections_of i sort order : res (@DigitalFilter spec_float) :=
  let! g := float i in let! g := @to_digital _ (NF i) false g in @emit _ (NF i) (T i) (machine_eps (pr i)) sort order false OutSos g.
Definition sos_ok (K : R) (i : I) : Prop := forall sort order, is_list_sort sort ->
  exists sf sr, sections_of i sort order = Ok (DSos sf) /\ length sr = L /\ realises sr k0 /\ stable_sections sr /\
    Forall2 (sos_within (pr i) (em i) (K * uround (pr i))) sf sr /\ stable_sections (map sos_val sf).
Definition pipe_ok (K : R) (i : I) : Prop := forall sort order, is_list_sort sort ->
  exists sf, sections_of i sort order = Ok (DSos sf) /\ forall x X, Forall (finite (pr i) (em i)) x -> 0 <= X -> Forall (fun v => Rabs (fval v) <= X) x -> K * (X + ftiny (pr i) (em i)) <= fmax (pr i) (em i) ->
  exists yf lf', @sosfilt_dyn _ (NF i) x sf = Ok (yf, lf') /\ length yf = length x /\ Forall (finite (pr i) (em i)) yf /\
  forall l, realises l k0 -> exists y l', sosfilt_dyn (map fval x) l = Ok (y, l') /\ length y = length x /\
    forall n, (n < length x)%nat -> Rabs (fval (nth n yf (S754_zero false)) - nth n y 0) <= K * (uround (pr i) * X + ftiny (pr i) (em i)).
Lemma within_le prec emax e e' l r : e <= e' -> Forall2 (sos_within prec emax e) l r -> Forall2 (sos_within prec emax e') l r.
Proof.
  intros LE W. induction W as [|s t sf sr (F & N & H0 & H1 & H2) W IH]; constructor; [|exact IH]. split; [exact F|]. split; [|split; [exact H0|split; assumption]].
  clear - N LE. induction N; constructor; [lra|assumption].
Qed.
Lemma sos_mono : kmono pr sos_ok.
Proof.
  intros K K' i U HK LE H sort order Hs. destruct (H sort order Hs) as (sf & sr & A & B & D & F & G & J). exists sf, sr. split; [exact A|]. split; [exact B|]. split; [exact D|]. split; [exact F|]. split; [|exact J].
  eapply within_le; [|exact G]. apply Rmult_le_compat_r; lra.
Qed.
Lemma pipe_mono : kmono pr pipe_ok.
Proof.
  intros K K' i U HK LE H sort order Hs. destruct (H sort order Hs) as (sf & A & P). exists sf. split; [exact A|]. intros x X Fx HX Bx HM. pose proof (tiny_pos (pr i) (em i)) as TP.
  assert (UX : 0 <= uround (pr i) * X) by (apply Rmult_le_pos; lra).
  destruct (P x X Fx HX Bx) as (yf & lf' & F1 & L1 & F2 & G); [eapply Rle_trans; [|exact HM]; apply Rmult_le_compat_r; lra|].
  exists yf, lf'. split; [exact F1|]. split; [exact L1|]. split; [exact F2|]. intros l Hl. destruct (G l Hl) as (y & l' & F3 & L2 & B). exists y, l'. split; [exact F3|]. split; [exact L2|].
  intros n Hn. eapply Rle_trans; [exact (B n Hn)|]. apply Rmult_le_compat_r; lra.
Qed.
Lemma evk_sos : evk pr em V sos_ok.
Proof.
  destruct digital_mates as (pat & n & kf & Lp & EF & H). apply (evk_patterns I pr em sos_ok sos_mono n V pat Lp). intros sg.
  destruct (H sg) as (k & SU & N & M). set (W := fun i => V i /\ pat i = sg) in *.
  assert (LK : length (zk_p k) = length (zk_p k0)) by (destruct SU as [_ [P _]]; exact (Permutation_length P)).
  assert (LZ : length (zk_z k) = length (zk_p k)) by (rewrite LK; rewrite (Permutation_length (proj1 SU)); exact Lk).
  destruct (core_sos I pr em sz E HE T W (fun i Wi => HT i (proj1 Wi)) (fun i Wi => HS i (proj1 Wi)) k kf N M (real_upto k k0 SU Rk) (stable_upto k k0 SU Sk) LZ) as (K & r & C & HK & _ & _ & Q).
  exists K. split; [exact HK|]. intros i Hi sort order Hs. destruct (Q i Hi sort order Hs) as (sf & sr & E1 & Ls & RE & ST & Wn & _ & _ & SF).
  exists sf, sr. split; [unfold sections_of; rewrite <- bind_assoc, (EF i (proj1 (proj1 Hi))); exact E1|]. split; [rewrite Ls, LK; reflexivity|]. split; [exact (realises_upto sr k k0 SU RE)|]. split; [exact ST|]. split; [exact Wn|exact SF].
Qed.
Lemma evk_pipe : evk pr em V pipe_ok.
Proof.
  destruct digital_mates as (pat & n & kf & Lp & EF & H). apply (evk_patterns I pr em pipe_ok pipe_mono n V pat Lp). intros sg.
  destruct (H sg) as (k & SU & N & M). set (W := fun i => V i /\ pat i = sg) in *.
  assert (LK : length (zk_p k) = length (zk_p k0)) by (destruct SU as [_ [P _]]; exact (Permutation_length P)).
  assert (LZ : length (zk_z k) = length (zk_p k)) by (rewrite LK; rewrite (Permutation_length (proj1 SU)); exact Lk).
  destruct (core_pipe I pr em sz E HE T W (fun i Wi => HT i (proj1 Wi)) (fun i Wi => HS i (proj1 Wi)) k kf N M (real_upto k k0 SU Rk) (stable_upto k k0 SU Sk) LZ) as (K & HK & Q).
  exists K. split; [exact HK|]. intros i Hi sort order Hs. destruct (Q i Hi sort order Hs) as (sf & E1 & P).
  exists sf. split; [unfold sections_of; rewrite <- bind_assoc, (EF i (proj1 (proj1 Hi))); exact E1|]. intros x X Fx HX Bx HM. destruct (P x X Fx HX Bx HM) as (yf & lf' & F1 & L1 & F2 & G).
  exists yf, lf'. split; [exact F1|]. split; [exact L1|]. split; [exact F2|]. intros l Hl. exact (G l (realises_upto l k0 k (same_sym k k0 SU) Hl)).
Qed.
End BandSos.
