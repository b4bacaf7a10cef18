(** Proofs about the second-order-section filters. *)
From Coq Require Import List Arith Bool Lia Reals Lra.
From Verif Require Import Base Num M_Linalg M_Stats M_Filter S_Filter ListUtil.
Import ListNotations.

Section Generic.
Context {F : Type} {NF : Num F}.

(** Pure version of the sample loop. *)
Fixpoint filt (y : list F) (sos : list (Sos F)) : list F * list (Sos F) :=
  match y with
  | [] => ([], sos)
  | x :: y' => let '(o, s') := sosfilt_item x sos in
               let '(os, s'') := filt y' s' in (o :: os, s'')
  end.

Lemma item_length x sos : length (snd (sosfilt_item x sos)) = length sos.
Proof.
  revert x. induction sos as [|s sos IH]; intros x; cbn [sosfilt_item]; [reflexivity|].
  destruct (biquad_fold x s) as [x' s'] eqn:E. specialize (IH x').
  destruct (sosfilt_item x' sos) as [o r] eqn:E2. cbn in *. lia.
Qed.

Lemma item_coefs x sos : same_coefs (snd (sosfilt_item x sos)) sos.
Proof.
  unfold same_coefs. revert x. induction sos as [|s sos IH]; intros x; cbn [sosfilt_item]; [reflexivity|].
  unfold biquad_fold. cbn zeta. specialize (IH (nadd (nmul (b0 s) x) (zi0 s))).
  destruct (sosfilt_item _ sos) as [o r] eqn:E2. cbn in *. f_equal. exact IH.
Qed.

Lemma filt_length_out y sos : length (fst (filt y sos)) = length y.
Proof.
  revert sos. induction y as [|x y IH]; intros sos; cbn [filt]; [reflexivity|].
  destruct (sosfilt_item x sos) as [o s']. specialize (IH s'). destruct (filt y s') as [os s'']. cbn in *. lia.
Qed.
Lemma filt_length_st y sos : length (snd (filt y sos)) = length sos.
Proof.
  revert sos. induction y as [|x y IH]; intros sos; cbn [filt]; [reflexivity|].
  pose proof (item_length x sos). destruct (sosfilt_item x sos) as [o s']. specialize (IH s').
  destruct (filt y s') as [os s'']. cbn in *. lia.
Qed.
Lemma filt_coefs y sos : same_coefs (snd (filt y sos)) sos.
Proof.
  unfold same_coefs. revert sos. induction y as [|x y IH]; intros sos; cbn [filt]; [reflexivity|].
  pose proof (item_coefs x sos) as H. unfold same_coefs in H. destruct (sosfilt_item x sos) as [o s']. specialize (IH s').
  destruct (filt y s') as [os s'']. cbn in *. congruence.
Qed.

Lemma run_pure step y sos :
  (forall x s, length s = length sos -> step x s = Ok (sosfilt_item x s)) ->
  run_samples step y sos = Ok (filt y sos).
Proof.
  revert sos. induction y as [|x y IH]; intros sos H; cbn [run_samples filt]; [reflexivity|].
  rewrite (H x sos eq_refl). pose proof (item_length x sos) as L.
  destruct (sosfilt_item x sos) as [o s']. cbn [bind snd] in *.
  rewrite IH; [|intros x0 s0 L0; apply H; congruence].
  cbn [bind]. destruct (filt y s'). reflexivity.
Qed.

Lemma slice_pure k x s : length s = k -> sosfilt_item_slice k x s = Ok (sosfilt_item x s).
Proof.
  intros <-. unfold sosfilt_item_slice. rewrite Nat.leb_refl. cbn [rassert bind].
  rewrite firstn_all, skipn_all. destruct (sosfilt_item x s). rewrite app_nil_r. reflexivity.
Qed.

Lemma sosfilt_st_pure y sos : sosfilt_st y sos = Ok (filt y sos).
Proof. apply run_pure. reflexivity. Qed.

Lemma sosfilt_dyn_pure y sos : sosfilt_dyn y sos = Ok (filt y sos).
Proof.
  assert (P : forall k, length sos = k -> run_samples (sosfilt_item_slice k) y sos = Ok (filt y sos)).
  { intros k E. apply run_pure. intros. apply slice_pure. congruence. }
  unfold sosfilt_dyn. remember (length sos) as k eqn:E. symmetry in E.
  assert (D : run_samples (fun yi s => Ok (sosfilt_item yi s)) y sos = Ok (filt y sos))
    by (apply run_pure; reflexivity).
  do 21 (destruct k as [|k]; [first [exact D | apply P; reflexivity]|]). exact D.
Qed.

Lemma filt_app y1 y2 sos :
  filt (y1 ++ y2) sos =
  (fst (filt y1 sos) ++ fst (filt y2 (snd (filt y1 sos))), snd (filt y2 (snd (filt y1 sos)))).
Proof.
  revert sos. induction y1 as [|x y1 IH]; intros sos; cbn [app filt].
  - cbn. destruct (filt y2 sos); reflexivity.
  - destruct (sosfilt_item x sos) as [o s']. rewrite IH. destruct (filt y1 s') as [os s'']. reflexivity.
Qed.

(** fast32 *)
Lemma sections_loop_item zi sos : sections_loop zi sos = sosfilt_item zi sos.
Proof.
  revert zi. induction sos as [|s sos IH]; intros zi; cbn [sections_loop sosfilt_item]; [reflexivity|].
  destruct (biquad_fold zi s). rewrite IH. reflexivity.
Qed.

Lemma samples_loop_filt {I} (conv : I -> F) y sos z : length y = length z ->
  samples_loop conv y sos z = filt (map conv y) sos.
Proof.
  revert sos z. induction y as [|x y IH]; intros sos z L; destruct z as [|z0 z]; try discriminate.
  - reflexivity.
  - cbn [samples_loop map filt]. rewrite sections_loop_item.
    destruct (sosfilt_item (conv x) sos). rewrite IH by (injection L; auto). reflexivity.
Qed.

Lemma tiles_loop_filt {I} (conv : I -> F) y : forall sos z, length y = length z ->
  length y mod 4 = 0 ->
  let '(zt, s') := tiles_loop conv (itiles4 y) sos (itiles4 z) in
  (concat zt ++ irem4 z, s') = filt (map conv y) sos.
Proof.
  remember (length y) as n eqn:E. revert y E. induction n as [n IH] using lt_wf_ind.
  intros y E sos z L M.
  destruct y as [|x0 [|x1 [|x2 [|x3 y]]]]; cbn in E; subst n; try discriminate M.
  - destruct z; [|discriminate]. reflexivity.
  - destruct z as [|z0 [|z1 [|z2 [|z3 z]]]]; try discriminate L.
    cbn [itiles4 irem4 tiles_loop]. rewrite samples_loop_filt by reflexivity.
    change (map conv (x0 :: x1 :: x2 :: x3 :: y)) with (map conv [x0; x1; x2; x3] ++ map conv y).
    rewrite filt_app. destruct (filt (map conv [x0; x1; x2; x3]) sos) as [o4 s4] eqn:E4. cbn [fst snd].
    assert (M' : length y mod 4 = 0).
    { replace (S (S (S (S (length y))))) with (length y + 1 * 4) in M by lia.
      rewrite Nat.mod_add in M by lia. exact M. }
    injection L as L. specialize (IH (length y) ltac:(lia) y eq_refl s4 z L M').
    destruct (tiles_loop conv (itiles4 y) s4 (itiles4 z)) as [zt s'].
    cbn [concat]. rewrite <- IH. cbn [fst snd]. rewrite app_assoc. reflexivity.
Qed.

Lemma sosfilt32_step {I} (conv : I -> F) f y sos z :
  (forall s, sosfilt32_gen conv f [] s [] = Ok ([], s)) ->
  sosfilt32_gen conv (S f) y sos z =
  if Nat.eqb (length y) (length z) then Ok (filt (map conv y) sos) else Panic.
Proof.
  intros Hf. cbn [sosfilt32_gen].
  destruct (Nat.eqb_spec (length y) (length z)) as [L|L]; cbn [negb]; [|reflexivity].
  destruct (Nat.eqb_spec (length y) 0) as [Z|Z].
  { destruct y; [|discriminate]. destruct z; [|discriminate]. reflexivity. }
  assert (S : Ok (samples_loop conv y sos z) = Ok (filt (map conv y) sos)).
  { f_equal. apply samples_loop_filt. exact L. }
  set (T := let '(zt, sos') := tiles_loop conv (itiles4 y) sos (itiles4 z) in _).
  assert (HT : length y mod 4 = 0 -> T = Ok (filt (map conv y) sos)).
  { intros M. unfold T. pose proof (tiles_loop_filt conv y sos z L M) as H.
    destruct (tiles_loop conv (itiles4 y) sos (itiles4 z)) as [zt s'].
    rewrite M. unfold usub. cbn [Nat.ltb Nat.leb]. rewrite Nat.sub_0_r. cbn [bind].
    assert (LZ : length (concat zt ++ irem4 z) = length y).
    { pose proof (filt_length_out (map conv y) sos) as Q. rewrite <- H in Q. cbn [fst] in Q.
      rewrite map_length in Q. exact Q. }
    rewrite skipn_all. rewrite <- LZ, skipn_all. rewrite Hf. cbn [bind].
    rewrite firstn_all, app_nil_r, H. reflexivity. }
  clearbody T. destruct (Nat.eqb_spec (length y mod 4) 0) as [M|M].
  - specialize (HT M). clear - S HT. generalize (length sos) as k. intros k.
    do 11 (destruct k as [|k]; [first [exact HT|exact S]|]). exact S.
  - clear - S. generalize (length sos) as k. intros k.
    do 11 (destruct k as [|k]; [exact S|]). exact S.
Qed.

Lemma sosfilt32_eq {I} (conv : I -> F) y sos z :
  sosfilt32_gen conv 2 y sos z =
  if Nat.eqb (length y) (length z) then Ok (filt (map conv y) sos) else Panic.
Proof. apply sosfilt32_step. intros s. reflexivity. Qed.

(** Cascade *)
Lemma item_app x s1 s2 :
  sosfilt_item x (s1 ++ s2) =
  (fst (sosfilt_item (fst (sosfilt_item x s1)) s2),
   snd (sosfilt_item x s1) ++ snd (sosfilt_item (fst (sosfilt_item x s1)) s2)).
Proof.
  revert x. induction s1 as [|s s1 IH]; intros x; cbn [app sosfilt_item].
  - cbn. destruct (sosfilt_item x s2); reflexivity.
  - destruct (biquad_fold x s) as [x' s']. rewrite IH. destruct (sosfilt_item x' s1). reflexivity.
Qed.

Lemma filt_cascade y s1 s2 :
  filt y (s1 ++ s2) =
  (fst (filt (fst (filt y s1)) s2), snd (filt y s1) ++ snd (filt (fst (filt y s1)) s2)).
Proof.
  revert s1 s2. induction y as [|x y IH]; intros s1 s2; cbn [filt]; [reflexivity|].
  rewrite item_app. destruct (sosfilt_item x s1) as [o1 s1']. cbn [fst snd]. 
  pose proof (IH s1' (snd (sosfilt_item o1 s2))) as IH'.
  destruct (sosfilt_item o1 s2) as [o2 s2'] eqn:E. cbn [fst snd] in *. rewrite IH'.
  destruct (filt y s1') as [os1 s1'']. cbn [fst snd filt]. rewrite E.
  destruct (filt os1 s2') as [os2 s2'']. reflexivity.
Qed.

(** Causality *)
Lemma filt_causal y z sos i : firstn i y = firstn i z ->
  firstn i (fst (filt y sos)) = firstn i (fst (filt z sos)).
Proof.
  revert y z sos. induction i as [|i IH]; intros y z sos H; [reflexivity|].
  destruct y as [|a y], z as [|b z]; cbn in H; try discriminate; [reflexivity|].
  injection H as -> H. cbn [filt]. destruct (sosfilt_item b sos) as [o s'].
  specialize (IH y z s' H). destruct (filt y s'), (filt z s'). cbn in *. f_equal. exact IH.
Qed.
End Generic.

(** Zipped filtering of one section. *)
Lemma filt_one {F} {NF : Num F} x (s : Sos F) y :
  filt (x :: y) [s] =
  (fst (biquad_fold x s) :: fst (filt y [snd (biquad_fold x s)]), snd (filt y [snd (biquad_fold x s)])).
Proof. cbn [filt sosfilt_item]. destruct (biquad_fold x s). cbn [fst snd]. destruct (filt y _). reflexivity. Qed.

Local Open Scope R_scope.

(** Difference equation with initial delays: the delays play the part of the past. *)
Definition past (s : Sos R) (i : nat) : R :=
  match i with O => zi0 s | S O => zi1 s | _ => 0 end.

Lemma diff_eq_state (x : list R) : forall s : Sos R,
  forall i, (i < length x)%nat ->
  let y := fst (filt x [s]) in
  delayed y 0 i = b0 s * delayed x 0 i + b1 s * delayed x 1 i + b2 s * delayed x 2 i
                  - a1 s * delayed y 1 i - a2 s * delayed y 2 i + past s i.
Proof.
  induction x as [|x0 x IH]; intros s i Hi; [cbn in Hi; lia|].
  intros y. subst y. rewrite filt_one. cbn [fst].
  set (s' := snd (biquad_fold x0 s)). set (y0 := fst (biquad_fold x0 s)).
  set (y := fst (filt x [s'])).
  assert (C : b0 s' = b0 s /\ b1 s' = b1 s /\ b2 s' = b2 s /\ a1 s' = a1 s /\ a2 s' = a2 s)
    by (repeat split).
  destruct C as (C0 & C1 & C2 & C3 & C4).
  destruct i as [|i].
  - unfold delayed. cbn. unfold y0. cbn. lra.
  - specialize (IH s' i ltac:(cbn in Hi; lia)). cbn zeta in IH. fold y in IH.
    rewrite C0, C1, C2, C3, C4 in IH.
    unfold delayed in *. cbn [Nat.leb Nat.sub nth] in *. rewrite ?Nat.sub_0_r in *.
    destruct i as [|i].
    + cbn [Nat.leb Nat.sub nth past] in *. rewrite IH. unfold s', y0. cbn. lra.
    + cbn [Nat.leb Nat.sub nth past] in *. rewrite ?Nat.sub_0_r in *.
      destruct i as [|i].
      * cbn [Nat.leb Nat.sub nth past] in *. rewrite IH. unfold s', y0. cbn. lra.
      * cbn [Nat.leb Nat.sub nth past] in *. rewrite IH, ?Nat.sub_0_r. lra.
Qed.

Lemma diff_eq (x : list R) (s : Sos R) : zero_state s -> a0 s = 1 ->
  difference_equation s x (fst (filt x [s])).
Proof.
  intros [Z0 Z1] A. split; [apply filt_length_out|]. intros i Hi.
  pose proof (diff_eq_state x s i Hi) as H. cbn zeta in H. rewrite A.
  assert (P : past s i = 0) by (destruct i as [|[|i]]; cbn; auto). lra.
Qed.

Lemma diff_eq_unique (s : Sos R) (x y z : list R) : a0 s <> 0 ->
  difference_equation s x y -> difference_equation s x z -> y = z.
Proof.
  intros A [Ly Hy] [Lz Hz].
  assert (G : forall i, (i < length x)%nat -> nth i y 0 = nth i z 0).
  { intros i. induction i as [i IH] using lt_wf_ind. intros Hi.
    specialize (Hy i Hi). specialize (Hz i Hi).
    assert (D : forall k, (0 < k)%nat -> delayed y k i = delayed z k i).
    { intros k Hk. unfold delayed. destruct (Nat.leb_spec k i); [|reflexivity]. apply IH; lia. }
    rewrite (D 1%nat), (D 2%nat) in Hy by lia.
    assert (E : a0 s * delayed y 0 i = a0 s * delayed z 0 i) by lra.
    apply Rmult_eq_reg_l in E; [|exact A]. unfold delayed in E. cbn in E. rewrite Nat.sub_0_r in E. exact E. }
  apply nth_ext with (d := 0) (d' := 0); [congruence|]. intros n Hn. apply G. congruence.
Qed.

(** Linearity *)
Lemma biquad_lin c d x y (s t : Sos R) : coefs s = coefs t ->
  biquad_fold (c * x + d * y)
    (set_state s (c * zi0 s + d * zi0 t) (c * zi1 s + d * zi1 t)) =
  (c * fst (biquad_fold x s) + d * fst (biquad_fold y t),
   set_state s (c * zi0 (snd (biquad_fold x s)) + d * zi0 (snd (biquad_fold y t)))
               (c * zi1 (snd (biquad_fold x s)) + d * zi1 (snd (biquad_fold y t)))).
Proof.
  intros C. unfold coefs in C. injection C as C0 C1 C2 C3 C4 C5.
  unfold biquad_fold, set_state. cbn. rewrite <- C0, <- C1, <- C2, <- C4, <- C5.
  f_equal; [ring|]. f_equal; ring.
Qed.

Lemma item_lin c d (s t : list (Sos R)) : same_coefs s t -> forall x y,
  sosfilt_item (c * x + d * y) (lincomb_state c d s t) =
  (c * fst (sosfilt_item x s) + d * fst (sosfilt_item y t),
   lincomb_state c d (snd (sosfilt_item x s)) (snd (sosfilt_item y t))).
Proof.
  revert t. induction s as [|s0 s IH]; intros t C x y; destruct t as [|t0 t]; try discriminate.
  - reflexivity.
  - unfold same_coefs in C. cbn [map] in C.
    assert (C0 : coefs s0 = coefs t0) by (exact (f_equal (hd []) C)).
    assert (C' : same_coefs s t) by (exact (f_equal (@tl _) C)).
    unfold lincomb_state. cbn [combine map fst snd sosfilt_item]. fold (lincomb_state c d s t).
    rewrite biquad_lin by exact C0.
    destruct (biquad_fold x s0) as [x' s0'] eqn:E1, (biquad_fold y t0) as [y' t0'] eqn:E2. cbn [fst snd].
    rewrite (IH t C'). destruct (sosfilt_item x' s) as [ox s'], (sosfilt_item y' t) as [oy t'].
    cbn [fst snd combine map]. f_equal. f_equal.
    unfold biquad_fold in E1. injection E1 as _ <-. reflexivity.
Qed.

Lemma filt_lin c d x : forall y (s t : list (Sos R)), same_coefs s t -> length x = length y ->
  filt (lincomb c d x y) (lincomb_state c d s t) =
  (lincomb c d (fst (filt x s)) (fst (filt y t)),
   lincomb_state c d (snd (filt x s)) (snd (filt y t))).
Proof.
  induction x as [|x0 x IH]; intros y s t C L; destruct y as [|y0 y]; try discriminate.
  - reflexivity.
  - unfold lincomb. cbn [combine map fst snd filt]. rewrite (item_lin c d s t C). fold (lincomb c d x y).
    pose proof (item_coefs x0 s) as Cs. pose proof (item_coefs y0 t) as Ct. unfold same_coefs in *.
    destruct (sosfilt_item x0 s) as [ox s'], (sosfilt_item y0 t) as [oy t']. cbn [fst snd] in *.
    rewrite IH; [|congruence|injection L; auto].
    destruct (filt x s'), (filt y t'). reflexivity.
Qed.

(** Shift invariance: k leading zeros. *)
Definition zero_states (l : list (Sos R)) : Prop := Forall zero_state l.

Lemma item_zero (s : list (Sos R)) : zero_states s -> sosfilt_item 0 s = (0, s).
Proof.
  induction 1 as [|s0 s [Z0 Z1] H IH]; [reflexivity|]. cbn [sosfilt_item].
  assert (E : biquad_fold 0 s0 = (0, s0)).
  { destruct s0 as [B0 B1 B2 A0 A1 A2 z0 z1]. cbn in Z0, Z1. subst.
    unfold biquad_fold, set_state. cbn. f_equal; [ring|]. f_equal; ring. }
  rewrite E, IH. reflexivity.
Qed.

Lemma filt_shift k x (s : list (Sos R)) : zero_states s ->
  filt (repeat 0 k ++ x) s = (repeat 0 k ++ fst (filt x s), snd (filt x s)).
Proof.
  intros Z. induction k as [|k IH]; cbn [repeat app filt].
  - destruct (filt x s); reflexivity.
  - rewrite (item_zero s Z), IH. reflexivity.
Qed.
