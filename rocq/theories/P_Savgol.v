(** savgol_filter_dyn, savgol_coeffs_dyn. *)
From Coq Require Import List Arith ZArith QArith Bool Lia.
From Verif Require Import Base Num MachInt P_MachInt M_Linalg M_Savgol S_Savgol ListUtil.
Import ListNotations.
Local Open Scope nat_scope.

Lemma zip_map_seq {F A} (f : nat -> F) (g : nat -> A) n :
  zip (map f (seq 0 n)) (map g (seq 0 n)) = map (fun k => (f k, g k)) (seq 0 n).
Proof. generalize 0. induction n as [|n IH]; intros s; [reflexivity|]. cbn. rewrite IH. reflexivity. Qed.
Lemma as_map_seq {A} (d : A) l : l = map (fun k => nth k l d) (seq 0 (length l)).
Proof.
  induction l as [|a l IH]; [reflexivity|]. cbn [length seq map nth]. f_equal.
  rewrite <- seq_shift, map_map. exact IH.
Qed.
Lemma nth_firstn' {A} (d : A) l w k : k < w -> nth k (firstn w l) d = nth k l d.
Proof.
  revert l k. induction w as [|w IH]; intros l k H; [lia|]. destruct l; [destruct k; reflexivity|].
  destruct k; [reflexivity|]. cbn. apply IH. lia.
Qed.
Lemma nth_skipn' {A} (d : A) l i k : nth k (skipn i l) d = nth (i + k) l d.
Proof. revert l. induction i as [|i IH]; intros l; [reflexivity|]. destruct l; [destruct k; reflexivity|]. apply IH. Qed.

Section Fir.
Context {F : Type} {NF : Num F}.

Lemma padded_nth (a : F) y' h j : let y := a :: y' in
  nth j (repeat a (h + 1) ++ y' ++ repeat (nth (length y') y nzero) h) nzero =
  if j <? length y + 2 * h then nth (Nat.min (length y - 1) (j - h)) y nzero else nzero.
Proof.
  intros y. unfold y. cbn [length].
  assert (R : forall (c : F) n k, k < n -> nth k (repeat c n) nzero = c).
  { intros c n k H. rewrite (nth_indep _ _ c) by (rewrite repeat_length; lia). apply nth_repeat. }
  destruct (Nat.ltb_spec j (S (length y') + 2 * h)) as [H|H].
  - destruct (Nat.lt_ge_cases j (h + 1)) as [H1|H1].
    + rewrite app_nth1 by (rewrite repeat_length; lia). rewrite R by lia.
      replace (Nat.min (S (length y') - 1) (j - h)) with 0 by lia. reflexivity.
    + rewrite app_nth2, repeat_length by (rewrite repeat_length; lia).
      destruct (Nat.lt_ge_cases (j - (h + 1)) (length y')) as [H2|H2].
      * rewrite app_nth1 by exact H2. replace (Nat.min (S (length y') - 1) (j - h)) with (S (j - (h + 1))) by lia. reflexivity.
      * rewrite app_nth2 by exact H2. rewrite R by lia.
        replace (Nat.min (S (length y') - 1) (j - h)) with (length y') by lia. reflexivity.
  - apply nth_overflow. rewrite !app_length, !repeat_length. lia.
Qed.

Lemma last_of_data (a : F) y' h : nth_error (rev (repeat a (h + 1) ++ y')) 0 = Some (nth (length y') (a :: y') nzero).
Proof.
  rewrite (nth_error_nth' _ nzero) by (rewrite rev_length, app_length, repeat_length; lia).
  rewrite rev_nth by (rewrite app_length, repeat_length; lia). rewrite app_length, repeat_length.
  f_equal. destruct y' as [|b y'].
  - rewrite app_nil_r. cbn [length nth]. rewrite (nth_indep _ _ a) by (rewrite repeat_length; lia). apply nth_repeat.
  - rewrite app_nth2, repeat_length by (rewrite repeat_length; cbn [length]; lia). cbn [length].
    replace (h + 1 + S (length y') - 1 - (h + 1)) with (length y') by lia. reflexivity.
Qed.

Lemma savgol_fir_gen lstsq md pw (y : list F) w po der del c :
  w mod 2 = 1 -> po + 2 <= w -> savgol_coeffs_dyn lstsq md pw w po der del = Ok c -> length c = w ->
  savgol_filter_dyn lstsq md pw y w po der del =
  Ok (map (fun i => nsum (map (fun k => nmul (clamped y (w / 2) i k) (nth (w - 1 - k) c nzero)) (seq 0 w)))
          (seq 0 (length y))).
Proof.
  intros Hodd Hpo Hc Lc. unfold savgol_filter_dyn. rewrite Hodd. cbn [Nat.eqb].
  destruct (Nat.ltb_spec w (po + 2)); [lia|]. rewrite Hc. cbn [bind].
  destruct y as [|a y']; [reflexivity|]. set (h := w / 2).
  assert (Hw : w = 2 * h + 1) by (unfold h; pose proof (Nat.div_mod w 2); lia).
  rewrite last_of_data. cbn [unwrap bind]. f_equal. unfold windows. rewrite map_map.
  rewrite !app_length, !repeat_length.
  replace (h + 1 + length y' + h + 1 - w) with (length (a :: y')) by (cbn [length]; lia).
  apply map_ext_in. intros i Hi. apply in_seq in Hi. rewrite <- app_assoc.
  set (data := repeat a (h + 1) ++ _).
  assert (Ld : length data = length (a :: y') + 2 * h).
  { unfold data. rewrite !app_length, !repeat_length. cbn [length]. lia. }
  f_equal.
  rewrite (as_map_seq nzero (firstn w (skipn i data))).
  replace (length (firstn w (skipn i data))) with w by (rewrite firstn_length, skipn_length; lia).
  rewrite (as_map_seq nzero (rev c)), rev_length, Lc, zip_map_seq, map_map. cbn [fst snd].
  apply map_ext_in. intros k Hk. apply in_seq in Hk.
  rewrite nth_firstn', nth_skipn' by lia. rewrite rev_nth, Lc by lia.
  unfold data. rewrite padded_nth. destruct (Nat.ltb_spec (i + k) (length (a :: y') + 2 * h)); [|lia].
  unfold clamped. f_equal. f_equal. lia.
Qed.
End Fir.

(** usize factorial *)
Lemma factorial_ok md pw n : (0 < pw)%Z -> (Z.of_nat (fact n) <= imax (usize_t pw))%Z ->
  factorial md pw n = Ok (Z.of_nat (fact n)).
Proof.
  intros Hp H. unfold factorial.
  assert (G : forall k m, (Z.of_nat (fact (m + k)) <= imax (usize_t pw))%Z ->
    rfold (fun acc i => imul md (usize_t pw) acc (Z.of_nat i)) (seq (S m) k) (Z.of_nat (fact m)) = Ok (Z.of_nat (fact (m + k)))).
  { clear n H. induction k as [|k IH]; intros m H; [rewrite Nat.add_0_r; reflexivity|].
    cbn [seq rfold]. replace (m + S k) with (S m + k) in * by lia.
    unfold imul, arith.
    assert (E : (Z.of_nat (fact m) * Z.of_nat (S m) = Z.of_nat (fact (S m)))%Z) by (cbn [fact]; nia).
    rewrite E.
    assert (L : fact (S m) <= fact (S m + k)) by (apply fact_le; lia).
    assert (I : in_range (usize_t pw) (Z.of_nat (fact (S m))) = true).
    { unfold in_range, imin. cbn [signed usize_t]. apply andb_true_iff. split; apply Z.leb_le; lia. }
    rewrite I. cbn [bind]. apply IH. exact H. }
  specialize (G n 0 H). exact G.
Qed.

From Coq Require Import Reals Lra.
From Verif Require Import S_Stats P_Stats RSum.
Local Open Scope R_scope.

(** Vandermonde systems are solvable. *)
Lemma vandermonde_solvable n : forall (p y : nat -> R),
  (forall i j, (i < n)%nat -> (j < n)%nat -> p i = p j -> i = j) ->
  exists x : nat -> R, forall i, (i < n)%nat -> rsum n (fun j => p j ^ i * x j) = y i.
Proof.
  induction n as [|n IH]; intros p y Inj.
  - exists (fun _ => 0). intros i Hi. lia.
  - destruct (IH p (fun i => y (S i) - p n * y i)) as (w & Hw).
    { intros i j Hi Hj. apply Inj; lia. }
    set (x1 := fun j => w j / (p j - p n)).
    set (x := fun j => if (j =? n)%nat then y O - rsum n x1 else x1 j).
    assert (Xn : x n = y O - rsum n x1) by (unfold x; rewrite Nat.eqb_refl; reflexivity).
    assert (Xj : forall j, (j < n)%nat -> x j = x1 j) by (intros j Hj; unfold x; destruct (Nat.eqb_spec j n); [lia|reflexivity]).
    exists x. induction i as [|i IHi]; intros Hi.
    + cbn [rsum pow]. rewrite Xn. rewrite (rsum_ext n _ x1); [lra|]. intros j Hj. rewrite Xj by exact Hj. lra.
    + specialize (IHi ltac:(lia)). specialize (Hw i ltac:(lia)).
      assert (D : rsum (S n) (fun j => p j ^ S i * x j) - p n * rsum (S n) (fun j => p j ^ i * x j) =
                  rsum n (fun j => p j ^ i * w j)).
      { rewrite <- rsum_scale, <- rsum_minus. cbn [rsum].
        rewrite (rsum_ext n _ (fun j => p j ^ i * w j)); [cbn [pow]; ring|].
        intros j Hj. rewrite Xj by exact Hj. unfold x1. cbn [pow].
        assert (p j - p n <> 0); [|field; assumption]. intros E. assert (j = n); [|lia]. apply Inj; lia || lra. }
      rewrite IHi, Hw in D. lra.
Qed.

Definition pos_at (w j : nat) : R :=
  if (w mod 2 =? 0)%nat then INR (w / 2) - INR j - 1 / 2 else INR (w / 2) - INR j.
Lemma npowi_pow (x : R) n : npowi x n = x ^ n.
Proof. induction n as [|n IH]; [reflexivity|]. cbn [npowi pow]. rewrite IH. reflexivity. Qed.
Lemma nth_map_seq' {A} (f : nat -> A) n j d : (j < n)%nat -> nth j (map f (seq 0 n)) d = f j.
Proof.
  intros H. rewrite (nth_indep _ d (f O)) by (rewrite map_length, seq_length; lia).
  rewrite map_nth, seq_nth by lia. reflexivity.
Qed.
Lemma positions_at w j : (j < w)%nat -> nth j (positions w) 0 = pos_at w j.
Proof.
  intros H. unfold positions, pos_at. cbn [nsub nofZ nofQ RNum]. destruct (w mod 2 =? 0)%nat.
  - rewrite nth_map_seq' by exact H. rewrite <- !INR_IZR_INZ. unfold Q2R. cbn. lra.
  - rewrite nth_map_seq' by exact H. rewrite <- !INR_IZR_INZ. reflexivity.
Qed.
Lemma pos_inj w i j : pos_at w i = pos_at w j -> i = j.
Proof. unfold pos_at. intros H. apply INR_eq. destruct (w mod 2 =? 0)%nat; lra. Qed.

Lemma set_index_nth {A} (v : list A) i x d : (i < length v)%nat ->
  exists v', set_index v i x = Ok v' /\ length v' = length v /\
  forall k, nth k v' d = if (k =? i)%nat then x else nth k v d.
Proof.
  intros H. unfold set_index. destruct (Nat.ltb_spec i (length v)); [|lia]. eexists. split; [reflexivity|]. split.
  - rewrite app_length, firstn_length. cbn [length]. rewrite skipn_length. lia.
  - intros k. destruct (Nat.eqb_spec k i) as [->|N].
    + rewrite app_nth2, firstn_length by (rewrite firstn_length; lia).
      replace (i - Nat.min i (length v))%nat with O by lia. reflexivity.
    + destruct (Nat.lt_ge_cases k i).
      * rewrite app_nth1 by (rewrite firstn_length; lia). apply nth_firstn'. lia.
      * rewrite app_nth2, firstn_length by (rewrite firstn_length; lia).
        replace (k - Nat.min i (length v))%nat with (S (k - i - 1)) by lia. cbn [nth]. rewrite nth_skipn'.
        f_equal. lia.
Qed.

(** The moment equations of the coefficients. *)
Definition moments (w po der : nat) (del : R) (c : list R) : Prop :=
  length c = w /\ forall m, (m <= po)%nat ->
    rsum w (fun j => position w j ^ m * nth j c 0) = if (m =? der)%nat then INR (fact der) / del ^ der else 0.

Lemma pos_position w j : (0 < w)%nat -> pos_at w j = position w j.
Proof.
  intros Hw. unfold pos_at, position. pose proof (Nat.div_mod w 2 ltac:(lia)) as D.
  pose proof (Nat.mod_upper_bound w 2 ltac:(lia)) as B.
  destruct (Nat.eqb_spec (w mod 2) 0) as [E|E].
  - assert (W : INR w = 2 * INR (w / 2)) by (rewrite D at 1; rewrite E, Nat.add_0_r, mult_INR; reflexivity). rewrite W. lra.
  - assert (E1 : (w mod 2 = 1)%nat) by lia.
    assert (W : INR w = 2 * INR (w / 2) + 1) by (rewrite D at 1; rewrite E1, plus_INR, mult_INR; reflexivity). rewrite W. lra.
Qed.

Lemma solves_rsum w po der del A x y : is_savgol_system w po der del A y -> forall m, (m <= po)%nat ->
  Rsum (map (fun j => ent A m j * nth j x 0) (seq 0 (ncols A))) = rsum w (fun j => position w j ^ m * nth j x 0).
Proof.
  intros (Nr & Nc & E & _) m Hm. rewrite Nc, Rsum_seq. apply rsum_ext. intros j Hj. rewrite Nat.add_0_l, E by assumption. reflexivity.
Qed.

Lemma system_consistent w po der del A y : (po < w)%nat -> is_savgol_system w po der del A y -> exists x, solves A x y.
Proof.
  intros Hw H. pose proof H as (Nr & Nc & E & Ly & Y).
  destruct (vandermonde_solvable (po + 1) (position w) (fun m => nth m y 0)) as (x & Hx).
  { intros i j _ _ P. unfold position in P. apply INR_eq. lra. }
  exists (map (fun j => if (j <? po + 1)%nat then x j else 0) (seq 0 w)). split.
  - rewrite map_length, seq_length. symmetry. exact Nc.
  - intros i Hi. rewrite Nr in Hi. rewrite (solves_rsum w po der del A _ y H) by lia. rewrite <- Hx by exact Hi.
    replace w with (po + 1 + (w - (po + 1)))%nat at 1 by lia. rewrite rsum_add.
    rewrite (rsum_zero (w - _)).
    + rewrite Rplus_0_r. apply rsum_ext. intros j Hj. rewrite nth_map_seq' by lia.
      destruct (Nat.ltb_spec j (po + 1)); [reflexivity|lia].
    + intros j Hj. rewrite nth_map_seq' by lia. destruct (Nat.ltb_spec (po + 1 + j) (po + 1)); [lia|]. ring.
Qed.

Lemma coeffs_moments lstsq md pw w po der del :
  solver_handles lstsq w po der del -> (0 < pw)%Z -> (po < w)%nat -> (der <= po)%nat ->
  (Z.of_nat (fact der) <= imax (usize_t pw))%Z ->
  exists c, savgol_coeffs_dyn lstsq md pw w po (Some der) (Some del) = Ok c /\ moments w po der del c.
Proof.
  intros HL Hp Hw Hd Hf. unfold savgol_coeffs_dyn. destruct (Nat.leb_spec w po); [lia|].
  destruct (Nat.ltb_spec po der); [lia|]. rewrite factorial_ok by assumption. cbn [bind].
  set (A := mkmat _ w _). set (y0 := map _ (seq 0 (po + 1))).
  assert (Ly : length y0 = (po + 1)%nat) by (unfold y0; rewrite map_length, seq_length; reflexivity).
  destruct (set_index_nth y0 der (nofZ (Z.of_nat (fact der)) / npowi del der)%num 0 ltac:(lia)) as (y & -> & Ly' & Hy).
  cbn [bind].
  assert (SY : is_savgol_system w po der del A y).
  { split; [reflexivity|]. split; [reflexivity|]. split; [|split; [congruence|]].
    - intros i j Hi Hj. unfold A. cbn [ent]. rewrite npowi_pow. change (@nzero R RNum) with 0.
      rewrite positions_at by exact Hj. rewrite pos_position by lia. reflexivity.
    - intros m Hm. rewrite Hy. destruct (Nat.eqb_spec m der) as [E|N].
      + cbn [ndiv nofZ RNum]. rewrite <- INR_IZR_INZ. rewrite npowi_pow. reflexivity.
      + unfold y0. rewrite nth_map_seq' by lia. destruct (Nat.eqb_spec m der); [contradiction|reflexivity]. }
  destruct (HL A y (nofQ (1 # 1000000000)) SY) as (c & Ec & Sc).
  rewrite Ec. exists c. split; [reflexivity|]. pose proof SY as (Nr & Nc & _ & _ & Y). destruct Sc as [Lc Sc]. split; [congruence|].
  intros m Hm. rewrite <- (solves_rsum w po der del A c y SY) by exact Hm. rewrite Sc by lia. apply Y. exact Hm.
Qed.

(** Polynomials *)
Fixpoint padd (p q : list R) : list R :=
  match p, q with [], q => q | p, [] => p | a :: p', b :: q' => (a + b) :: padd p' q' end.
Lemma padd_eval p : forall q t, peval (padd p q) t = peval p t + peval q t.
Proof. induction p as [|a p IH]; intros [|b q] t; cbn; try lra. rewrite IH. lra. Qed.
Lemma padd_length p : forall q, length (padd p q) = Nat.max (length p) (length q).
Proof. induction p as [|a p IH]; intros [|b q]; cbn; try lia. rewrite IH. lia. Qed.
Lemma pscale_eval c p t : peval (map (Rmult c) p) t = c * peval p t.
Proof. induction p as [|a p IH]; cbn; [lra|]. rewrite IH. lra. Qed.
Fixpoint pshift (t : R) (p : list R) : list R :=
  match p with [] => [] | c :: p' => let q := pshift t p' in padd [c] (padd (map (Rmult t) q) (0 :: q)) end.
Lemma pshift_eval t p s : peval (pshift t p) s = peval p (t + s).
Proof.
  induction p as [|c p IH]; [reflexivity|]. cbn [pshift]. rewrite !padd_eval, pscale_eval. cbn [peval]. rewrite IH. ring.
Qed.
Lemma pshift_length t p : length (pshift t p) = length p.
Proof. induction p as [|c p IH]; [reflexivity|]. cbn [pshift]. rewrite !padd_length, map_length. cbn [length]. lia. Qed.

Lemma pderiv_from_S k p t : peval (pderiv_from (k + 1) p) t = peval (pderiv_from k p) t + peval p t.
Proof. revert k. induction p as [|c p IH]; intros k; cbn; [lra|]. rewrite IH. lra. Qed.
Lemma pderiv_cons c p t : peval (pderiv (c :: p)) t = peval p t + t * peval (pderiv p) t.
Proof.
  cbn [pderiv]. replace 1 with (0 + 1) by ring. rewrite pderiv_from_S.
  enough (peval (pderiv_from 0 p) t = t * peval (pderiv p) t) by lra.
  destruct p as [|d p]; cbn; [lra|]. replace (0 + 1) with 1 by ring. lra.
Qed.
Lemma pderiv_correct p t : derivable_pt_lim (peval p) t (peval (pderiv p) t).
Proof.
  induction p as [|c p IH].
  - apply derivable_pt_lim_const.
  - rewrite pderiv_cons. cbn [peval].
    replace (peval p t + t * peval (pderiv p) t) with (0 + (1 * peval p t + t * peval (pderiv p) t)) by ring.
    apply (derivable_pt_lim_plus (fun _ => c) (fun t => t * peval p t)).
    + apply derivable_pt_lim_const.
    + apply (derivable_pt_lim_mult (fun t => t) (peval p)); [apply derivable_pt_lim_id|exact IH].
Qed.
Lemma pderiv_shift p q t : (forall s, peval q s = peval p (t + s)) ->
  forall s, peval (pderiv q) s = peval (pderiv p) (t + s).
Proof.
  intros H s. apply (uniqueness_limite (peval q) s); [apply pderiv_correct|].
  apply (derivable_pt_lim_ext (fun s => peval p (t + s))); [intros z; symmetry; apply H|].
  replace (peval (pderiv p) (t + s)) with (peval (pderiv p) (t + s) * (0 + 1)) by ring.
  apply (derivable_pt_lim_comp (fun s => t + s) (peval p)).
  - apply (derivable_pt_lim_plus (fun _ => t) (fun s => s)); [apply derivable_pt_lim_const|apply derivable_pt_lim_id].
  - apply pderiv_correct.
Qed.
Lemma pderivs_shift n : forall p q t, (forall s, peval q s = peval p (t + s)) ->
  forall s, peval (pderivs n q) s = peval (pderivs n p) (t + s).
Proof.
  induction n as [|n IH]; intros p q t H s; [apply H|]. cbn [pderivs]. apply IH. apply pderiv_shift. exact H.
Qed.
Lemma pderiv_from_nth p : forall k j, nth j (pderiv_from k p) 0 = (k + INR j) * nth j p 0.
Proof.
  induction p as [|c p IH]; intros k j; [destruct j; cbn; ring|].
  destruct j; cbn [pderiv_from nth].
  - cbn. ring.
  - rewrite IH, S_INR. ring.
Qed.
Lemma pderiv_nth p j : nth j (pderiv p) 0 = INR (S j) * nth (S j) p 0.
Proof.
  destruct p as [|c p]; [destruct j; cbn [pderiv nth]; ring|]. cbn [pderiv nth]. rewrite pderiv_from_nth, S_INR. ring.
Qed.
Lemma pderivs_zero n : forall p, peval (pderivs n p) 0 = INR (fact n) * nth n p 0.
Proof.
  assert (G : forall n p j, INR (fact j) * nth j (pderivs n p) 0 = INR (fact (n + j)) * nth (n + j) p 0).
  { induction n0 as [|n0 IH]; intros p j; [reflexivity|]. cbn [pderivs]. rewrite IH, pderiv_nth.
    cbn [Nat.add]. change (fact (S (n0 + j))) with (S (n0 + j) * fact (n0 + j))%nat. rewrite mult_INR. ring. }
  intros p. specialize (G n p O). cbn [fact INR] in G. rewrite Nat.add_0_r, Rmult_1_l in G. rewrite <- G.
  destruct (pderivs n p); cbn; ring.
Qed.
Lemma peval_sum p t n : (length p <= n)%nat -> peval p t = rsum n (fun k => nth k p 0 * t ^ k).
Proof.
  revert n. induction p as [|c p IH]; intros n H.
  - symmetry. apply rsum_zero. intros i _. destruct i; cbn; ring.
  - cbn [length] in H. destruct n as [|n]; [lia|]. rewrite rsum_first. cbn [peval nth pow].
    rewrite (IH n) by lia. rewrite Rmult_1_r, <- rsum_scale. f_equal. apply rsum_ext. intros i _. cbn [nth pow]. ring.
Qed.

(** The filter sum at an interior point. *)
Lemma moments_poly w po der del c p t : moments w po der del c -> (length p <= po + 1)%nat -> del <> 0 ->
  (der <= po)%nat ->
  rsum w (fun j => nth j c 0 * peval p (t + del * position w j)) = peval (pderivs der p) t.
Proof.
  intros [Lc M] Lp Hd Hder.
  rewrite (rsum_ext w _ (fun j => rsum (po + 1) (fun m => (nth m (pshift t p) 0 * del ^ m) * (position w j ^ m * nth j c 0)))).
  2:{ intros j Hj. rewrite <- pshift_eval, (peval_sum _ _ (po + 1)) by (rewrite pshift_length; exact Lp).
      rewrite <- rsum_scale. apply rsum_ext. intros m _. rewrite Rpow_mult_distr. ring. }
  rewrite rsum_swap. rewrite (rsum_single (po + 1) der).
  - rewrite rsum_scale, M by lia. rewrite Nat.eqb_refl.
    replace t with (t + 0) at 2 by ring. rewrite <- (pderivs_shift der p (pshift t p) t (pshift_eval t p)), pderivs_zero.
    field. apply pow_nonzero. exact Hd.
  - lia.
  - intros m Hm Hn. rewrite rsum_scale, M by lia. destruct (Nat.eqb_spec m der); [contradiction|]. ring.
Qed.

Lemma savgol_poly lstsq md pw w po der del p t0 n :
  solver_handles lstsq w po der del -> (0 < pw)%Z -> (w mod 2 = 1)%nat -> (po + 2 <= w)%nat -> (der <= po)%nat ->
  (Z.of_nat (fact der) <= imax (usize_t pw))%Z -> del <> 0 -> (length p <= po + 1)%nat ->
  exists out,
    savgol_filter_dyn lstsq md pw (map (fun i => peval p (t0 + INR i * del)) (seq 0 n)) w po (Some der) (Some del) = Ok out /\
    length out = n /\
    forall i, (w / 2 <= i)%nat -> (i + w / 2 < n)%nat -> nth i out 0 = peval (pderivs der p) (t0 + INR i * del).
Proof.
  intros HL Hp Hodd Hw Hder Hf Hdel Lp.
  destruct (coeffs_moments lstsq md pw w po der del HL Hp ltac:(lia) Hder Hf) as (c & Ec & M).
  destruct M as [Lc M]. eexists. split; [apply savgol_fir_gen; eassumption|].
  rewrite map_length, !seq_length, map_length, seq_length. split; [reflexivity|]. intros i Hi1 Hi2.
  rewrite nth_map_seq' by lia. set (h := (w / 2)%nat) in *.
  assert (Hwh : w = (2 * h + 1)%nat) by (unfold h; pose proof (Nat.div_mod w 2); lia).
  rewrite nsum_Rsum, Rsum_seq, rsum_rev.
  rewrite <- (moments_poly w po der del c p _ (conj Lc M) Lp Hdel Hder).
  apply rsum_ext. intros j Hj. unfold clamped. rewrite map_length, seq_length. cbn [nmul RNum nzero].
  rewrite nth_map_seq' by lia. rewrite Rmult_comm, !Nat.add_0_l. replace (w - 1 - (w - 1 - j))%nat with j by lia. f_equal. f_equal.
  replace (Nat.min (n - 1) (i + (w - 1 - j) - h)) with (i + (w - 1 - j) - h)%nat by lia.
  rewrite <- pos_position by lia. unfold pos_at. rewrite Hodd. cbn [Nat.eqb]. fold h.
  replace (i + (w - 1 - j) - h)%nat with (i + h - j)%nat by lia.
  rewrite minus_INR, plus_INR by lia. ring.
Qed.
