(** Facts about machine integers and the result monad. *)
From Coq Require Import List ZArith Bool Lia ZifyBool.
From Verif Require Import Base MachInt.
Import ListNotations.
Local Open Scope Z_scope.

Lemma in_range_iff t z : in_range t z = true <-> imin t <= z <= imax t.
Proof. unfold in_range. rewrite andb_true_iff, !Z.leb_le. reflexivity. Qed.

Definition wf_ity (t : ity) : Prop := 8 <= bits t <= 128.

Lemma prim_wf pw t : In pw pointer_widths -> In t (prim_types pw) -> wf_ity t.
Proof.
  intros Hp Ht. unfold pointer_widths in Hp. unfold wf_ity.
  simpl in Hp, Ht.
  repeat match goal with H : _ \/ _ |- _ => destruct H as [H|H] end;
    subst; simpl; try lia; try contradiction.
Qed.

Lemma wf_bounds t : wf_ity t ->
  imin t <= 0 /\ 127 <= imax t /\ imax t <= 2 ^ 128 - 1 /\ - 2 ^ 127 <= imin t.
Proof.
  unfold wf_ity, imin, imax. intros [H1 H2].
  assert (Ha : 2 ^ 7 <= 2 ^ (bits t - 1)) by (apply Z.pow_le_mono_r; lia).
  assert (Hb : 2 ^ (bits t - 1) <= 2 ^ 127) by (apply Z.pow_le_mono_r; lia).
  assert (Hc : 2 ^ 8 <= 2 ^ (bits t)) by (apply Z.pow_le_mono_r; lia).
  assert (Hd : 2 ^ (bits t) <= 2 ^ 128) by (apply Z.pow_le_mono_r; lia).
  change (2 ^ 7) with 128 in *. change (2 ^ 8) with 256 in *.
  assert (He : 2 ^ 127 < 2 ^ 128) by reflexivity.
  destruct (signed t); lia.
Qed.

Lemma usize_bounds pw : In pw pointer_widths ->
  imin (usize_t pw) = 0 /\ 65535 <= imax (usize_t pw).
Proof.
  unfold pointer_widths, imax, imin, usize_t; simpl. intros H.
  repeat match goal with H : _ \/ _ |- _ => destruct H as [H|H] end; subst; try lia.
Qed.

Lemma arith_ok md t z : imin t <= z <= imax t -> arith md t z = Ok z.
Proof. intros H. unfold arith. rewrite (proj2 (in_range_iff t z) H). reflexivity. Qed.

Lemma arith_panic t z : imax t < z \/ z < imin t -> arith Checked t z = Panic.
Proof.
  intros H. unfold arith. destruct (in_range t z) eqn:E; [|reflexivity].
  apply in_range_iff in E. lia.
Qed.

Lemma convert_ok t z : imin t <= z <= imax t -> convert t z = Ok z.
Proof. intros H. unfold convert. rewrite (proj2 (in_range_iff t z) H). reflexivity. Qed.

Lemma convert_panic t z : imax t < z \/ z < imin t -> convert t z = Panic.
Proof.
  intros H. unfold convert. destruct (in_range t z) eqn:E; [|reflexivity].
  apply in_range_iff in E. lia.
Qed.

Lemma idiv_ok t a b : 0 <= a <= imax t -> imin t <= 0 -> 0 < b -> idiv t a b = Ok (a / b).
Proof.
  intros Ha Hm Hb. unfold idiv. destruct (Z.eqb_spec b 0); [lia|].
  rewrite Z.quot_div_nonneg by lia.
  assert (0 <= a / b <= a).
  { split; [apply Z.div_pos; lia|]. apply Z.div_le_upper_bound; nia. }
  rewrite (proj2 (in_range_iff t _)) by lia. reflexivity.
Qed.

(** Wrapping arithmetic is arithmetic modulo 2^bits. *)
Lemma wrap_range t z : wf_ity t -> imin t <= wrap t z <= imax t.
Proof.
  intros [H1 H2]. unfold wrap, imin, imax.
  assert (E : 2 ^ bits t = 2 * 2 ^ (bits t - 1)).
  { replace (bits t) with (Z.succ (bits t - 1)) at 1 by lia. rewrite Z.pow_succ_r; lia. }
  assert (0 < 2 ^ (bits t - 1)) by (apply Z.pow_pos_nonneg; lia).
  destruct (signed t).
  - pose proof (Z.mod_pos_bound (z + 2 ^ (bits t - 1)) (2 ^ bits t)). lia.
  - pose proof (Z.mod_pos_bound z (2 ^ bits t)). lia.
Qed.

Lemma wrap_mod t z : wf_ity t -> (wrap t z) mod 2 ^ bits t = z mod 2 ^ bits t.
Proof.
  intros [H1 H2]. unfold wrap.
  assert (0 < 2 ^ (bits t)) by (apply Z.pow_pos_nonneg; lia).
  destruct (signed t).
  - rewrite Zminus_mod_idemp_l. f_equal. lia.
  - apply Z.mod_mod. lia.
Qed.

Lemma wrap_id t z : wf_ity t -> imin t <= z <= imax t -> wrap t z = z.
Proof.
  intros [H1 H2] H. unfold wrap, imin, imax in *.
  assert (E : 2 ^ bits t = 2 * 2 ^ (bits t - 1)).
  { replace (bits t) with (Z.succ (bits t - 1)) at 1 by lia. rewrite Z.pow_succ_r; lia. }
  destruct (signed t).
  - rewrite Z.mod_small by lia. lia.
  - apply Z.mod_small. lia.
Qed.

Lemma wrap_unique t a b : wf_ity t -> a mod 2 ^ bits t = b mod 2 ^ bits t -> wrap t a = wrap t b.
Proof.
  intros [H1 H2] H. unfold wrap. destruct (signed t).
  - rewrite <- (Zplus_mod_idemp_l a), H, Zplus_mod_idemp_l. reflexivity.
  - exact H.
Qed.

Lemma arith_wrapping t z : wf_ity t -> arith Wrapping t z = Ok (wrap t z).
Proof.
  intros W. unfold arith. destruct (in_range t z) eqn:E; [|reflexivity].
  apply in_range_iff in E. rewrite wrap_id by assumption. reflexivity.
Qed.

Lemma wrap_mul t a b : wf_ity t -> wrap t (wrap t a * b) = wrap t (a * b).
Proof.
  intros W. apply wrap_unique; [exact W|].
  rewrite <- Zmult_mod_idemp_l, wrap_mod, Zmult_mod_idemp_l by exact W. reflexivity.
Qed.

Lemma wrap_mul_r t a b : wf_ity t -> wrap t (a * wrap t b) = wrap t (a * b).
Proof. intros W. rewrite Z.mul_comm, wrap_mul, Z.mul_comm by exact W. reflexivity. Qed.

Lemma wrap_add t a b : wf_ity t -> wrap t (wrap t a + wrap t b) = wrap t (a + b).
Proof.
  intros W. apply wrap_unique; [exact W|].
  rewrite <- Zplus_mod_idemp_l, wrap_mod, Zplus_mod_idemp_l by exact W.
  rewrite <- Zplus_mod_idemp_r, wrap_mod, Zplus_mod_idemp_r by exact W. reflexivity.
Qed.

(** zrange *)
Lemma zrange_nil a b : b <= a -> zrange a b = [].
Proof. intros H. unfold zrange. replace (Z.to_nat (b - a)) with O by lia. reflexivity. Qed.

Lemma zrange_cons a b : a < b -> zrange a b = a :: zrange (a + 1) b.
Proof.
  intros H. unfold zrange.
  replace (Z.to_nat (b - a)) with (S (Z.to_nat (b - (a + 1)))) by lia.
  cbn [seq map]. f_equal; [lia|].
  rewrite <- seq_shift, map_map. apply map_ext. intros; lia.
Qed.

Lemma zrange_app a b c : a <= b <= c -> zrange a c = zrange a b ++ zrange b c.
Proof.
  intros H. unfold zrange.
  replace (Z.to_nat (c - a)) with (Z.to_nat (b - a) + Z.to_nat (c - b))%nat by lia.
  rewrite seq_app, map_app. f_equal.
  replace (0 + Z.to_nat (b - a))%nat with (Z.to_nat (b - a) + 0)%nat by lia.
  generalize (Z.to_nat (c - b)) as m. intros m.
  assert (E : forall s, map (fun i => a + Z.of_nat i) (seq (Z.to_nat (b - a) + s) m) =
                        map (fun i => b + Z.of_nat i) (seq s m)).
  { induction m as [|m IH]; intros s; simpl; [reflexivity|].
    f_equal; [lia|]. specialize (IH (S s)).
    rewrite <- IH. f_equal. f_equal. lia. }
  apply E.
Qed.

Lemma zrange_snoc a b : a <= b -> zrange a (b + 1) = zrange a b ++ [b].
Proof.
  intros H. rewrite (zrange_app a b (b + 1)) by lia. f_equal.
  rewrite zrange_cons by lia. rewrite zrange_nil by lia. reflexivity.
Qed.

Lemma zrange_In a b x : In x (zrange a b) <-> a <= x < b.
Proof.
  unfold zrange. rewrite in_map_iff. split.
  - intros [i [Hi Hin]]. apply in_seq in Hin. lia.
  - intros H. exists (Z.to_nat (x - a)). split; [lia|]. apply in_seq. lia.
Qed.

Lemma rfold_app {A B} (f : A -> B -> res A) l m a :
  rfold f (l ++ m) a = let! a' := rfold f l a in rfold f m a'.
Proof.
  revert a. induction l as [|b l IH]; intros a; simpl; [reflexivity|].
  destruct (f a b); simpl; auto.
Qed.

Lemma terminates_const {A} (r : res A) (run : nat -> res A) :
  r <> OutOfFuel -> (forall f, run f = r) -> terminates_with run r.
Proof. intros H1 H2. split; [exact H1|]. exists O. intros; apply H2. Qed.
