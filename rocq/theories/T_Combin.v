(** The integer functions of combinatorics.rs and factorial.rs among themselves, overflow checks on. *)
From Coq Require Import List ZArith Bool Lia.
From Verif Require Import Base MachInt M_Special S_Special P_Comb P_SpecialT T_Special.
Import ListNotations.
Local Open Scope Z_scope.

Lemma range_of t x : in_range t x = true <-> imin t <= x <= imax t.
Proof. unfold in_range. rewrite andb_true_iff, !Z.leb_le. tauto. Qed.
Lemma min_nonpos pw t : In pw pointer_widths -> In t (prim_types pw) -> imin t <= 0.
Proof. intros Hp Ht. cbn in Hp, Ht. repeat (destruct Hp as [<-|Hp]; [repeat (destruct Ht as [<-|Ht]; [vm_compute; discriminate|]); destruct Ht|]). destruct Hp. Qed.
Lemma in_range_le pw t x y : In pw pointer_widths -> In t (prim_types pw) -> 0 <= x <= y -> in_range t y = true -> in_range t x = true.
Proof. intros Hp Ht H Hy. apply range_of in Hy. apply range_of. pose proof (min_nonpos pw t Hp Ht). lia. Qed.
Lemma zfact_pos n : 1 <= zfact n.
Proof. induction n as [|n IH]; [reflexivity|]. cbn [zfact]. nia. Qed.

(** What comb returns with overflow checks is the binomial coefficient; it panics exactly when an intermediate product
    is too large. *)
Lemma comb_cases pw t n k : In pw pointer_widths -> In t (prim_types pw) -> in_range t n = true -> in_range t k = true -> 0 <= k <= n ->
  let c := bin (Z.to_nat n) (Z.to_nat k) in
  (n < imax t /\ Z.min k (n - k) * c <= imax t /\ primint_comb Checked pw t n k = Ok c) \/
  ((n = imax t \/ imax t < Z.min k (n - k) * c) /\ primint_comb Checked pw t n k = Panic).
Proof.
  intros Hp Ht Hn Hk K c. destruct (C16_comb_partial pw t n k Hp Ht Hn Hk) as [_ [A B]]. pose proof (binom_exists n k K) as E. fold c in E.
  apply range_of in Hn. destruct (Z_lt_le_dec n (imax t)) as [L|L]; [|right; split; [left; lia|apply (B c E); left; lia]].
  destruct (Z_le_gt_dec (Z.min k (n - k) * c) (imax t)) as [Q|Q]; [left; repeat split; try assumption; apply (A c E L Q)|right; split; [right; lia|apply (B c E); right; lia]].
Qed.
(** comb(n, k) and comb(n, n - k): the same result, panics included. *)
Theorem C142_symmetry pw t n k : In pw pointer_widths -> In t (prim_types pw) -> in_range t n = true -> in_range t k = true ->
  0 <= k <= n -> primint_comb Checked pw t n k = primint_comb Checked pw t n (n - k).
Proof.
  intros Hp Ht Hn Hk K. assert (Hk' : in_range t (n - k) = true) by (apply (in_range_le pw t _ n); try assumption; lia).
  assert (E : bin (Z.to_nat n) (Z.to_nat (n - k)) = bin (Z.to_nat n) (Z.to_nat k)) by (rewrite <- (bin_sym (Z.to_nat n) (Z.to_nat k)) by lia; f_equal; lia).
  pose proof (comb_cases pw t n k Hp Ht Hn Hk K) as A. pose proof (comb_cases pw t n (n - k) Hp Ht Hn Hk' ltac:(lia)) as B. cbv zeta in A, B.
  rewrite E in B. replace (n - (n - k)) with k in B by lia. rewrite (Z.min_comm (n - k) k) in B.
  destruct A as [[A1 [A2 ->]]|[A1 ->]], B as [[B1 [B2 ->]]|[B1 ->]]; try reflexivity; exfalso; lia.
Qed.
Print Assumptions C142_symmetry.
(** Pascal's rule: when comb(n + 1, k + 1) returns, so do comb(n, k) and comb(n, k + 1), and it is their sum. *)
Theorem C142_pascal pw t n k c : In pw pointer_widths -> In t (prim_types pw) -> in_range t (n + 1) = true -> in_range t (k + 1) = true ->
  0 <= k <= n -> primint_comb Checked pw t (n + 1) (k + 1) = Ok c ->
  exists a b, primint_comb Checked pw t n k = Ok a /\ primint_comb Checked pw t n (k + 1) = Ok b /\ c = a + b.
Proof.
  intros Hp Ht Hn Hk K H. pose proof (comb_cases pw t (n + 1) (k + 1) Hp Ht Hn Hk ltac:(lia)) as C. cbv zeta in C. rewrite H in C. destruct C as [[C1 [C2 C3]]|[_ C3]]; [|discriminate C3]. injection C3 as ->.
  assert (Hn' : in_range t n = true) by (apply (in_range_le pw t _ (n + 1)); try assumption; lia). assert (Hk' : in_range t k = true) by (apply (in_range_le pw t _ (k + 1)); try assumption; lia).
  replace (Z.to_nat (n + 1)) with (S (Z.to_nat n)) in * by lia. replace (Z.to_nat (k + 1)) with (S (Z.to_nat k)) in * by lia. rewrite bin_SS in *.
  pose proof (bin_nonneg (Z.to_nat n) (Z.to_nat k)) as P1. pose proof (bin_nonneg (Z.to_nat n) (S (Z.to_nat k))) as P2. replace (n + 1 - (k + 1)) with (n - k) in C2 by lia.
  assert (R : forall u v, 0 <= u <= Z.min (k + 1) (n - k) -> 0 <= v <= bin (Z.to_nat n) (Z.to_nat k) + bin (Z.to_nat n) (S (Z.to_nat k)) -> u * v <= imax t).
  { intros u v U V. eapply Z.le_trans; [|exact C2]. apply Z.mul_le_mono_nonneg; lia. }
  exists (bin (Z.to_nat n) (Z.to_nat k)), (bin (Z.to_nat n) (S (Z.to_nat k))). split; [|split; [|reflexivity]].
  - destruct (comb_cases pw t n k Hp Ht Hn' Hk' K) as [[_ [_ Q]]|[[Q|Q] _]]; [exact Q|lia|]. exfalso. specialize (R (Z.min k (n - k)) (bin (Z.to_nat n) (Z.to_nat k)) ltac:(lia) ltac:(lia)). lia.
  - destruct (Z.eq_dec k n) as [->|N].
    + rewrite (proj1 (C16_comb_partial pw t n (n + 1) Hp Ht Hn' Hk)) by lia. rewrite bin_gt by lia. reflexivity.
    + pose proof (comb_cases pw t n (k + 1) Hp Ht Hn' Hk ltac:(lia)) as D. cbv zeta in D. replace (Z.to_nat (k + 1)) with (S (Z.to_nat k)) in D by lia.
      destruct D as [[_ [_ Q]]|[[Q|Q] _]]; [exact Q|lia|]. exfalso. specialize (R (Z.min (k + 1) (n - (k + 1))) (bin (Z.to_nat n) (S (Z.to_nat k))) ltac:(lia) ltac:(lia)). lia.
Qed.
Print Assumptions C142_pascal.
(** When perm(n, k) returns, so do comb(n, k) and k.factorial(), and it is their product. *)
Theorem C142_perm_comb pw t n k p : In pw pointer_widths -> In t (prim_types pw) -> in_range t n = true -> in_range t k = true ->
  0 <= k <= n -> primint_perm Checked pw t n k = Ok p ->
  exists c f, primint_comb Checked pw t n k = Ok c /\ terminates_with (fun fuel => primint_factorial Checked pw t fuel k) (Ok f) /\ p = c * f.
Proof.
  intros Hp Ht Hn Hk K H. set (c := bin (Z.to_nat n) (Z.to_nat k)). set (f := zfact (Z.to_nat k)).
  pose proof (bin_fact (Z.to_nat n) (Z.to_nat k) ltac:(lia)) as BF. fold c f in BF. replace (Z.to_nat n - Z.to_nat k)%nat with (Z.to_nat (n - k)) in BF by lia.
  assert (IP : is_perm n k (c * f)) by (split; [exact K|rewrite <- BF; ring]).
  pose proof (bin_pos (Z.to_nat n) (Z.to_nat k) ltac:(lia)) as C1. fold c in C1. pose proof (zfact_pos (Z.to_nat k)) as F1. fold f in F1.
  assert (KF : k <= f). { unfold f. rewrite <- (Z2Nat.id k) at 1 by lia. generalize (Z.to_nat k). intros [|m]; [cbn; lia|]. cbn [zfact]. pose proof (zfact_pos m). nia. }
  destruct (C18_perm_partial pw t n k Hp Ht Hn Hk) as [_ [A B]].
  destruct (Z_le_gt_dec (c * f) (imax t)) as [Q|Q]; [|rewrite (B _ IP) in H by lia; discriminate H].
  destruct (Z_lt_le_dec n (imax t)) as [L|L]; [|apply range_of in Hn; rewrite (B _ IP) in H by lia; discriminate H].
  destruct (Z_lt_le_dec n (imax (usize_t pw))) as [L'|L']; [|rewrite (B _ IP) in H by lia; discriminate H].
  rewrite (A _ IP Q L L') in H. injection H as <-. exists c, f. split; [|split; [|reflexivity]].
  - destruct (comb_cases pw t n k Hp Ht Hn Hk K) as [[_ [_ E]]|[[E|E] _]]; [exact E|lia|]. exfalso. fold c in E. assert (Z.min k (n - k) * c <= f * c) by (apply Z.mul_le_mono_nonneg_r; lia). lia.
  - apply (proj1 (proj2 (C13_factorial pw t k Hp Ht Hk))); [lia|]. fold f. nia.
Qed.
Print Assumptions C142_perm_comb.
(** comb_rep(n, k) and comb(n + k - 1, k): the same result, panics included. *)
Theorem C142_comb_rep pw t n k : In pw pointer_widths -> In t (prim_types pw) -> in_range t n = true -> in_range t k = true ->
  in_range t (n + k - 1) = true -> 1 <= n -> 0 <= k -> primint_comb_rep Checked pw t n k = primint_comb Checked pw t (n + k - 1) k.
Proof.
  intros Hp Ht Hn Hk Hs N K. set (c := bin (Z.to_nat (n + k - 1)) (Z.to_nat k)). destruct (binom_exists (n + k - 1) k ltac:(lia)) as [_ E]. fold c in E.
  replace (n + k - 1 - k) with (n - 1) in E by lia. assert (M : is_multichoose n k c) by (split; [exact N|split; [exact K|exact E]]).
  destruct (C17_comb_rep_partial pw t n k Hp Ht Hn Hk) as [_ [_ [A B]]]. apply range_of in Hs as Hs'.
  pose proof (comb_cases pw t (n + k - 1) k Hp Ht Hs Hk ltac:(lia)) as C. cbv zeta in C. change (bin (Z.to_nat (n + k - 1)) (Z.to_nat k)) with c in C. replace (n + k - 1 - k) with (n - 1) in C by lia.
  destruct C as [[C1 [C2 ->]]|[C1 ->]].
  - apply (A c M); lia.
  - apply (B c M). lia.
Qed.
Print Assumptions C142_comb_rep.
Lemma terminates_same {A} (run : nat -> res A) r r' : terminates_with run r -> terminates_with run r' -> r = r'.
Proof. intros [_ [f H]] [_ [f' H']]. rewrite <- (H (Nat.max f f')), <- (H' (Nat.max f f')) by lia. reflexivity. Qed.
(** When stirling2(n + 1, k + 1) returns, so do stirling2(n, k) and stirling2(n, k + 1): the new element is a block of
    its own or joins one of k + 1 blocks. *)
Theorem C142_stirling pw t n k c : In pw pointer_widths -> In t (prim_types pw) -> in_range t (n + 1) = true -> in_range t (k + 1) = true ->
  0 <= k <= n -> terminates_with (fun fuel => primint_stirling2 Checked t fuel (n + 1) (k + 1)) (Ok c) ->
  exists a b, terminates_with (fun fuel => primint_stirling2 Checked t fuel n k) (Ok a) /\
    terminates_with (fun fuel => primint_stirling2 Checked t fuel n (k + 1)) (Ok b) /\ c = a + (k + 1) * b.
Proof.
  intros Hp Ht Hn Hk K H.
  assert (Hn' : in_range t n = true) by (apply (in_range_le pw t _ (n + 1)); try assumption; lia). assert (Hk' : in_range t k = true) by (apply (in_range_le pw t _ (k + 1)); try assumption; lia).
  destruct (C19_stirling2 pw t (n + 1) (k + 1) Hp Ht Hn Hk) as [_ [A [B _]]]. pose proof (stirling2_exists (n + 1) (k + 1) ltac:(lia) ltac:(lia)) as E.
  set (d := st2 (Z.to_nat (n + 1)) (Z.to_nat (k + 1))) in *.
  assert (D : d = (k + 1) * st2 (Z.to_nat n) (Z.to_nat (k + 1)) + st2 (Z.to_nat n) (Z.to_nat k)).
  { unfold d. replace (Z.to_nat (n + 1)) with (S (Z.to_nat n)) by lia. replace (Z.to_nat (k + 1)) with (S (Z.to_nat k)) by lia. cbn [st2]. replace (Z.of_nat (S (Z.to_nat k))) with (k + 1) by lia. reflexivity. }
  assert (Q : d <= imax t /\ c = d).
  { destruct (Z_le_gt_dec d (imax t)) as [Q|Q]; [|pose proof (terminates_same _ _ _ H (B d E ltac:(lia))); discriminate].
    pose proof (terminates_same _ _ _ H (A d E Q Checked)) as W. injection W as ->. split; [exact Q|reflexivity]. }
  destruct Q as [Q ->]. pose proof (st2_nonneg (Z.to_nat n) (Z.to_nat k)). pose proof (st2_nonneg (Z.to_nat n) (Z.to_nat (k + 1))).
  exists (st2 (Z.to_nat n) (Z.to_nat k)), (st2 (Z.to_nat n) (Z.to_nat (k + 1))). split; [|split; [|rewrite D; ring]].
  - apply (proj1 (proj2 (C19_stirling2 pw t n k Hp Ht Hn' Hk'))); [apply stirling2_exists; lia|nia].
  - apply (proj1 (proj2 (C19_stirling2 pw t n (k + 1) Hp Ht Hn' Hk))); [apply stirling2_exists; lia|nia].
Qed.
Print Assumptions C142_stirling.
(** i8: comb(8, 2) = comb(7, 1) + comb(7, 2); comb(9, 4) panics, as does comb(9, 5); perm(6, 3) = comb(6, 3) 3!. *)
Example C142_ex : In 64 pointer_widths /\ In i8 (prim_types 64) /\ in_range i8 8 = true /\
  primint_comb Checked 64 i8 8 2 = Ok 28 /\ primint_comb Checked 64 i8 8 6 = Ok 28 /\ primint_comb Checked 64 i8 7 1 = Ok 7 /\ primint_comb Checked 64 i8 7 2 = Ok 21 /\
  primint_comb Checked 64 i8 9 4 = Panic /\ primint_comb Checked 64 i8 9 5 = Panic /\
  primint_perm Checked 64 i8 6 3 = Ok 120 /\ primint_comb Checked 64 i8 6 3 = Ok 20 /\
  primint_comb_rep Checked 64 i8 4 3 = Ok 20 /\ primint_stirling2 Checked i8 20 6 3 = Ok 90 /\ primint_stirling2 Checked i8 20 5 2 = Ok 15 /\ primint_stirling2 Checked i8 20 5 3 = Ok 25.
Proof. repeat split; try (vm_compute; tauto). Qed.
