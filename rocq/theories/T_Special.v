(** Property theorems C13-C19 (special/factorial.rs, special/combinatorics.rs).
    [pw] is the target's pointer width, [t] one of the twelve primitive integer
    types, [Checked]/[Wrapping] the debug/release overflow behaviour. *)
From Coq Require Import List ZArith Bool.
From Verif Require Import Base MachInt M_Special S_Special P_Comb P_SpecialT.
Import ListNotations.
Local Open Scope Z_scope.

(** C13: n.factorial() *)
Theorem C13_factorial : forall pw t n,
  In pw pointer_widths -> In t (prim_types pw) -> in_range t n = true ->
  (n < 0 -> forall md, terminates_with (fun f => primint_factorial md pw t f n) (Ok 0)) /\
  (0 <= n -> zfact (Z.to_nat n) <= imax t -> forall md,
     terminates_with (fun f => primint_factorial md pw t f n) (Ok (zfact (Z.to_nat n)))) /\
  (0 <= n -> imax t < zfact (Z.to_nat n) ->
     terminates_with (fun f => primint_factorial Checked pw t f n) Panic).
Proof. exact C13_lemma. Qed.
Print Assumptions C13_factorial.

(** C13, release builds: types of at least 64 bits compute n! modulo 2^bits. *)
Theorem C13_factorial_wrapping : forall pw t n,
  In pw pointer_widths -> In t (prim_types pw) -> 64 <= bits t ->
  0 <= n <= imax t -> n < imax (usize_t pw) ->
  terminates_with (fun f => primint_factorial Wrapping pw t f n) (Ok (wrap t (zfact (Z.to_nat n)))).
Proof. exact C13_wrapping_lemma. Qed.
Print Assumptions C13_factorial_wrapping.

Example C13_example :
  In 64 pointer_widths /\ In u64 (prim_types 64) /\ in_range u64 20 = true /\
  zfact (Z.to_nat 20) <= imax u64 /\ imax u64 < zfact (Z.to_nat 21) /\
  primint_factorial Checked 64 u64 0 20 = Ok 2432902008176640000 /\
  primint_factorial Checked 64 u64 0 21 = Panic /\
  primint_factorial Wrapping 64 u64 0 21 = Ok 14197454024290336768.
Proof. vm_compute. repeat split; auto 10; discriminate. Qed.

(** C14: n.factorial2() *)
Theorem C14_factorial2 : forall pw t n,
  In pw pointer_widths -> In t (prim_types pw) -> in_range t n = true ->
  (n < 0 -> forall md, terminates_with (fun f => primint_factorial2 md pw t f n) (Ok 0)) /\
  (0 <= n -> kfact n 2 <= imax t -> forall md,
     terminates_with (fun f => primint_factorial2 md pw t f n) (Ok (kfact n 2))) /\
  (0 <= n -> imax t < kfact n 2 ->
     terminates_with (fun f => primint_factorial2 Checked pw t f n) Panic).
Proof. exact C14_lemma. Qed.
Print Assumptions C14_factorial2.

Example C14_example :
  In 64 pointer_widths /\ In u128 (prim_types 64) /\ in_range u128 41 = true /\
  kfact 41 2 <= imax u128 /\
  primint_factorial2 Checked 64 u128 10 41 = Ok (3*5*7*9*11*13*15*17*19*21*23*25*27*29*31*33*35*37*39*41)
  /\ primint_factorial2 Checked 64 i32 10 20 = Panic.
Proof. vm_compute. repeat split; auto 15; discriminate. Qed.

(** C15: n.factorialk(k).  Holds except when n + k leaves the type (k > 1). *)
Theorem C15_factorialk_partial : forall pw t n k,
  In pw pointer_widths -> In t (prim_types pw) -> in_range t n = true -> in_range t k = true ->
  (k <= 0 -> forall md, terminates_with (fun f => primint_factorialk md pw t f n k) Panic) /\
  (0 < k -> n < 0 -> forall md, terminates_with (fun f => primint_factorialk md pw t f n k) (Ok 0)) /\
  (0 < k -> 0 <= n -> kfact n k <= imax t -> n = 0 \/ k = 1 \/ n + k <= imax t -> forall md,
     terminates_with (fun f => primint_factorialk md pw t f n k) (Ok (kfact n k))) /\
  (0 < k -> 0 <= n -> imax t < kfact n k \/ (0 < n /\ k <> 1 /\ imax t < n + k) ->
     terminates_with (fun f => primint_factorialk Checked pw t f n k) Panic).
Proof. exact C15_lemma. Qed.
Print Assumptions C15_factorialk_partial.

(** C15: the k-factorial fits, but debug builds panic and release builds return
    something else. *)
Theorem C15_factorialk_refuted :
  exists (pw : Z) (t : ity) (n k : Z),
    In pw pointer_widths /\ In t (prim_types pw) /\ in_range t n = true /\ in_range t k = true /\
    0 < k /\ 0 <= n /\ in_range t (kfact n k) = true /\
    terminates_with (fun f => primint_factorialk Checked pw t f n k) Panic /\
    (exists v, v <> kfact n k /\
       terminates_with (fun f => primint_factorialk Wrapping pw t f n k) (Ok v)).
Proof. exact C15_refuted_lemma. Qed.
Print Assumptions C15_factorialk_refuted.

(** C15: in release builds MAX.factorialk(k), k >= 2, never returns. *)
Theorem C15_factorialk_release_diverges : forall pw t k,
  In pw pointer_widths -> In t (prim_types pw) -> 2 <= k <= imax t ->
  diverges (fun f => primint_factorialk Wrapping pw t f (imax t) k).
Proof. exact C15_diverges_lemma. Qed.
Print Assumptions C15_factorialk_release_diverges.

(** C15: k = 1 is the factorial (k = 2 is C14's specification by definition). *)
Theorem C15_k1_is_factorial : forall n, 0 <= n -> kfact n 1 = zfact (Z.to_nat n).
Proof. exact C15_agree_lemma. Qed.
Print Assumptions C15_k1_is_factorial.

Example C15_example :
  In i32 (prim_types 64) /\ in_range i32 10 = true /\ in_range i32 4 = true /\
  kfact 10 4 <= imax i32 /\ 10 + 4 <= imax i32 /\ kfact 10 4 = 10 * 6 * 2 /\
  primint_factorialk Checked 64 i32 10 10 4 = Ok 120.
Proof. vm_compute. repeat split; auto 10; discriminate. Qed.

(** C16: n.comb(k).  Exactly: correct iff n < MAX and min(k,n-k)*C(n,k) fits. *)
Theorem C16_comb_partial : forall pw t n k,
  In pw pointer_widths -> In t (prim_types pw) -> in_range t n = true -> in_range t k = true ->
  (n < 0 \/ k < 0 \/ n < k -> forall md, primint_comb md pw t n k = Ok 0) /\
  (forall c, is_binom n k c -> n < imax t -> Z.min k (n - k) * c <= imax t -> forall md,
     primint_comb md pw t n k = Ok c) /\
  (forall c, is_binom n k c -> n = imax t \/ imax t < Z.min k (n - k) * c ->
     primint_comb Checked pw t n k = Panic).
Proof. exact C16_lemma. Qed.
Print Assumptions C16_comb_partial.

(** C16: C(10,5) = 252 fits in u8, but u8 comb(10,5) panics (debug) or is wrong (release). *)
Theorem C16_comb_refuted :
  exists (pw : Z) (t : ity) (n k c : Z),
    In pw pointer_widths /\ In t (prim_types pw) /\ in_range t n = true /\ in_range t k = true /\
    is_binom n k c /\ in_range t c = true /\
    primint_comb Checked pw t n k = Panic /\ primint_comb Wrapping pw t n k <> Ok c.
Proof. exact C16_refuted_lemma. Qed.
Print Assumptions C16_comb_refuted.

Example C16_example : is_binom 20 7 77520 /\ 20 < imax i32 /\ Z.min 7 (20 - 7) * 77520 <= imax i32
  /\ primint_comb Checked 64 i32 20 7 = Ok 77520.
Proof. vm_compute. repeat split; discriminate. Qed.

(** C17: n.comb_rep(k). *)
Theorem C17_comb_rep_partial : forall pw t n k,
  In pw pointer_widths -> In t (prim_types pw) -> in_range t n = true -> in_range t k = true ->
  (n <= 0 \/ k < 0 -> imin t < n + k \/ n + k = 0 -> forall md, primint_comb_rep md pw t n k = Ok 0) /\
  (n <= 0 \/ k < 0 -> n + k <= imin t -> n + k <> 0 -> primint_comb_rep Checked pw t n k = Panic) /\
  (forall c, is_multichoose n k c -> n + k <= imax t -> Z.min k (n - 1) * c <= imax t -> forall md,
     primint_comb_rep md pw t n k = Ok c) /\
  (forall c, is_multichoose n k c -> imax t < n + k \/ imax t < Z.min k (n - 1) * c ->
     primint_comb_rep Checked pw t n k = Panic).
Proof. exact C17_lemma. Qed.
Print Assumptions C17_comb_rep_partial.

(** C17: the documented "0 when n < k" is false. *)
Theorem C17_comb_rep_doc_refuted :
  exists (pw : Z) (t : ity) (n k : Z),
    In pw pointer_widths /\ In t (prim_types pw) /\ in_range t n = true /\ in_range t k = true /\
    n < k /\ forall md, primint_comb_rep md pw t n k = Ok 4.
Proof. exact C17_refuted_lemma. Qed.
Print Assumptions C17_comb_rep_doc_refuted.

(** C17: a representable value that is not returned. *)
Theorem C17_comb_rep_refuted :
  exists (pw : Z) (t : ity) (n k c : Z),
    In pw pointer_widths /\ In t (prim_types pw) /\ in_range t n = true /\ in_range t k = true /\
    is_multichoose n k c /\ in_range t c = true /\ primint_comb_rep Checked pw t n k = Panic.
Proof. exact C17_refuted2_lemma. Qed.
Print Assumptions C17_comb_rep_refuted.

(** C17: 0 is representable but the call with a negative argument does not return it. *)
Theorem C17_comb_rep_negative_refuted :
  exists (pw : Z) (t : ity) (n k : Z),
    In pw pointer_widths /\ In t (prim_types pw) /\ in_range t n = true /\ in_range t k = true /\
    n < 0 /\ primint_comb_rep Checked pw t n k = Panic /\ primint_comb_rep Wrapping pw t n k <> Ok 0.
Proof.
  exists 64, i8, (-128), 0. repeat split; try (simpl; auto 10; fail); try lia; vm_compute; discriminate.
Qed.
Print Assumptions C17_comb_rep_negative_refuted.

Example C17_example : is_multichoose 10 3 220 /\ Z.min 3 (10 - 1) * 220 <= imax i32 /\
  primint_comb_rep Checked 64 i32 10 3 = Ok 220.
Proof. vm_compute. repeat split; discriminate. Qed.

(** C18: n.perm(k). *)
Theorem C18_perm_partial : forall pw t n k,
  In pw pointer_widths -> In t (prim_types pw) -> in_range t n = true -> in_range t k = true ->
  (n < 0 \/ k < 0 \/ n < k -> forall md, primint_perm md pw t n k = Ok 0) /\
  (forall c, is_perm n k c -> c <= imax t -> n < imax t -> n < imax (usize_t pw) -> forall md,
     primint_perm md pw t n k = Ok c) /\
  (forall c, is_perm n k c -> imax t < c \/ n = imax t \/ imax (usize_t pw) <= n ->
     primint_perm Checked pw t n k = Panic).
Proof. exact C18_lemma. Qed.
Print Assumptions C18_perm_partial.

(** C18: a representable value that is not returned (127_i8.perm(1)). *)
Theorem C18_perm_refuted :
  exists (pw : Z) (t : ity) (n k c : Z),
    In pw pointer_widths /\ In t (prim_types pw) /\ in_range t n = true /\ in_range t k = true /\
    is_perm n k c /\ in_range t c = true /\ primint_perm Checked pw t n k = Panic.
Proof. exact C18_refuted_lemma. Qed.
Print Assumptions C18_perm_refuted.

Example C18_example : is_perm 6 3 120 /\ 120 <= imax u8 /\ 6 < imax (usize_t 64) /\
  primint_perm Checked 64 u8 6 3 = Ok 120.
Proof. vm_compute. repeat split; discriminate. Qed.

(** C19: n.stirling2(k). *)
Theorem C19_stirling2 : forall pw t n k,
  In pw pointer_widths -> In t (prim_types pw) -> in_range t n = true -> in_range t k = true ->
  (n < 0 \/ k < 0 \/ n < k -> forall md,
     terminates_with (fun f => primint_stirling2 md t f n k) (Ok 0)) /\
  (forall c, is_stirling2 n k c -> c <= imax t -> forall md,
     terminates_with (fun f => primint_stirling2 md t f n k) (Ok c)) /\
  (forall c, is_stirling2 n k c -> imax t < c ->
     terminates_with (fun f => primint_stirling2 Checked t f n k) Panic) /\
  (forall c, is_stirling2 n k c ->
     terminates_with (fun f => primint_stirling2 Wrapping t f n k) (Ok (wrap t c))).
Proof. exact C19_lemma. Qed.
Print Assumptions C19_stirling2.

(** C19: the specification (k! surjections per partition) also satisfies the
    falling-factorial identity x^n = sum_k S(n,k) x(x-1)...(x-k+1). *)
Theorem C19_falling_powers : forall n x (S2 : nat -> Z), 0 <= n ->
  (forall k, is_stirling2 n (Z.of_nat k) (S2 k)) ->
  zsum (map (fun k => S2 k * falling x k) (seq 0 (S (Z.to_nat n)))) = x ^ n.
Proof. exact C19_falling_lemma. Qed.
Print Assumptions C19_falling_powers.

Example C19_example : is_stirling2 5 3 25 /\ 25 <= imax i8 /\
  primint_stirling2 Checked i8 10 5 3 = Ok 25.
Proof. vm_compute. repeat split; discriminate. Qed.
