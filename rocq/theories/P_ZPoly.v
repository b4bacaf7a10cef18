(** Integer polynomials as coefficient lists (lowest degree first): evaluation over
    the reals, derivative, conversion to the Chebyshev basis on [0, 2], and the
    resulting bound.  Used to certify the Bessel coefficient tables. *)
From Coq Require Import List Arith ZArith Reals Lra Lia.
From Verif Require Import S_Bessel P_Bessel.
Import ListNotations.

Fixpoint zadd (a b : list Z) : list Z :=
  match a, b with
  | [], _ => b
  | _, [] => a
  | x :: a', y :: b' => (x + y)%Z :: zadd a' b'
  end.
Definition zscal (k : Z) (a : list Z) : list Z := map (Z.mul k) a.
Definition zsub (a b : list Z) : list Z := zadd a (zscal (-1) b).
Fixpoint zderiv_from (k : Z) (a : list Z) : list Z :=
  match a with [] => [] | x :: a' => (k * x)%Z :: zderiv_from (k + 1) a' end.
Definition zderiv (a : list Z) : list Z := match a with [] => [] | _ :: a' => zderiv_from 1 a' end.
Definition zabs (a : list Z) : Z := fold_right (fun x s => (Z.abs x + s)%Z) 0%Z a.

Local Open Scope R_scope.
Fixpoint zeval (a : list Z) (t : R) : R :=
  match a with [] => 0 | x :: a' => IZR x + t * zeval a' t end.

Lemma zeval_add a b t : zeval (zadd a b) t = zeval a t + zeval b t.
Proof.
  revert b. induction a as [|x a IH]; intros [|y b]; cbn [zadd zeval]; try ring.
  rewrite plus_IZR, IH. ring.
Qed.
Lemma zeval_scal k a t : zeval (zscal k a) t = IZR k * zeval a t.
Proof.
  induction a as [|x a IH]; cbn [zscal map zeval]; [ring|].
  fold (zscal k a). rewrite mult_IZR, IH. ring.
Qed.
Lemma zeval_sub a b t : zeval (zsub a b) t = zeval a t - zeval b t.
Proof. unfold zsub. rewrite zeval_add, zeval_scal. ring. Qed.
Lemma zeval_X a t : zeval (0%Z :: a) t = t * zeval a t.
Proof. cbn [zeval]. ring. Qed.

(** Derivative. *)
Lemma zderiv_from_eval k a t : zeval (zderiv_from k a) t = IZR k * zeval a t + t * zeval (zderiv a) t.
Proof.
  revert k. induction a as [|x a IH]; intros k; cbn [zderiv_from zderiv zeval]; [ring|].
  rewrite (IH (k + 1)%Z), (IH 1%Z), mult_IZR, plus_IZR. ring.
Qed.
Lemma zeval_deriv a t : derivable_pt_lim (zeval a) t (zeval (zderiv a) t).
Proof.
  induction a as [|x a IH].
  - apply derivable_pt_lim_const.
  - cbn [zderiv]. rewrite zderiv_from_eval.
    change (zeval (x :: a)) with (plus_fct (fct_cte (IZR x)) (mult_fct id (zeval a))).
    replace (1 * zeval a t + t * zeval (zderiv a) t) with (0 + (1 * zeval a t + id t * zeval (zderiv a) t)) by (unfold id; ring).
    apply derivable_pt_lim_plus; [apply derivable_pt_lim_const|].
    apply derivable_pt_lim_mult; [apply derivable_pt_lim_id|exact IH].
Qed.

(** Chebyshev basis: [cheval v u] = sum v_k T_k(u). *)
Fixpoint cheval_from (k : nat) (v : list Z) (u : R) : R :=
  match v with [] => 0 | x :: v' => IZR x * chebT k u + cheval_from (S k) v' u end.
Definition cheval := cheval_from 0.
Lemma cheval_add k a b u : cheval_from k (zadd a b) u = cheval_from k a u + cheval_from k b u.
Proof.
  revert k b. induction a as [|x a IH]; intros k [|y b]; cbn [zadd cheval_from]; try ring.
  rewrite plus_IZR, IH. ring.
Qed.
Lemma cheval_scal k c a u : cheval_from k (zscal c a) u = IZR c * cheval_from k a u.
Proof.
  revert k. induction a as [|x a IH]; intros k; cbn [zscal map cheval_from]; [ring|].
  fold (zscal c a). rewrite mult_IZR, IH. ring.
Qed.
(** Multiplication by 2u. *)
Definition mul2u (v : list Z) : list Z :=
  match v with [] => [] | x :: v' => zadd (0%Z :: x :: v') (zadd v' [0%Z; x]) end.
Lemma cheval_shift k v u :
  cheval_from (S (S k)) v u + cheval_from k v u = 2 * u * cheval_from (S k) v u.
Proof.
  revert k. induction v as [|x v IH]; intros k; cbn [cheval_from]; [ring|].
  rewrite chebT_SS. specialize (IH (S k)). lra.
Qed.
Lemma cheval_mul2u v u : cheval (mul2u v) u = 2 * u * cheval v u.
Proof.
  destruct v as [|x v]; unfold cheval; [cbn; ring|].
  unfold mul2u. rewrite !cheval_add. cbn [cheval_from]. pose proof (cheval_shift 0 v u).
  cbn [chebT] in *. lra.
Qed.
(** 2^(length a) * a(1 + u) in the Chebyshev basis, by Horner's rule. *)
Fixpoint to_cheb (a : list Z) : Z * list Z :=
  match a with
  | [] => (1%Z, [])
  | x :: a' => let '(s, v) := to_cheb a' in
               ((2 * s)%Z, zadd [(2 * s * x)%Z] (zadd (zscal 2 v) (mul2u v)))
  end.
Lemma to_cheb_ok a u :
  cheval (snd (to_cheb a)) u = IZR (fst (to_cheb a)) * zeval a (1 + u) /\ (0 < fst (to_cheb a))%Z.
Proof.
  induction a as [|x a [IH P]]; [cbn; split; [lra|lia]|].
  cbn [to_cheb]. destruct (to_cheb a) as [s v]. cbn [fst snd] in *. split; [|lia].
  unfold cheval in *. rewrite !cheval_add, cheval_scal.
  change (cheval_from 0 (mul2u v) u) with (cheval (mul2u v) u). rewrite cheval_mul2u.
  unfold cheval. rewrite IH. cbn [cheval_from zeval chebT].
  rewrite !mult_IZR. ring.
Qed.
Lemma cheval_bound k v u : -1 <= u <= 1 -> Rabs (cheval_from k v u) <= IZR (zabs v).
Proof.
  intros H. revert k. induction v as [|x v IH]; intros k; cbn [cheval_from zabs fold_right].
  - rewrite Rabs_R0. apply Rle_refl.
  - fold (zabs v). rewrite plus_IZR, abs_IZR. eapply Rle_trans; [apply Rabs_triang|].
    apply Rplus_le_compat; [|apply IH]. rewrite Rabs_mult.
    pose proof (chebT_bound k u H). pose proof (Rabs_pos (IZR x)). nra.
Qed.
(** The bound: |a(t)| <= n / d on [0, 2]. *)
Definition zbound (a : list Z) (n d : Z) : bool :=
  let '(s, v) := to_cheb a in (zabs v * d <=? n * s)%Z.
Lemma zbound_ok a n d t : (0 < d)%Z -> zbound a n d = true -> 0 <= t <= 2 ->
  Rabs (zeval a t) <= IZR n / IZR d.
Proof.
  intros Hd E Ht. unfold zbound in E. pose proof (to_cheb_ok a (t - 1)) as [E1 P].
  destruct (to_cheb a) as [s v]. cbn [fst snd] in *. apply Z.leb_le, IZR_le in E.
  rewrite !mult_IZR in E. replace (1 + (t - 1)) with t in E1 by ring.
  pose proof (cheval_bound 0 v (t - 1) ltac:(lra)) as B. unfold cheval in E1. rewrite E1 in B.
  apply IZR_lt in Hd, P. rewrite Rabs_mult, (Rabs_pos_eq (IZR s)) in B by lra.
  apply (Rmult_le_reg_r (IZR d * IZR s)); [nra|].
  replace (IZR n / IZR d * (IZR d * IZR s)) with (IZR n * IZR s) by (field; lra).
  eapply Rle_trans; [|exact E].
  replace (Rabs (zeval a t) * (IZR d * IZR s)) with (IZR s * Rabs (zeval a t) * IZR d) by ring.
  apply Rmult_le_compat_r; lra.
Qed.
