(** The complex square root in polar form, and its algebraic form over the reals. *)
From Coq Require Import Reals Ratan Lra Bool.
From Verif Require Import Base Num Trans M_Complex.
Local Open Scope R_scope.

Lemma hypot_pos (x y : R) : x <> 0 \/ y <> 0 -> 0 < sqrt (x * x + y * y).
Proof. intros H. apply sqrt_lt_R0. destruct H; nra. Qed.
Lemma cos_atan_quot (x y : R) : 0 < x -> sqrt (x * x + y * y) * cos (atan (y / x)) = x.
Proof.
  intros Hx. rewrite cos_atan. replace (x * x + y * y) with (Rsqr x * (1 + (y / x)²)) by (unfold Rsqr; field; lra).
  rewrite sqrt_mult, sqrt_Rsqr; [|lra|apply Rle_0_sqr|pose proof (Rle_0_sqr (y / x)); lra].
  assert (0 < sqrt (1 + (y / x)²)) by (apply sqrt_lt_R0; pose proof (Rle_0_sqr (y / x)); lra). field. lra.
Qed.
Lemma sin_atan_quot (x y : R) : 0 < x -> sqrt (x * x + y * y) * sin (atan (y / x)) = y.
Proof.
  intros Hx. rewrite sin_atan. replace (x * x + y * y) with (Rsqr x * (1 + (y / x)²)) by (unfold Rsqr; field; lra).
  rewrite sqrt_mult, sqrt_Rsqr; [|lra|apply Rle_0_sqr|pose proof (Rle_0_sqr (y / x)); lra].
  assert (0 < sqrt (1 + (y / x)²)) by (apply sqrt_lt_R0; pose proof (Rle_0_sqr (y / x)); lra). field. lra.
Qed.
(** The polar coordinates of a point. *)
Lemma atan2_polar (x y : R) : x <> 0 \/ y <> 0 -> let r := sqrt (x * x + y * y) in
  r * cos (Ratan2 y x) = x /\ r * sin (Ratan2 y x) = y /\ - PI < Ratan2 y x <= PI /\ (0 <= y -> 0 <= Ratan2 y x) /\ (y < 0 -> Ratan2 y x < 0).
Proof.
  intros Hn r. pose proof PI_RGT_0 as HP. unfold Ratan2. destruct (Rlt_dec 0 x) as [Px|Nx].
  - pose proof (atan_bound (y / x)) as [B1 B2]. split; [apply cos_atan_quot; exact Px|]. split; [apply sin_atan_quot; exact Px|]. split; [lra|].
    split; intros Hy.
    + destruct (Req_dec y 0) as [->|Ny]; [unfold Rdiv; rewrite Rmult_0_l, atan_0; lra|].
      left. rewrite <- atan_0. apply atan_increasing. apply Rdiv_lt_0_compat; lra.
    + rewrite <- atan_0. apply atan_increasing. apply (Rmult_lt_reg_r x); [exact Px|]. unfold Rdiv. rewrite Rmult_assoc, Rinv_l by lra. lra.
  - destruct (Rlt_dec x 0) as [Mx|Zx].
    + assert (P' : 0 < - x) by lra. pose proof (atan_bound (y / x)) as [B1 B2].
      pose proof (cos_atan_quot (- x) (- y) P') as C. pose proof (sin_atan_quot (- x) (- y) P') as S.
      replace (- x * - x + - y * - y) with (x * x + y * y) in C, S by ring. replace (- y / - x) with (y / x) in C, S by (field; lra). fold r in C, S.
      destruct (Rle_dec 0 y) as [Hy|Hy].
      * rewrite neg_cos, neg_sin. split; [lra|]. split; [lra|].
        assert (atan (y / x) <= 0).
        { destruct (Req_dec y 0) as [->|Ny]; [unfold Rdiv; rewrite Rmult_0_l, atan_0; lra|]. left. rewrite <- atan_0. apply atan_increasing.
          apply (Rmult_lt_reg_r (- x)); [lra|]. replace (y / x * - x) with (- y) by (field; lra). lra. }
        split; [lra|]. split; intros; lra.
      * rewrite cos_minus, sin_minus, cos_PI, sin_PI. split; [lra|]. split; [lra|].
        assert (0 < atan (y / x)).
        { rewrite <- atan_0. apply atan_increasing. apply (Rmult_lt_reg_r (- x)); [lra|]. replace (y / x * - x) with (- y) by (field; lra). lra. }
        split; [lra|]. split; intros; lra.
    + assert (x = 0) by lra. subst x. destruct Hn as [Hn|Hn]; [lra|].
      assert (Er : r = Rabs y) by (unfold r; replace (0 * 0 + y * y) with (Rsqr y) by (unfold Rsqr; ring); apply sqrt_Rsqr_abs).
      rewrite Er. destruct (Rlt_dec 0 y) as [Py|Ny].
      * rewrite cos_PI2, sin_PI2, Rabs_right by lra. split; [lra|]. split; [lra|]. split; [lra|]. split; intros; lra.
      * destruct (Rlt_dec y 0) as [My|My]; [|lra]. rewrite cos_neg, sin_neg, cos_PI2, sin_PI2, Rabs_left by lra. split; [lra|]. split; [lra|]. split; [lra|]. split; intros; lra.
Qed.

Lemma sqrt_half_sum (r x c : R) : 0 <= r -> 0 <= c -> 2 * (r * (c * c)) = r + x -> sqrt r * c = sqrt ((r + x) / (1 + 1)).
Proof.
  intros Hr Hc E. replace ((r + x) / (1 + 1)) with (r * Rsqr c) by (unfold Rsqr; lra). rewrite sqrt_mult, sqrt_Rsqr; [reflexivity|exact Hc|exact Hr|apply Rle_0_sqr].
Qed.

(** The principal root is ((r + x) / 2)^(1/2) + i sign(y) ((r - x) / 2)^(1/2). *)
Lemma csqrt_alg (z : cplx R) : csqrt z =
  (sqrt ((cnorm z + cre z) / (1 + 1)), if Rltb (cim z) 0 then - sqrt ((cnorm z - cre z) / (1 + 1)) else sqrt ((cnorm z - cre z) / (1 + 1))).
Proof.
  destruct z as [x y]. unfold csqrt, cnorm, cnorm_sqr. cbn [cre cim fst snd nsqrt nadd nsub ndiv none nltb nneg nabs nzero neqb RNum nmul thypot tatan2 tcos tsin tsignpos RTrans].
  set (r := sqrt (x * x + y * y)). assert (Hr : r * r = x * x + y * y) by (apply sqrt_sqrt; nra). assert (R0 : 0 <= r) by apply sqrt_pos.
  unfold Reqb, Rleb, Rltb. destruct (Req_EM_T y 0) as [->|Ny].
  - assert (Er : r = Rabs x) by (unfold r; replace (x * x + 0 * 0) with (Rsqr x) by (unfold Rsqr; ring); apply sqrt_Rsqr_abs).
    destruct (Rlt_dec 0 0); [lra|]. destruct (Rle_dec 0 x) as [Px|Px].
    + rewrite Er, Rabs_right by lra. replace ((x + x) / (1 + 1)) with x by field. replace ((x - x) / (1 + 1)) with 0 by field. rewrite sqrt_0. reflexivity.
    + rewrite Er, Rabs_left by lra. destruct (Rle_dec 0 0); [|lra]. replace ((- x + x) / (1 + 1)) with 0 by field. replace ((- x - x) / (1 + 1)) with (- x) by field. rewrite sqrt_0. reflexivity.
  - destruct (Req_EM_T x 0) as [->|Nx].
    + assert (Er : r = Rabs y) by (unfold r; replace (0 * 0 + y * y) with (Rsqr y) by (unfold Rsqr; ring); apply sqrt_Rsqr_abs).
      rewrite Er, Rplus_0_r, Rminus_0_r. destruct (Rle_dec 0 y), (Rlt_dec y 0); try lra; reflexivity.
    + destruct (atan2_polar x y (or_introl Nx)) as [C [S [B [P M]]]]. fold r in C, S. set (t := Ratan2 y x) in *.
      assert (C0 : 0 <= cos (t / (1 + 1))) by (apply cos_ge_0; lra).
      assert (Ec : 2 * (r * (cos (t / (1 + 1)) * cos (t / (1 + 1)))) = r + x).
      { rewrite <- C. replace (cos t) with (2 * cos (t / (1 + 1)) * cos (t / (1 + 1)) - 1); [ring|]. rewrite <- cos_2a_cos. f_equal. field. }
      assert (Es : 2 * (r * (sin (t / (1 + 1)) * sin (t / (1 + 1)))) = r - x).
      { rewrite <- C. replace (cos t) with (1 - 2 * sin (t / (1 + 1)) * sin (t / (1 + 1))); [ring|]. rewrite <- cos_2a_sin. f_equal. field. }
      f_equal; [apply sqrt_half_sum; assumption|]. destruct (Rlt_dec y 0) as [My|My].
      * specialize (M My). assert (S0 : 0 <= - sin (t / (1 + 1))) by (rewrite <- sin_neg; apply sin_ge_0; lra).
        unfold Rminus. rewrite <- (sqrt_half_sum r (- x) (- sin (t / (1 + 1))) R0 S0) by lra. ring.
      * specialize (P ltac:(lra)). assert (S0 : 0 <= sin (t / (1 + 1))) by (apply sin_ge_0; lra).
        unfold Rminus. rewrite <- (sqrt_half_sum r (- x) (sin (t / (1 + 1))) R0 S0) by lra. reflexivity.
Qed.
