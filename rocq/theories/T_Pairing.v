(** Property C81: which zeros and poles zpk2sos_dyn puts together, and in which order. *)
From Coq Require Import List Arith ZArith Reals Permutation Lra Lia Bool.
From Verif Require Import Base Num Trans M_Complex M_Fourier M_Filter M_Design Cx S_Design S_Pairing P_Bessel P_Zi P_Poly P_Lp P_Sort P_Proto P_Iir P_Iir2 P_Sos T_Sos P_Pairing.
Import ListNotations.
Local Open Scope R_scope.

(** The sections of a digital filter, in order, have the poles and zeros of the filter (with
    as many at the origin as fill them up), paired by the "nearest" rule, the gain in
    the first section. *)
Theorem C81_nearest_pairing epsilon sort order f pairing analog :
  0 <= epsilon -> is_sort sort ->
  real_filter f -> separated epsilon (zk_z f) -> separated epsilon (zk_p f) ->
  analog <> Some true -> (pairing = None \/ pairing = Some Nearest) ->
  let L := Nat.max 1 ((Nat.max (length (zk_z f)) (length (zk_p f)) + 1) / 2) in
  exists s ss g gs, zpk2sos_dyn epsilon sort order f pairing analog = Ok (s :: ss) /\ length (s :: ss) = L /\
    has_roots (zk_k f) s g /\ Forall2 (has_roots 1) ss gs /\
    Permutation (flat_map poles_of (g :: gs)) (zk_p f ++ repeat C0 (2 * L - length (zk_p f))) /\
    Permutation (flat_map zeros_of (g :: gs)) (zk_z f ++ repeat C0 (2 * L - length (zk_z f))) /\
    nearest_pairing false (g :: gs).
Proof.
  intros He Hsort [Hcz Hcp] Hsz Hsp Ha Hpr L.
  assert (Ea : unwrap_or analog false = false) by (destruct analog as [[|]|]; [contradiction Ha; reflexivity|reflexivity|reflexivity]).
  assert (Ep : unwrap_or pairing (if unwrap_or analog false then Minimal else Nearest) = Nearest) by (rewrite Ea; destruct Hpr as [->| ->]; reflexivity).
  destruct f as [z p k]. cbn [zk_z zk_p zk_k] in *.
  destruct (Nat.eq_dec (Nat.max (length z) (length p)) 0) as [E0|E0].
  { assert (z = []) by (apply length_zero_iff_nil; lia). assert (p = []) by (apply length_zero_iff_nil; lia). subst z p.
    unfold zpk2sos_dyn. rewrite Ep, Ea. cbn [andb is_minimal negb zk_z zk_p length Nat.eqb zk_k].
    exists (Sos_new k 0 0 1 0 0), [], (mkRoots C0 C0 C0 C0), []. split; [reflexivity|]. split; [reflexivity|]. split.
    - split; [reflexivity|]. split; [reflexivity|]. split; [reflexivity|]. intros x. rewrite !rpoly3.
      cbn [Sos_new M_Filter.b0 M_Filter.b1 M_Filter.b2 M_Filter.a0 M_Filter.a1 M_Filter.a2 zero1 zero2 pole1 pole2]. split; cx; ring.
    - split; [constructor|]. split; [apply Permutation_refl|]. split; [apply Permutation_refl|]. split.
      + intros g [<-|[]]. cbn [zero1 zero2 pole1 pole2]. split; [left; split; reflexivity|]. split; [left; split; reflexivity|]. split; apply Rle_refl.
      + intros i j g h Hij Hi Hj. destruct j as [|[|j]]; [lia|discriminate Hj|discriminate Hj]. }
  rewrite zpk2sos_body; cbn [zk_z zk_p zk_k]; [|lia|rewrite Ea; reflexivity].
  rewrite Ep, Ea. unfold pad_zp. cbn [is_minimal negb]. rewrite !app_length, !repeat_length.
  set (M := Nat.max (length z) (length p)) in *.
  assert (Hdiv : exists q, (M + 1 = 2 * S q \/ M + 1 = 2 * S q + 1)%nat).
  { exists ((M + 1) / 2 - 1)%nat. pose proof (Nat.div_mod (M + 1) 2 ltac:(lia)). pose proof (Nat.mod_upper_bound (M + 1) 2 ltac:(lia)).
    assert (1 <= (M + 1) / 2)%nat by (apply Nat.div_le_lower_bound; lia). lia. }
  destruct Hdiv as [q Hq].
  assert (Eq2 : ((M + 1) / 2 = S q)%nat).
  { destruct Hq as [Hq|Hq]; rewrite Hq; [rewrite Nat.mul_comm; apply Nat.div_mul; lia|rewrite Nat.mul_comm, Nat.div_add_l by lia; cbn; lia]. }
  assert (EL : L = S q) by (unfold L; rewrite Eq2; lia).
  replace (Nat.max (length p + (length z - length p)) (length z + (length p + (length z - length p) - length z))) with M by lia. rewrite Eq2.
  replace (length p + (length z - length p))%nat with M by lia.
  assert (PZ : exists nz np, (if Nat.odd M then ((z ++ repeat czero (M - length z)) ++ [czero], (p ++ repeat czero (length z - length p)) ++ [czero]) else (z ++ repeat czero (M - length z), p ++ repeat czero (length z - length p)))
     = (z ++ repeat (@czero R RNum) nz, p ++ repeat (@czero R RNum) np) /\ (length z + nz = 2 * S q)%nat /\ (length p + np = 2 * S q)%nat).
  { destruct (Nat.odd M) eqn:Eo.
    - apply Nat.odd_spec in Eo. destruct Eo as [w Ew].
      exists (M - length z + 1)%nat, (length z - length p + 1)%nat. rewrite !repeat_app, !app_assoc. split; [reflexivity|]. lia.
    - assert (Ee : Nat.even M = true) by (rewrite <- Nat.negb_odd, Eo; reflexivity). apply Nat.even_spec in Ee. destruct Ee as [w Ew].
      exists (M - length z)%nat, (length z - length p)%nat. split; [reflexivity|]. lia. }
  destruct PZ as [nz [np [-> [Lz Lp]]]]. rewrite !app_length, !repeat_length, Lz, Lp, Nat.eqb_refl. cbn [rassert bind].
  destruct (body_nearest false Nearest epsilon He sort Hsort q (z ++ repeat czero nz) (p ++ repeat czero np) k) as [s [ss [g [gs [E' [Ls [Hs [F2 [P1 [P2 NP]]]]]]]]]].
  { split; cbn [zk_z zk_p]; apply conj_closed_pad; assumption. }
  { apply separated_pad, Hsz. } { apply separated_pad, Hsp. }
  { rewrite app_length, repeat_length. exact Lp. } { rewrite app_length, repeat_length. exact Lz. }
  exists s, ss, g, gs. split; [exact E'|]. split; [cbn [length]; lia|]. split; [exact Hs|]. split; [exact F2|]. rewrite EL.
  replace (2 * S q - length p)%nat with np by lia. replace (2 * S q - length z)%nat with nz by lia.
  split; [apply Permutation_sym, P1|]. split; [apply Permutation_sym, P2|]. exact NP.
Qed.
Print Assumptions C81_nearest_pairing.
(** In terms of the coefficients alone. *)
Lemma worst_last_of analog k s0 ss g0 gs i j s t x :
  has_roots k s0 g0 -> Forall2 (has_roots 1) ss gs -> nearest_pairing analog (g0 :: gs) ->
  (i <= j)%nat -> nth_error (s0 :: ss) i = Some s -> nth_error (s0 :: ss) j = Some t -> rpoly_at [a0 s; a1 s; a2 s] x = C0 ->
  exists q, rpoly_at [a0 t; a1 t; a2 t] q = C0 /\ badness analog q <= badness analog x.
Proof.
  intros H0 F2 [N1 N2] Hij Hi Hj Hx.
  assert (F : Forall2 (fun u g => exists c, has_roots c u g) (s0 :: ss) (g0 :: gs)).
  { constructor; [exists k; exact H0|]. clear - F2. induction F2; constructor; [exists 1; assumption|assumption]. }
  assert (FN : forall n u, nth_error (s0 :: ss) n = Some u -> exists g c, nth_error (g0 :: gs) n = Some g /\ has_roots c u g).
  { clear - F. revert F. generalize (s0 :: ss) as l, (g0 :: gs) as m. intros l m F. induction F as [|u g l m [c Hc] F IH]; intros n v Hn; [destruct n; discriminate Hn|].
    destruct n as [|n]; [injection Hn as <-; exists g, c; split; [reflexivity|exact Hc]|]. apply IH, Hn. }
  destruct (FN i s Hi) as [g [c [Gi [_ [_ [_ Hg]]]]]]. destruct (FN j t Hj) as [h [d [Gj [_ [_ [_ Hh]]]]]].
  exists (pole1 h). split; [rewrite (proj2 (Hh (pole1 h))); ring|].
  assert (Hin : In x (poles_of g)).
  { rewrite (proj2 (Hg x)) in Hx. destruct (Req_dec (cnorm_sqr (x - pole1 g)%C) 0) as [Z|Z].
    - left. apply cnorm_sqr_zero in Z. transitivity (x - (x - pole1 g))%C; [ring|rewrite Z; ring].
    - right. left. assert (Q : (x - pole2 g)%C = C0).
      { apply (P_CPoly.Cmul_cancel (x - pole1 g)%C); [|rewrite Hx; ring]. intros Q. apply Z. rewrite Q. unfold cnorm_sqr. cbn. ring. }
      transitivity (x - (x - pole2 g))%C; [ring|rewrite Q; ring]. }
  destruct (Nat.eq_dec i j) as [->|Nij].
  - rewrite Gi in Gj. injection Gj as <-. destruct Hin as [<-|[<-|[]]]; [apply Rle_refl|]. apply (N1 g). apply nth_error_In with j. exact Gi.
  - destruct (N2 i j g h ltac:(lia) Gi Gj) as [C1 _]. apply C1, Hin.
Qed.
(** In terms of the coefficients alone: for a section and a later one, the later one has
    a pole that is at least as close to the unit circle as any pole of the earlier one. *)
Theorem C81_worst_last epsilon sort order f pairing analog sos i j s t x :
  0 <= epsilon -> is_sort sort ->
  real_filter f -> separated epsilon (zk_z f) -> separated epsilon (zk_p f) ->
  analog <> Some true -> (pairing = None \/ pairing = Some Nearest) ->
  zpk2sos_dyn epsilon sort order f pairing analog = Ok sos ->
  (i <= j)%nat -> nth_error sos i = Some s -> nth_error sos j = Some t -> rpoly_at [a0 s; a1 s; a2 s] x = C0 ->
  exists q, rpoly_at [a0 t; a1 t; a2 t] q = C0 /\ circle_dist q <= circle_dist x.
Proof.
  intros He Hsort Hr Hsz Hsp Ha Hpr Es Hij Hi Hj Hx.
  destruct (C81_nearest_pairing epsilon sort order f pairing analog He Hsort Hr Hsz Hsp Ha Hpr) as [s0 [ss [g0 [gs [E' [_ [H0 [F2 [_ [_ [N1 N2]]]]]]]]]]].
  rewrite Es in E'. injection E' as ->.
  exact (worst_last_of false (zk_k f) s0 ss g0 gs i j s t x H0 F2 (conj N1 N2) Hij Hi Hj Hx).
Qed.
Print Assumptions C81_worst_last.
(** A filter with complex and real poles and zeros, an odd number of them. *)
Example C81_ex : let f := mkZpk [RtoC (-1); RtoC (-1); RtoC (-1)] [(1 / 2, 1 / 2); RtoC (1 / 3); cconj (1 / 2, 1 / 2)] 1 in
  real_filter f /\ separated (1 / 1000) (zk_z f) /\ separated (1 / 1000) (zk_p f).
Proof. destruct C45_C46_hyp_met as [H1 [H2 [H3 _]]]. split; [exact H1|]. split; [exact H2|exact H3]. Qed.

(** Analog filters, and minimal pairing in general, with an even number of poles and as many
    zeros: the same rule, with the distance from the imaginary axis in place of that from the unit
    circle when the filter is analog. *)
Theorem C81_minimal_pairing epsilon sort order f pairing analog n :
  0 <= epsilon -> is_sort sort ->
  real_filter f -> separated epsilon (zk_z f) -> separated epsilon (zk_p f) ->
  (pairing = Some Minimal \/ (pairing = None /\ analog = Some true)) ->
  length (zk_p f) = (2 * S n)%nat -> length (zk_z f) = (2 * S n)%nat ->
  exists s ss g gs, zpk2sos_dyn epsilon sort order f pairing analog = Ok (s :: ss) /\ length (s :: ss) = S n /\
    has_roots (zk_k f) s g /\ Forall2 (has_roots 1) ss gs /\
    Permutation (flat_map poles_of (g :: gs)) (zk_p f) /\ Permutation (flat_map zeros_of (g :: gs)) (zk_z f) /\
    nearest_pairing (match analog with Some true => true | _ => false end) (g :: gs).
Proof.
  intros He Hsort Hr Hsz Hsp Hm Lp Lz.
  rewrite (zpk2sos_minimal_body epsilon sort order f pairing analog); [|exact Hm|lia|unfold proper; lia].
  replace ((length (zk_p f) + 1) / 2)%nat with (S n) by (rewrite Lp, Nat.mul_comm, Nat.div_add_l by lia; cbn; lia).
  replace (unwrap_or analog false) with (match analog with Some true => true | _ => false end) by (destruct analog as [[|]|]; reflexivity).
  destruct f as [z p k]. cbn [zk_z zk_p zk_k] in *.
  destruct (body_nearest (match analog with Some true => true | _ => false end) Minimal epsilon He sort Hsort n z p k Hr Hsz Hsp Lp Lz) as [s [ss [g [gs [E' [Ls [Hs [F2 [P1 [P2 NP]]]]]]]]]].
  exists s, ss, g, gs. split; [exact E'|]. split; [cbn [length]; lia|]. split; [exact Hs|]. split; [exact F2|].
  split; [apply Permutation_sym, P1|]. split; [apply Permutation_sym, P2|]. exact NP.
Qed.
Print Assumptions C81_minimal_pairing.
(** The sections of an analog filter come in the order of their distance from the imaginary axis,
    the closest last. *)
Theorem C81_analog_worst_last epsilon sort order f n sos i j s t x :
  0 <= epsilon -> is_sort sort ->
  real_filter f -> separated epsilon (zk_z f) -> separated epsilon (zk_p f) ->
  length (zk_p f) = (2 * S n)%nat -> length (zk_z f) = (2 * S n)%nat ->
  zpk2sos_dyn epsilon sort order f None (Some true) = Ok sos ->
  (i <= j)%nat -> nth_error sos i = Some s -> nth_error sos j = Some t -> rpoly_at [a0 s; a1 s; a2 s] x = C0 ->
  exists q, rpoly_at [a0 t; a1 t; a2 t] q = C0 /\ Rabs (cre q) <= Rabs (cre x).
Proof.
  intros He Hsort Hr Hsz Hsp Lp Lz Es Hij Hi Hj Hx.
  destruct (C81_minimal_pairing epsilon sort order f None (Some true) n He Hsort Hr Hsz Hsp (or_intror (conj eq_refl eq_refl)) Lp Lz) as [s0 [ss [g0 [gs [E' [_ [H0 [F2 [_ [_ N]]]]]]]]]].
  rewrite Es in E'. injection E' as ->.
  exact (worst_last_of true (zk_k f) s0 ss g0 gs i j s t x H0 F2 N Hij Hi Hj Hx).
Qed.
Print Assumptions C81_analog_worst_last.
(** An analog filter of order four with all zeros at the origin. *)
Example C81_analog_ex : let f := mkZpk [RtoC 0; RtoC 0; RtoC 0; RtoC 0] [(-1, 1); cconj (-1, 1); (-2, 1); cconj (-2, 1)] 1 in
  real_filter f /\ separated (1 / 1000) (zk_z f) /\ separated (1 / 1000) (zk_p f) /\ length (zk_p f) = 4%nat /\ length (zk_z f) = 4%nat.
Proof.
  cbn [zk_z zk_p]. split; [split; cbn [zk_z zk_p]|split; [|split; [|split; reflexivity]]].
  - apply conj_closed_reals. repeat constructor; apply isr_true; reflexivity.
  - apply (conj_closed_app [(-1, 1); cconj (-1, 1)]); apply conj_closed_pair.
  - repeat constructor.
  - repeat (apply Forall_cons; [right; cbn; rewrite ?Rabs_Ropp, ?(Rabs_left (-1)), ?(Rabs_left (-2)), ?(Rabs_right 1) by lra; lra|]). constructor.
Qed.
