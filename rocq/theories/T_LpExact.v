(** C49, C51: exactly when the high-pass and band-stop transforms are right.  They make the
    substitution they document for prototypes without zeros, and for no other: a prototype
    with a zero is transformed into a filter with a different transfer function. *)
From Coq Require Import List Arith ZArith Reals Permutation Lra Lia.
From Verif Require Import Base Num Trans M_Complex M_Filter M_Design RSum Cx S_Design P_Poly P_Lp P_LpExact.
Import ListNotations.
Local Open Scope R_scope.

Theorem C49_lp2hp_exactly (f : @ZpkFormatFilter R) wo :
  real_filter f -> proper f -> ~ In C0 (zk_z f) -> ~ In C0 (zk_p f) -> zk_k f <> 0 -> wo <> 0 ->
  exists f', lp2hp_zpk_dyn f (Some wo) = Ok f' /\
    ((forall s, s <> C0 -> ~ In (RtoC wo / s)%C (zk_p f) -> H f' s = H f (RtoC wo / s)%C) <-> zk_z f = []).
Proof.
  intros Rf Pr Hz Hp Hk Hw. destruct (lp2hp_zpk_dyn f (Some wo)) as [f'| | |] eqn:E; try (exfalso; unfold lp2hp_zpk_dyn in E; rewrite relative_degree_le in E by exact Pr; discriminate E).
  exists f'. split; [reflexivity|]. split.
  - intros HH. destruct (zk_z f) as [|r l] eqn:Ez; [reflexivity|]. exfalso. rewrite <- Ez in Hz. apply (hp_wrong f f' wo Hz Hp Hw Hk Pr E ltac:(congruence)). exact HH.
  - intros Z0 s Hs Hn. exact (lp2hp_H f wo f' s E Z0 Hp (proj2 Rf) Hs Hn).
Qed.
Print Assumptions C49_lp2hp_exactly.

Theorem C51_lp2bs_exactly (f : @ZpkFormatFilter R) wo bw :
  real_filter f -> proper f -> ~ In C0 (zk_z f) -> ~ In C0 (zk_p f) -> zk_k f <> 0 -> wo <> 0 -> bw <> 0 ->
  exists f', lp2bs_zpk_dyn f (Some wo) (Some bw) = Ok f' /\
    ((forall s, (s * s + RtoC (wo * wo)%R)%C <> C0 -> ~ In (s * RtoC bw / (s * s + RtoC (wo * wo)%R))%C (zk_p f) ->
        H f' s = H f (s * RtoC bw / (s * s + RtoC (wo * wo)%R))%C) <-> zk_z f = []).
Proof.
  intros Rf Pr Hz Hp Hk Hw Hb. destruct (lp2bs_zpk_dyn f (Some wo) (Some bw)) as [f'| | |] eqn:E; try (exfalso; unfold lp2bs_zpk_dyn in E; rewrite relative_degree_le in E by exact Pr; discriminate E).
  exists f'. split; [reflexivity|]. split.
  - intros HH. destruct (zk_z f) as [|r l] eqn:Ez; [reflexivity|]. exfalso. rewrite <- Ez in Hz. apply (bs_wrong f f' wo bw Hz Hp Hw Hb Hk Pr E ltac:(congruence)). exact HH.
  - intros Z0 s Hs Hn. exact (lp2bs_H f wo bw f' s E Z0 Hp (proj2 Rf) Hs Hn).
Qed.
Print Assumptions C51_lp2bs_exactly.

(** A prototype with two zeros and two poles, and one without zeros. *)
Example C49_C51_exactly_ex :
  let f := mkZpk [((0, 1) : C); (0, -1)] [((-1, 1) : C); (-1, -1)] 3 in
  let g := mkZpk [] [((-1, 1) : C); (-1, -1)] 3 in
  (real_filter f /\ proper f /\ ~ In C0 (zk_z f) /\ ~ In C0 (zk_p f) /\ zk_k f <> 0) /\
  (real_filter g /\ proper g /\ ~ In C0 (zk_z g) /\ ~ In C0 (zk_p g) /\ zk_k g <> 0).
Proof.
  cbv zeta. assert (P : Permutation [cconj ((-1, 1) : C); cconj (-1, -1)] [((-1, 1) : C); (-1, -1)]).
  { replace (cconj ((-1, 1) : C)) with ((-1, -1) : C) by (apply C_ext; cbn; ring). replace (cconj ((-1, -1) : C)) with ((-1, 1) : C) by (apply C_ext; cbn; ring). apply perm_swap. }
  assert (Q : Permutation [cconj ((0, 1) : C); cconj (0, -1)] [((0, 1) : C); (0, -1)]).
  { replace (cconj ((0, 1) : C)) with ((0, -1) : C) by (apply C_ext; cbn; ring). replace (cconj ((0, -1) : C)) with ((0, 1) : C) by (apply C_ext; cbn; ring). apply perm_swap. }
  assert (N1 : ~ In C0 [((-1, 1) : C); (-1, -1)]) by (intros [E|[E|[]]]; pose proof (f_equal fst E) as F; cbn in F; lra).
  assert (N2 : ~ In C0 [((0, 1) : C); (0, -1)]) by (intros [E|[E|[]]]; pose proof (f_equal snd E) as F; cbn in F; lra).
  split; (split; [split; [first [exact Q|constructor]|exact P]|]; split; [unfold proper; cbn; lia|]; split; [first [exact N2|intros []]|]; split; [exact N1|cbn; lra]).
Qed.
