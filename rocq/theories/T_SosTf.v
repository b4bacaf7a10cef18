(** Second-order sections multiplied out by [convolve] are the transfer-function form. *)
From Coq Require Import Reals ZArith List Permutation Lia Lra.
From Verif Require Import Base Num Trans M_Complex M_Fourier M_Filter M_Design Cx RSum S_Design S_Fourier S_Ztrans P_Poly P_Sort P_Fourier T_Fourier T_Design T_Sos T_Ztrans T_Cascade2.
Import ListNotations.
Local Open Scope R_scope.

Lemma convolve_step fft ifft (a c : list R) : is_fft fft -> is_ifft ifft -> a <> [] -> c <> [] ->
  exists r, convolve fft ifft a c Full = Ok r /\ length r = (length a + length c - 1)%nat /\ forall x, x <> C0 -> rpoly_at r x = (rpoly_at a x * rpoly_at c x)%C.
Proof.
  intros Hf Hi Ha Hc. destruct (C37_convolve_full fft ifft a c Hf Hi Ha Hc) as [r [E [L F]]]. exists r. split; [exact E|]. split; [exact L|].
  intros x Hx. apply rpoly_convolution; try assumption. intros z. apply ztrans_convolution; assumption.
Qed.
Lemma convolve_all fft ifft (g : Sos R -> list R) l : is_fft fft -> is_ifft ifft -> (forall s, length (g s) = 3%nat) -> forall a, a <> [] ->
  exists r, rfold (fun acc s => convolve fft ifft acc (g s) Full) l a = Ok r /\ length r = (length a + 2 * length l)%nat /\
    forall x, x <> C0 -> rpoly_at r x = (rpoly_at a x * fold_right (fun s acc => cmul (rpoly_at (g s) x) acc) C1 l)%C.
Proof.
  intros Hf Hi Hg. induction l as [|s l IH]; intros a Ha; cbn [rfold fold_right length].
  - exists a. split; [reflexivity|]. split; [lia|]. intros x _. ring.
  - assert (Hs : g s <> []) by (intros Z; specialize (Hg s); rewrite Z in Hg; discriminate Hg).
    destruct (convolve_step fft ifft a (g s) Hf Hi Ha Hs) as [r [E [L F]]]. rewrite E. cbn [bind]. rewrite Hg in L.
    assert (La : (0 < length a)%nat) by (destruct a; [congruence|cbn; lia]).
    destruct (IH r) as [q [E2 [L2 F2]]]; [intros Z; rewrite Z in L; cbn in L; lia|]. exists q. split; [exact E2|]. split; [lia|]. intros x Hx. rewrite F2, F by exact Hx. ring.
Qed.
(** A digital filter: the numerators of the sections that zpk2sos_dyn gives, convolved one after the other, are the numerator
    that zpk2tf_dyn gives (at twice the number of sections as order), and so for the denominators. *)
Theorem C144_sections epsilon fft ifft sort order f pairing analog : 0 <= epsilon -> is_fft fft -> is_ifft ifft -> is_sort sort ->
  real_filter f -> separated epsilon (zk_z f) -> separated epsilon (zk_p f) ->
  analog <> Some true -> (pairing = None \/ pairing = Some Nearest) ->
  exists l b a, zpk2sos_dyn epsilon sort order f pairing analog = Ok l /\
    zpk2tf_dyn sort (2 * length l) (zk_z f) (zk_p f) (zk_k f) = Ok (mkBa b a) /\
    rfold (fun acc s => convolve fft ifft acc [b0 s; b1 s; b2 s] Full) l [1] = Ok b /\
    rfold (fun acc s => convolve fft ifft acc [a0 s; a1 s; a2 s] Full) l [1] = Ok a.
Proof.
  intros He Hf Hi Hs [Rz Rp] Sz Sp Ha Hp. destruct (C45_zpk2sos_digital_partial epsilon sort order f pairing analog He Hs (conj Rz Rp) Sz Sp Ha Hp) as [l [E [L [_ P]]]].
  set (m := Nat.max (length (zk_z f)) (length (zk_p f))) in *. assert (M : (m <= 2 * length l)%nat) by (rewrite L; pose proof (Nat.div_mod (m + 1) 2 ltac:(lia)); pose proof (Nat.mod_upper_bound (m + 1) 2 ltac:(lia)); lia).
  rewrite <- L in P. destruct (C44_zpk2tf_partial sort (2 * length l) (zk_z f) (zk_p f) (zk_k f) Hs Rz Rp ltac:(lia) ltac:(lia)) as [b [a [E2 [Lb [La [Pb [Pa _]]]]]]].
  exists l, b, a. split; [exact E|]. split; [exact E2|].
  assert (One : forall x, rpoly_at [1] x = C1) by (intros x; unfold rpoly_at, poly_at; cbn; apply C_ext; cbn; ring).
  split.
  - destruct (convolve_all fft ifft (fun s => [b0 s; b1 s; b2 s]) l Hf Hi ltac:(reflexivity) [1] ltac:(discriminate)) as [r [Er [Lr F]]]. rewrite Er. f_equal. cbn [length] in Lr.
    apply rpoly_inj; [lia|]. intros x Hx. rewrite F, One, Pb by exact Hx. rewrite <- (proj1 (P x)). unfold sos_num. ring.
  - destruct (convolve_all fft ifft (fun s => [a0 s; a1 s; a2 s]) l Hf Hi ltac:(reflexivity) [1] ltac:(discriminate)) as [r [Er [Lr F]]]. rewrite Er. f_equal. cbn [length] in Lr.
    apply rpoly_inj; [lia|]. intros x Hx. rewrite F, One, Pa by exact Hx. rewrite <- (proj2 (P x)). unfold sos_den. ring.
Qed.
Print Assumptions C144_sections.
(** Three zeros at -1, three poles: two sections, order 4. *)
Example C144_ex : let f := mkZpk [RtoC (-1); RtoC (-1); RtoC (-1)] [(1 / 2, 1 / 2); RtoC (1 / 3); cconj (1 / 2, 1 / 2)] 1 in
  exists l b a, zpk2sos_dyn (1 / 1000) isort 3 f None None = Ok l /\ zpk2tf_dyn isort (2 * length l) (zk_z f) (zk_p f) (zk_k f) = Ok (mkBa b a) /\
    rfold (fun acc s => convolve dft idft acc [b0 s; b1 s; b2 s] Full) l [1] = Ok b /\
    rfold (fun acc s => convolve dft idft acc [a0 s; a1 s; a2 s] Full) l [1] = Ok a.
Proof.
  intros f. destruct C45_C46_hyp_met as [R [Sz [Sp _]]].
  apply (C144_sections (1 / 1000) dft idft isort 3 f None None); [lra|apply dft_meets_contract|apply idft_meets_contract|apply isort_is_sort|exact R|exact Sz|exact Sp|discriminate|left; reflexivity].
Qed.
