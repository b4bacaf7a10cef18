(** Property theorems for savgol_filter.rs (C35, C36). *)
From Coq Require Import List Arith ZArith Bool Lia Reals Lra Factorial.
From Verif Require Import Base Num MachInt M_Linalg M_Savgol S_Savgol S_Stats P_Stats RSum P_Savgol.
Import ListNotations.

(** ** C35: shape and edges.  Any number type, any solver. *)
(** Argument checks. *)
Theorem C35_savgol_panics :
  forall F (NF : Num F) lstsq md pw (y : list F) w po der del,
  w mod 2 = 0 \/ w < po + 2 -> savgol_filter_dyn lstsq md pw y w po der del = Panic.
Proof.
  intros F NF lstsq md pw y w po der del H. unfold savgol_filter_dyn.
  destruct (Nat.eqb_spec (w mod 2) 0); [reflexivity|]. destruct H as [H|H]; [contradiction|].
  destruct (Nat.ltb_spec w (po + 2)); [reflexivity|lia].
Qed.
Print Assumptions C35_savgol_panics.
(** Otherwise one value per sample, each the combination of the coefficients with the
    samples around it, indices clamped to the ends. *)
Theorem C35_savgol_fir :
  forall F (NF : Num F) lstsq md pw (y : list F) w po der del c,
  w mod 2 = 1 -> po + 2 <= w ->
  savgol_coeffs_dyn lstsq md pw w po der del = Ok c -> length c = w ->
  exists out, savgol_filter_dyn lstsq md pw y w po der del = Ok out /\ length out = length y /\
  forall i, i < length y ->
    nth_error out i =
    Some (nsum (map (fun k => nmul (clamped y (w / 2) i k) (nth (w - 1 - k) c nzero)) (seq 0 w))).
Proof.
  intros F NF lstsq md pw y w po der del c H1 H2 H3 H4. eexists.
  split; [apply savgol_fir_gen; eassumption|]. rewrite map_length, seq_length. split; [reflexivity|].
  intros i Hi. rewrite nth_error_map.
  assert (E : nth_error (seq 0 (length y)) i = Some i).
  { rewrite (nth_error_nth' _ 0) by (rewrite seq_length; exact Hi). rewrite seq_nth by exact Hi. reflexivity. }
  rewrite E. reflexivity.
Qed.
Print Assumptions C35_savgol_fir.
(** The only other ways to panic are the solver's error and the factorial of the
    derivative order overflowing; a derivative above the order gives zero coefficients. *)
Theorem C35_savgol_returns :
  forall F (NF : Num F) lstsq md pw (y : list F) w po der del,
  w mod 2 = 1 -> po + 2 <= w -> (0 < pw)%Z ->
  (forall A b eps, exists c, lstsq A b eps = Some c /\ length c = ncols A) ->
  (der <= po -> (Z.of_nat (fact der) <= imax (usize_t pw))%Z) ->
  exists out, savgol_filter_dyn lstsq md pw y w po (Some der) del = Ok out /\ length out = length y.
Proof.
  intros F NF lstsq md pw y w po der del H1 H2 Hp HL Hf.
  assert (C : exists c, savgol_coeffs_dyn lstsq md pw w po (Some der) del = Ok c /\ length c = w).
  { unfold savgol_coeffs_dyn. destruct (Nat.leb_spec w po); [lia|].
    destruct (Nat.ltb_spec po der) as [L|L].
    - eexists. split; [reflexivity|apply repeat_length].
    - rewrite factorial_ok by auto. cbn [bind].
      match goal with |- context [set_index ?v ?i ?x] => destruct (set_index_nth v i x nzero) as (b & -> & _ & _) end.
      { rewrite map_length, seq_length. lia. }
      cbn [bind]. match goal with |- context [lstsq ?A b ?e] => destruct (HL A b e) as (c & -> & Lc) end.
      exists c. split; [reflexivity|exact Lc]. }
  destruct C as (c & Ec & Lc). destruct (C35_savgol_fir F NF lstsq md pw y w po (Some der) del c H1 H2 Ec Lc) as (out & E & L & _).
  exists out. split; assumption.
Qed.
Print Assumptions C35_savgol_returns.
Theorem C35_defaults :
  forall F (NF : Num F) lstsq md pw (y : list F) w po,
  savgol_filter_dyn lstsq md pw y w po None None = savgol_filter_dyn lstsq md pw y w po (Some 0) (Some none).
Proof. reflexivity. Qed.

(** ** C36: polynomials are reproduced. *)
(** Proved for derivative orders whose factorial fits in usize (up to 20 on 64 bit). *)
Theorem C36_savgol_poly_partial :
  forall lstsq md pw w po der delta (p : list R) t0 n,
  solver_handles lstsq w po der delta ->
  (0 < pw)%Z -> w mod 2 = 1 -> po + 2 <= w -> der <= po ->
  (Z.of_nat (fact der) <= imax (usize_t pw))%Z -> delta <> 0%R -> length p <= po + 1 ->
  exists out,
    savgol_filter_dyn lstsq md pw (map (fun i => peval p (t0 + INR i * delta)%R) (seq 0 n))
      w po (Some der) (Some delta) = Ok out /\
    length out = n /\
    forall i, w / 2 <= i -> i + w / 2 < n ->
      nth i out 0%R = peval (pderivs der p) (t0 + INR i * delta)%R.
Proof. exact savgol_poly. Qed.
Print Assumptions C36_savgol_poly_partial.
(** The formal derivative is the derivative. *)
Theorem C36_pderiv_is_derivative : forall p t, derivable_pt_lim (peval p) t (peval (pderiv p) t).
Proof. exact pderiv_correct. Qed.
Theorem C36_system_consistent :
  forall w po der delta A y, po < w -> is_savgol_system w po der delta A y -> exists x, solves A x y.
Proof. exact system_consistent. Qed.
Print Assumptions C36_system_consistent.
(** The coefficients, even windows included: their moments. *)
Theorem C36_coeff_moments :
  forall lstsq md pw w po der delta, solver_handles lstsq w po der delta ->
  (0 < pw)%Z -> po < w -> der <= po -> (Z.of_nat (fact der) <= imax (usize_t pw))%Z ->
  exists c, savgol_coeffs_dyn lstsq md pw w po (Some der) (Some delta) = Ok c /\ length c = w /\
  forall m, m <= po ->
    rsum w (fun j => position w j ^ m * nth j c 0)%R = if m =? der then (INR (fact der) / delta ^ der)%R else 0%R.
Proof. exact coeffs_moments. Qed.
Print Assumptions C36_coeff_moments.
Theorem C36_high_derivative_zero :
  forall F (NF : Num F) lstsq md pw w po der delta, po < w -> po < der ->
  savgol_coeffs_dyn lstsq md pw w po (Some der) delta = Ok (repeat nzero w).
Proof.
  intros F NF lstsq md pw w po der delta H1 H2. unfold savgol_coeffs_dyn.
  destruct (Nat.leb_spec w po); [lia|]. destruct (Nat.ltb_spec po der); [reflexivity|lia].
Qed.
(** False as stated: with deriv = 21 the usize factorial overflows, whatever the solver. *)
Theorem C36_savgol_poly_refuted :
  forall F (NF : Num F) lstsq (y : list F) delta,
  savgol_filter_dyn lstsq Checked 64 y 23 21 (Some 21) (Some delta) = Panic /\
  factorial Wrapping 64 21 = Ok 14197454024290336768%Z.
Proof.
  intros F NF lstsq y delta. split; [|vm_compute; reflexivity].
  unfold savgol_filter_dyn, savgol_coeffs_dyn. cbn [Nat.modulo].
  replace (factorial Checked 64 21) with (@Panic Z) by (vm_compute; reflexivity). reflexivity.
Qed.
Print Assumptions C36_savgol_poly_refuted.

(** A solver meeting the contract: moving average of three samples. *)
Definition third_solver (A : mat R) (y : list R) (eps : R) : option (list R) := Some [1 / 3; 1 / 3; 1 / 3]%R.
Example C36_ex : solver_handles third_solver 3 1 0 1%R.
Proof.
  intros A y eps H. exists [1 / 3; 1 / 3; 1 / 3]%R. split; [reflexivity|].
  pose proof H as (Nr & Nc & E & Ly & Y). split; [symmetry; exact Nc|]. intros i Hi. rewrite Nr in Hi.
  rewrite (solves_rsum 3 1 0 1 A _ y H) by lia. rewrite Y by lia. unfold position.
  destruct i as [|[|i]]; [| |lia]; cbn; lra.
Qed.
