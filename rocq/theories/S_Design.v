(** Specifications for the filter-design functions.  Only the data types (complex
    pairs, [ZpkFormatFilter], [Sos]) come from the model. *)
From Coq Require Import List Arith ZArith Reals Permutation Sorted.
From Verif Require Import Num M_Complex M_Filter M_Design Cx.
Import ListNotations.
Local Open Scope R_scope.

(** What is assumed of [slice::sort_unstable_by]: the result is a permutation of the
    input, and it is sorted whenever the comparison is a total preorder. *)
Definition is_sort (sort : forall A : Type, (A -> A -> bool) -> list A -> list A) : Prop :=
  forall A (le : A -> A -> bool) (l : list A),
    Permutation l (sort A le l) /\
    ((forall a b, le a b = true \/ le b a = true) ->
     (forall a b c, le a b = true -> le b c = true -> le a c = true) ->
     StronglySorted (fun a b => le a b = true) (sort A le l)).

(** prod_i (x - r_i) *)
Definition root_product (r : list C) (x : C) : C := fold_right (fun ri acc => cmul (csub x ri) acc) C1 r.
(** a_0 x^n + a_1 x^(n-1) + ... + a_n, coefficients highest power first. *)
Definition poly_at (a : list C) (x : C) : C :=
  csum (length a) (fun i => cmul (nth i a C0) (cpow x (length a - 1 - i))).
Definition rpoly_at (a : list R) (x : C) : C := poly_at (map RtoC a) x.

(** Closed under conjugation, with multiplicities. *)
Definition conj_closed (l : list C) : Prop := Permutation (map cconj l) l.

(** H(s) = k prod (s - z_i) / prod (s - p_i), meaningful when s is not a pole. *)
Definition H (f : ZpkFormatFilter) (s : C) : C :=
  cdiv (cmul (RtoC (zk_k f)) (root_product (zk_z f) s)) (root_product (zk_p f) s).
Definition proper (f : @ZpkFormatFilter R) : Prop := (length (zk_z f) <= length (zk_p f))%nat.
Definition real_filter (f : @ZpkFormatFilter R) : Prop := conj_closed (zk_z f) /\ conj_closed (zk_p f).
(** Every pole in the open left half plane / strictly inside the unit circle. *)
Definition stable_analog (f : @ZpkFormatFilter R) : Prop := Forall (fun p => cre p < 0) (zk_p f).
Definition stable_digital (f : @ZpkFormatFilter R) : Prop := Forall (fun p => cnorm_sqr p < 1) (zk_p f).

(** Sections as polynomials in x: (b0 x^2 + b1 x + b2) and (a0 x^2 + a1 x + a2). *)
Definition sos_num (l : list (Sos R)) (x : C) : C :=
  fold_right (fun s acc => cmul (rpoly_at [b0 s; b1 s; b2 s] x) acc) C1 l.
Definition sos_den (l : list (Sos R)) (x : C) : C :=
  fold_right (fun s acc => cmul (rpoly_at [a0 s; a1 s; a2 s] x) acc) C1 l.

(** Every element is exactly real, or further from the real axis than the relative
    tolerance 100 epsilon with which the code decides what counts as real. *)
Definition separated (epsilon : R) (l : list C) : Prop :=
  Forall (fun r => cim r = 0 \/ 100 * epsilon * Rabs (cre r) < Rabs (cim r)) l.

(** Squared gain at the analog frequency w: |H(i w)|^2. *)
Definition gain_sqr (f : @ZpkFormatFilter R) (w : R) : R := cnorm_sqr (H f (0, w)).
(** Squared gain of a digital filter at the angle theta (pi is Nyquist): |H(e^(i theta))|^2. *)
Definition dgain_sqr (f : @ZpkFormatFilter R) (theta : R) : R := cnorm_sqr (H f (cos theta, sin theta)).

(** The digital frequency theta, mapped by the bilinear transform and the band
    transformation to the prototype's frequency axis, with critical frequencies wn in
    units of Nyquist: prototype frequency = a / b, given as the pair (a, b) so that
    b = 0 (infinite frequency) is covered.  With O = tan(theta/2), O_i = tan(pi w_i/2):
    low-pass O/O_0, high-pass O_0/O, band-pass (O_0 O_1 - O^2)/(O (O_1 - O_0)), band-stop
    its inverse (see C57_band_ratio_tan in T_Iir.v). *)
Definition band_ratio (b : FilterBandType) (wn : list R) (theta : R) : R * R :=
  let s := sin (theta / 2) in
  let c := cos (theta / 2) in
  let w0 := nth 0 wn 0 in
  let w1 := nth 1 wn 0 in
  let s0 := sin (PI * w0 / 2) in let c0 := cos (PI * w0 / 2) in
  let s1 := sin (PI * w1 / 2) in let c1 := cos (PI * w1 / 2) in
  match b with
  | Lowpass => (s * c0, c * s0)
  | Highpass => (c * s0, s * c0)
  | Bandpass => (s0 * s1 * c ^ 2 - c0 * c1 * s ^ 2, (s1 * c0 - s0 * c1) * s * c)
  | Bandstop => ((s1 * c0 - s0 * c1) * s * c, s0 * s1 * c ^ 2 - c0 * c1 * s ^ 2)
  end.
(** Number of critical frequencies of a band type. *)
Definition band_arity (b : FilterBandType) : nat := match b with Lowpass | Highpass => 1 | _ => 2 end.
(** Critical frequencies after normalisation by fs. *)
Definition normalised (wn : list R) (fs : option R) : list R :=
  match fs with Some f => map (fun w => 2 * w / f) wn | None => wn end.
(** Valid digital critical frequencies: the right number, in (0, 1), increasing. *)
Definition valid_digital (b : FilterBandType) (wn : list R) : Prop :=
  length wn = band_arity b /\ Forall (fun w => 0 < w < 1) wn /\ StronglySorted Rlt wn.

(** Valid critical frequencies before the digital restriction: positive and increasing. *)
Definition valid_freqs (bt : FilterBandType) (w : list R) : Prop :=
  length w = band_arity bt /\ Forall (fun x => 0 < x) w /\ StronglySorted Rlt w.

(** The pass-band reference angle: DC, Nyquist, the warped centre, DC or Nyquist. *)
Definition reference (bt : FilterBandType) (wn : list R) (theta : R) : Prop :=
  match bt with
  | Lowpass => theta = 0
  | Highpass => theta = PI
  | Bandpass => cos (theta / 2) <> 0 /\ tan (theta / 2) ^ 2 = tan (PI * nth 0 wn 0 / 2) * tan (PI * nth 1 wn 0 / 2)
  | Bandstop => theta = 0 \/ theta = PI
  end.
(** The prototype frequency a / b of the analog frequency w. *)
Definition analog_ratio (bt : FilterBandType) (wn : list R) (w : R) : R * R :=
  let w0 := nth 0 wn 0 in
  let w1 := nth 1 wn 0 in
  match bt with
  | Lowpass => (w, w0)
  | Highpass => (w0, w)
  | Bandpass => (w0 * w1 - w ^ 2, w * (w1 - w0))
  | Bandstop => (w * (w1 - w0), w0 * w1 - w ^ 2)
  end.

(** The argument errors listed in the property. *)
Definition bad_arguments (wn : list R) (rp rs : option R) (b : FilterBandType) (t : FilterType) (analog : bool) (fs : option R) : Prop :=
  (2 < length wn)%nat \/
  (fs <> None /\ analog = true) \/
  (exists w, In w (normalised wn fs) /\ w <= 0) \/
  (exists w0 w1, nth_error (normalised wn fs) 0 = Some w0 /\ nth_error (normalised wn fs) 1 = Some w1 /\ w1 <= w0) \/
  (exists r, rp = Some r /\ r < 0) \/
  (exists r, rs = Some r /\ r < 0) \/
  (analog = false /\ exists w, In w (normalised wn fs) /\ 1 <= w) \/
  length wn <> band_arity b \/
  (t = ChebyshevI /\ rp = None) \/
  (t = ChebyshevII /\ rs = None) \/
  t = CauerElliptic \/ t = BesselThomson.
