(** Model of sci-rs/src/signal/filter/design: relative_degree.rs, cplx.rs, zpk2tf.rs,
    zpk2sos.rs, bilinear_zpk.rs, lp2lp_zpk.rs, lp2hp_zpk.rs, lp2bp_zpk.rs,
    lp2bs_zpk.rs, iirfilter.rs, butter.rs and the types of filter_type.rs and
    filter_output.rs.  No proofs in this file.

    Simplification common to the file: comparisons of NaNs ([partial_cmp(..).unwrap()]
    inside the sorts) do not panic here.  Over the reals all numbers are comparable; the
    theorems over floats are about designs whose poles and zeros are all finite. *)
From Coq Require Import List Arith ZArith Bool.
From Verif Require Import Base Num Trans M_Linalg M_Complex M_Fourier M_Filter.
Import ListNotations.
Local Open Scope nat_scope.

(** filter_type.rs:2-46. *)
Inductive FilterType := Butterworth | ChebyshevI | ChebyshevII | CauerElliptic | BesselThomson.
Inductive FilterBandType := Lowpass | Highpass | Bandpass | Bandstop.
(** filter_output.rs:10-17. *)
Inductive FilterOutputType := OutBa | OutZpk | OutSos.
(** zpk2sos.rs:25-30. *)
Inductive ZpkPairing := Minimal | Nearest.
Definition is_minimal (p : ZpkPairing) : bool := match p with Minimal => true | Nearest => false end.
(** zpk2sos.rs:32-36. *)
Inductive WhichNearestComplex := WReal | WComplex | WAny.

(** [Option::unwrap_or]. *)
Definition unwrap_or {A} (o : option A) (d : A) : A := match o with Some a => a | None => d end.
Definition is_none {A} (o : option A) : bool := match o with Some _ => false | None => true end.

(** [(a..b).step_by(2)] over [isize]. *)
Definition step2 (a b : Z) : list Z :=
  map (fun j => (a + 2 * Z.of_nat j)%Z) (seq 0 (Z.to_nat ((b - a + 1) / 2))).

(** [Vec::remove(i)]: the removed element and the rest. *)
Definition remove_at {A} (v : list A) (i : nat) : res (A * list A) :=
  let! a := index v i in Ok (a, firstn i v ++ skipn (S i) v).

Section Design.
Context {F : Type} {NF : Num F} {TF : Trans F}.
(** [F::epsilon()]. *)
Variable epsilon : F.
(** [slice::sort_unstable_by]: a parameter, because an unstable sort may order equal
    elements in any way.  The boolean relation is "compares Less or Equal". *)
Variable sort : forall A : Type, (A -> A -> bool) -> list A -> list A.
Local Open Scope num_scope.

(** filter_output.rs:22-29, 34-42, 61-68. *)
Record ZpkFormatFilter := mkZpk { zk_z : list (cplx F); zk_p : list (cplx F); zk_k : F }.
Record BaFormatFilter := mkBa { ba_b : list F; ba_a : list F }.
Inductive DigitalFilter :=
  | DBa (f : BaFormatFilter)
  | DZpk (f : ZpkFormatFilter)
  | DSos (sos : list (Sos F)).

Definition two : F := nofZ 2.
Definition is_zero (x : F) : bool := x =? 0.
(** [Float::powi(x, n)], n >= 0. *)
Fixpoint npow (x : F) (n : nat) : F := match n with O => 1 | S k => x * npow x k end.

(** relative_degree.rs:7-13. *)
Definition relative_degree_dyn (zeros poles : list (cplx F)) : res nat :=
  if Nat.ltb (length poles) (length zeros) then Panic else Ok (length poles - length zeros)%nat.

(** The comparison of cplx.rs:171-188: real part, then imaginary part. *)
Definition le_cplx (a b : cplx F) : bool :=
  if cre a <? cre b then true else if cre b <? cre a then false else cim a <=? cim b.
(** cplx.rs:171-188 [sort_cplx_dyn]. *)
Definition sort_cplx_dyn (x : list (cplx F)) : list (cplx F) := sort _ le_cplx x.

(** zpk2tf.rs:101-124, one pass of the loop over the roots: [a] convolved with [1, -zi]. *)
Definition poly_pass (a : list (cplx F)) (zi : cplx F) : res (list (cplx F)) :=
  let b := repeat czero (length a + 1) in
  let k := [cone; cneg zi] in
  rfold (fun b i =>
    let! u_i := if Nat.ltb (length a) i then usub i 2 else Ok 0%nat in
    let! l1 := usub (length a) 1 in
    let u_f := Nat.min i l1 in
    if Nat.eqb u_i u_f then
      let! au := index a u_i in
      let! d := usub i u_i in
      let! ki := index k d in
      let! bi := index b i in
      set_index b i (cadd bi (cmul au ki))
    else
      rfold (fun b u =>
        let! d := usub i u in
        if Nat.ltb d 2 then
          let! au := index a u in
          let! ki := index k d in
          let! bi := index b i in
          set_index b i (cadd bi (cmul au ki))
        else Ok b) (seq u_i (u_f + 1 - u_i)) b)
    (seq 0 (length a + 2 - 1)) b.
(** [x.into_iter().zip(y).all(|(a, b)| a == b)]. *)
Definition all_eq (x y : list (cplx F)) : bool := forallb (fun p => ceqb (fst p) (snd p)) (zip x y).
(** zpk2tf.rs:101-143 [poly_dyn], at the complex type. *)
Definition poly_dyn (z : list (cplx F)) : res (list (cplx F)) :=
  let! a := rfold poly_pass z [cone] in
  let roots := sort_cplx_dyn z in
  let root_conjs := sort_cplx_dyn (map cconj z) in
  if all_eq roots root_conjs then Ok (map (fun ai => cofre (cre ai)) a) else Ok a.

(** zpk2tf.rs:58-83, the closure [poly2ba]. *)
Definition poly2ba (x y : list (cplx F)) : list (cplx F) :=
  let pos_roots := filter (fun i => 0 <? cim i) y in
  let neg_roots := map cconj (filter (fun i => cim i <? 0) y) in
  if Nat.eqb (length pos_roots) (length neg_roots) then
    if all_eq (sort_cplx_dyn pos_roots) (sort_cplx_dyn neg_roots)
    then map (fun xi => cofre (cre xi)) x else x
  else x.
(** [src.into_iter().zip(dst.iter_mut()).for_each(|(s, d)| *d = s.real())]. *)
Fixpoint copy_re (dst : list F) (src : list (cplx F)) : list F :=
  match dst, src with
  | _ :: dst', x :: src' => cre x :: copy_re dst' src'
  | _, _ => dst
  end.
(** zpk2tf.rs:44-97 [zpk2tf_dyn]. *)
Definition zpk2tf_dyn (order : nat) (z p : list (cplx F)) (k : F) : res BaFormatFilter :=
  let! pz := poly_dyn z in
  let b := map (fun bi => cmul (cofre k) bi) pz in
  let! a := poly_dyn p in
  let bv := poly2ba b z in
  let av := poly2ba a p in
  Ok (mkBa (copy_re (repeat 0 (order + 1)) bv) (copy_re (repeat 0 (order + 1)) av)).

(** cplx.rs:67-71: real part, then magnitude of the imaginary part. *)
Definition le_cplx_abs (a b : cplx F) : bool :=
  if cre a <? cre b then true else if cre b <? cre a then false else nabs (cim a) <=? nabs (cim b).
(** cplx.rs:74-76: the elements counted as real. *)
Definition near_real (tol : F) (zi : cplx F) : bool :=
  nabs (cim zi) <=? tol * cre (csqrt (cmul zi zi)).
(** cplx.rs:91-113: boundaries of the runs of nearly equal real parts. *)
Definition same_real_flags (tol : F) (zp : list (cplx F)) : list bool :=
  [false] ++ map (fun ab => (cre (snd ab) - cre (fst ab)) <=? tol * cnorm (fst ab)) (zip zp (tl zp)) ++ [false].
Definition same_real_steps (flags : list bool) : list Z :=
  map (fun ab => match ab with
                 | (true, true) => 0%Z | (true, false) => (-1)%Z
                 | (false, true) => 1%Z | (false, false) => 0%Z end) (zip flags (tl flags)).
(** [iter().enumerate().filter(|(_, s)| f(s)).map(|(i, _)| i)]. *)
Definition positions {A} (f : A -> bool) (l : list A) : list nat :=
  map fst (filter (fun p => f (snd p)) (zip (seq 0 (length l)) l)).
(** cplx.rs:133-138: by |im| of the second, then im of the first component. *)
Definition le_pair (a b : cplx F * cplx F) : bool :=
  let x := nabs (cim (snd a)) in
  let y := nabs (cim (snd b)) in
  if x <? y then true else if y <? x then false else cim (fst a) <=? cim (fst b).
(** cplx.rs:125-148, one run. *)
Definition sort_run (zpn : list (cplx F) * list (cplx F)) (se : nat * nat)
  : res (list (cplx F) * list (cplx F)) :=
  let '(zp, zn) := zpn in
  let start := fst se in
  let stop := (snd se + 1)%nat in
  let! cp := slice zp start stop in
  let! cn := slice zn start stop in
  let chunk := sort _ le_pair (zip cp cn) in
  Ok (firstn start zp ++ map fst chunk ++ skipn stop zp,
      firstn start zn ++ map snd chunk ++ skipn stop zn).
(** cplx.rs:54-168 [cplxreal_dyn]. *)
Definition cplxreal_dyn (z : list (cplx F)) (tol : option F) : res (list (cplx F) * list (cplx F)) :=
  match z with
  | [] => Ok ([], [])
  | _ =>
    let tol := unwrap_or tol (epsilon * nofZ 100) in
    let z := sort _ le_cplx_abs z in
    let zr := filter (near_real tol) z in
    let zc := filter (fun zi => negb (near_real tol zi)) z in
    if Nat.eqb (length zr) (length z) then Ok ([], zr)
    else
      let zp := filter (fun zi => 0 <? cim zi) zc in
      let zn := filter (fun zi => cim zi <? 0) zc in
      if negb (Nat.eqb (length zp) (length zn)) then Panic
      else
        let steps := same_real_steps (same_real_flags tol zp) in
        let run_starts := positions (fun s => Z.ltb 0 s) steps in
        let run_stops := positions (fun s => Z.ltb s 0) steps in
        let! _ := rassert (Nat.eqb (length run_starts) (length run_stops)) in
        let! (zp, zn) := rfold sort_run (zip run_starts run_stops) (zp, zn) in
        if existsb (fun pn => tol * cnorm (snd pn) <? cnorm (csub (fst pn) (cconj (snd pn)))) (zip zp zn)
        then Panic
        else
          let zc := map (fun pn => cdivr (cadd (fst pn) (cconj (snd pn))) two) (zip zp zn) in
          Ok (zc, zr)
  end.

(** [min_by(partial_cmp)] over (index, key) pairs: the first of the smallest. *)
Fixpoint min_by_from (best : nat * F) (l : list (nat * F)) : nat * F :=
  match l with
  | [] => best
  | y :: l' => min_by_from (if snd y <? snd best then y else best) l'
  end.
Definition min_by_idx (l : list (nat * F)) : res nat :=
  match l with [] => Panic | x :: l' => Ok (fst (min_by_from x l')) end.
Definition enumerate {A} (l : list A) : list (nat * A) := zip (seq 0 (length l)) l.

(** zpk2sos.rs:257-282 [nearest_real_complex_idx_dyn]. *)
Definition nearest_real_complex_idx_dyn (fro : list (cplx F)) (to : cplx F) (which : WhichNearestComplex) : res nat :=
  let order := enumerate fro in
  let keep := match which with
    | WReal => filter (fun ai => is_zero (cim (snd ai))) order
    | WComplex => filter (fun ai => negb (is_zero (cim (snd ai)))) order
    | WAny => order
    end in
  min_by_idx (map (fun ai => (fst ai, cnorm (csub (snd ai) to))) keep).

(** zpk2sos.rs:286-299 [single_zpksos_dyn]. *)
Definition single_zpksos_dyn (z p : list (cplx F)) (k : F) : res (Sos F) :=
  let! ba := zpk2tf_dyn 2 z p k in
  match ba_b ba, ba_a ba with
  | [x0; x1; x2], [y0; y1; y2] => Ok (Sos_new x0 x1 x2 y0 y1 y2)
  | _, _ => Panic
  end.

(** zpk2sos.rs:131-154, the closures [idx_worst]. *)
Definition idx_worst (analog : bool) (p : list (cplx F)) : res nat :=
  min_by_idx (map (fun ip => (fst ip,
    if analog then nabs (cre (snd ip)) else nabs (1 - cnorm (snd ip)))) (enumerate p)).

Definition count_real (l : list (cplx F)) : nat := length (filter (fun pi => is_zero (cim pi)) l).

(** zpk2sos.rs:162-236, one turn of the pairing loop; the state is the remaining
    poles and zeros and the sections pushed so far. *)
Definition pair_step (pairing : ZpkPairing) (analog : bool)
  (st : list (cplx F) * list (cplx F) * list (Sos F))
  : res (list (cplx F) * list (cplx F) * list (Sos F)) :=
  let '(p, z, sos) := st in
  let! p1_idx := idx_worst analog p in
  let! (p1, p) := remove_at p p1_idx in
  if is_zero (cim p1) && Nat.eqb (count_real p) 0 then
    if is_minimal pairing then
      let! z1_idx := nearest_real_complex_idx_dyn z p1 WReal in
      let! (z1, z) := remove_at z z1_idx in
      let! s := single_zpksos_dyn [z1; czero] [p1; czero] 1 in
      Ok (p, z, sos ++ [s])
    else if negb (Nat.eqb (length z) 0) then
      let! z1_idx := nearest_real_complex_idx_dyn z p1 WReal in
      let! (z1, z) := remove_at z z1_idx in
      let! s := single_zpksos_dyn [z1] [p1] 1 in
      Ok (p, z, sos ++ [s])
    else
      let! s := single_zpksos_dyn [] [p1] 1 in
      Ok (p, z, sos ++ [s])
  else if Nat.eqb (length p + 1) (length z) && negb (is_zero (cim p1))
          && Nat.eqb (count_real p) 1 && Nat.eqb (count_real z) 1 then
    let! z1_idx := nearest_real_complex_idx_dyn z p1 WComplex in
    let! (z1, z) := remove_at z z1_idx in
    let! s := single_zpksos_dyn [z1; cconj z1] [p1; cconj p1] 1 in
    Ok (p, z, sos ++ [s])
  else
    let! (p2, p) :=
      if is_zero (cim p1) then
        let preal_idx := filter (fun ip => is_zero (cim (snd ip))) (enumerate p) in
        let! i := idx_worst analog (map snd preal_idx) in
        let! ip := index preal_idx i in
        remove_at p (fst ip)
      else Ok (cconj p1, p) in
    if negb (Nat.eqb (length z) 0) then
      let! z1_idx := nearest_real_complex_idx_dyn z p1 WAny in
      let! (z1, z) := remove_at z z1_idx in
      if negb (is_zero (cim z1)) then
        let! s := single_zpksos_dyn [z1; cconj z1] [p1; p2] 1 in
        Ok (p, z, sos ++ [s])
      else if negb (Nat.eqb (length z) 0) then
        let! z2_idx := nearest_real_complex_idx_dyn z p1 WReal in
        let! (z2, z) := remove_at z z2_idx in
        let! _ := rassert (is_zero (cim z2)) in
        let! s := single_zpksos_dyn [z1; z2] [p1; p2] 1 in
        Ok (p, z, sos ++ [s])
      else
        let! s := single_zpksos_dyn [z1] [p1; p2] 1 in
        Ok (p, z, sos ++ [s])
    else
      let! s := single_zpksos_dyn [] [p1; p2] 1 in
      Ok (p, z, sos ++ [s]).

(** zpk2sos.rs:92-121: number of sections, and the padded zeros and poles. *)
Definition pad_zp (pairing : ZpkPairing) (z p : list (cplx F)) : res (nat * list (cplx F) * list (cplx F)) :=
  if negb (is_minimal pairing) then
    let p := p ++ repeat czero (length z - length p) in
    let z := z ++ repeat czero (length p - length z) in
    let n_sections := ((Nat.max (length p) (length z) + 1) / 2)%nat in
    let '(z, p) := if Nat.odd (length p) then (z ++ [czero], p ++ [czero]) else (z, p) in
    let! _ := rassert (Nat.eqb (length z) (length p)) in
    Ok (n_sections, z, p)
  else if Nat.ltb (length p) (length z) then Panic
  else Ok (((length p + 1) / 2)%nat, z, p).

(** zpk2sos.rs:49-253 [zpk2sos_dyn] ([order] is not used by the code). *)
Definition zpk2sos_dyn (order : nat) (zpk : ZpkFormatFilter) (pairing : option ZpkPairing) (analog : option bool)
  : res (list (Sos F)) :=
  let analog := unwrap_or analog false in
  let pairing := unwrap_or pairing (if analog then Minimal else Nearest) in
  if analog && negb (is_minimal pairing) then Panic
  else if Nat.eqb (length (zk_z zpk)) 0 && Nat.eqb (length (zk_p zpk)) 0 then
    if negb analog then Ok [Sos_new (zk_k zpk) 0 0 1 0 0]
    else Ok [Sos_new 0 0 (zk_k zpk) 0 0 1]
  else
    let! (n_sections, z, p) := pad_zp pairing (zk_z zpk) (zk_p zpk) in
    let! (zc, zr) := cplxreal_dyn z None in
    let z := zc ++ zr in
    let! (pc, pr) := cplxreal_dyn p None in
    let p := pc ++ pr in
    let! (p, z, sos) := rfold (fun st _ => pair_step pairing analog st) (seq 0 n_sections) (p, z, []) in
    let sos := rev sos in
    let! _ := rassert (Nat.eqb (length p) (length z)) in
    let! _ := rassert (Nat.eqb (length p) 0) in
    match sos with
    | [] => Panic
    | s :: rest =>
        let k := zk_k zpk in
        Ok (mkSos (b0 s * k) (b1 s * k) (b2 s * k) (a0 s) (a1 s) (a2 s) (zi0 s) (zi1 s) :: rest)
    end.

(** bilinear_zpk.rs:74-110 [bilinear_zpk_dyn]. *)
Definition bilinear_zpk_dyn (zpk : ZpkFormatFilter) (fs : F) : res ZpkFormatFilter :=
  let! degree := relative_degree_dyn (zk_z zpk) (zk_p zpk) in
  let fs2 := (two * fs, 0) in
  let z_z := map (fun zi => cdiv (cadd fs2 zi) (csub fs2 zi)) (zk_z zpk) ++ repeat (- (1), 0) degree in
  let p_z := map (fun pi => cdiv (cadd fs2 pi) (csub fs2 pi)) (zk_p zpk) in
  let num := cprod (map (fun zi => csub fs2 zi) (zk_z zpk)) in
  let denom := cprod (map (fun pi => csub fs2 pi) (zk_p zpk)) in
  Ok (mkZpk z_z p_z (zk_k zpk * cre (cdiv num denom))).

(** lp2lp_zpk.rs:51-77 [lp2lp_zpk_dyn]. *)
Definition lp2lp_zpk_dyn (zpk : ZpkFormatFilter) (wo : option F) : res ZpkFormatFilter :=
  let wo := unwrap_or wo 1 in
  let! degree := relative_degree_dyn (zk_z zpk) (zk_p zpk) in
  let z_lp := map (fun zi => cmul zi (wo, 0)) (zk_z zpk) in
  let p_lp := map (fun zi => cmul zi (wo, 0)) (zk_p zpk) in
  Ok (mkZpk z_lp p_lp (zk_k zpk * npow wo degree)).

(** lp2hp_zpk.rs:71-119 [lp2hp_zpk_dyn] (the local named [two] in the source is -2). *)
Definition lp2hp_zpk_dyn (zpk : ZpkFormatFilter) (wo : option F) : res ZpkFormatFilter :=
  let wo := unwrap_or wo 1 in
  let! degree := relative_degree_dyn (zk_z zpk) (zk_p zpk) in
  let one_neg := nofZ (-1) in
  let two' := nofZ (-2) in
  let z_hp := map (fun zi => cmul (cdiv (wo * two', 0) zi) (0, one_neg)) (zk_z zpk) ++ repeat (0, 0) degree in
  let p_hp := map (fun zi => cdiv (wo, 0) zi) (zk_p zpk) in
  let num := cprod (map (fun zi => cadd (one_neg, 0) zi) (zk_z zpk)) in
  let denom := cprod (map (fun pi => cmul (one_neg, 0) pi) (zk_p zpk)) in
  Ok (mkZpk z_hp p_hp (zk_k zpk * cre (cdiv num denom))).

(** lp2bp_zpk.rs:62-115 [lp2bp_zpk_dyn]. *)
Definition lp2bp_zpk_dyn (zpk : ZpkFormatFilter) (wo bw : option F) : res ZpkFormatFilter :=
  let wo := unwrap_or wo 1 in
  let bw := unwrap_or bw 1 in
  let! degree := relative_degree_dyn (zk_z zpk) (zk_p zpk) in
  let z_lp := map (fun zi => cmul zi (bw / two, 0)) (zk_z zpk) in
  let p_lp := map (fun zi => cmul zi (bw / two, 0)) (zk_p zpk) in
  let wo2 := (npow wo 2, 0) in
  let z_bp_t := map (fun zi => (zi, csqrt (csub (csquare zi) wo2))) z_lp in
  let z_bp := map (fun ab => cadd (fst ab) (snd ab)) z_bp_t ++ map (fun ab => csub (fst ab) (snd ab)) z_bp_t in
  let p_bp_t := map (fun zi => (zi, csqrt (csub (csquare zi) wo2))) p_lp in
  let p_bp := map (fun ab => cadd (fst ab) (snd ab)) p_bp_t ++ map (fun ab => csub (fst ab) (snd ab)) p_bp_t in
  let z_bp := z_bp ++ repeat (0, 0) degree in
  Ok (mkZpk z_bp p_bp (zk_k zpk * npow bw degree)).

(** lp2bs_zpk.rs:57-135 [lp2bs_zpk_dyn]. *)
Definition lp2bs_zpk_dyn (zpk : ZpkFormatFilter) (wo bw : option F) : res ZpkFormatFilter :=
  let wo := unwrap_or wo 1 in
  let bw := unwrap_or bw 1 in
  let! degree := relative_degree_dyn (zk_z zpk) (zk_p zpk) in
  let one_neg := nofZ (-1) in
  let z_hp := map (fun zi => cmul (cdiv (bw * one_neg, 0) zi) (0, one_neg)) (zk_z zpk) in
  let p_hp := map (fun zi => cmul (cdiv (0, bw / two) zi) (0, one_neg)) (zk_p zpk) in
  let wo2 := (npow wo 2, 0) in
  let z_bs_t := map (fun zi => (zi, csqrt (csub (csquare (csub zi (0, cim zi))) wo2))) z_hp in
  let z_bs_t := map (fun ab => ((cre (fst ab), cim (snd ab)), (cre (fst ab), cim (snd ab)))) z_bs_t in
  let z_bs := map (fun ab => (cre (fst ab), cim (snd ab))) z_bs_t
           ++ map (fun ab => (cre (fst ab), cim (snd ab) * one_neg)) z_bs_t in
  let p_bs_t := map (fun zi => (zi, csqrt (csub (csquare zi) wo2))) p_hp in
  let p_bs := map (fun ab => cadd (fst ab) (snd ab)) p_bs_t ++ map (fun ab => csub (fst ab) (snd ab)) p_bs_t in
  let z_bs := z_bs ++ repeat (0, 1 * wo) degree in
  let z_bs := z_bs ++ repeat (0, one_neg * wo) degree in
  let num := fold_left (fun acc zi => acc * cre zi) (zk_z zpk) 1 in
  let denom := cprod (map (fun pi => cmul (one_neg, 0) pi) (zk_p zpk)) in
  Ok (mkZpk z_bs p_bs (zk_k zpk * (num / cre denom))).

(** iirfilter.rs:221-237 [buttap_dyn]. *)
Definition buttap_dyn (order : nat) : ZpkFormatFilter :=
  let n := Z.of_nat order in
  let p := map (fun i =>
    let mi := nofZ i in
    let num := tpi * mi in
    let denom := nofZ (2 * n) in
    cneg (cexp (0, num / denom))) (step2 (- n + 1) n) in
  mkZpk [] p 1.

(** [Complex::sinh]. *)
Definition csinh (z : cplx F) : cplx F := (tsinh (cre z) * tcos (cim z), tcosh (cre z) * tsin (cim z)).

(** iirfilter.rs:250-284 [cheb1ap_dyn]. *)
Definition cheb1ap_dyn (n : nat) (rp : F) : ZpkFormatFilter :=
  let ten := nofZ 10 in
  match n with
  | O => mkZpk [] [] (tpowf ten (- rp / nofZ 20))
  | _ =>
    let eps := nsqrt (tpowf ten (rp / ten) - 1) in
    let nz := Z.of_nat n in
    let mu := tasinh (1 / eps) / nofZ nz in
    let thetas := map (fun m => tpi * (nofZ m / nofZ (2 * nz))) (step2 (- nz + 1) nz) in
    let p := map (fun theta => cneg (csinh (mu, theta))) thetas in
    let k := cre (cprod (map cneg p)) in
    let k := if Nat.even n then k / nsqrt (1 + eps * eps) else k in
    mkZpk [] p k
  end.

(** iirfilter.rs:387-441 [cheb2ap_dyn]. *)
Definition cheb2ap_dyn (n : nat) (rs : F) : ZpkFormatFilter :=
  match n with
  | O => mkZpk [] [] 1
  | _ =>
    let ten := nofZ 10 in
    let de := 1 / nsqrt (tpowf ten (1 / ten * rs) - 1) in
    let nz := Z.of_nat n in
    let mu := tasinh (1 / de) / nofZ nz in
    let m := if Nat.odd n then step2 (- nz + 1) 0 ++ step2 2 nz else step2 (- nz + 1) nz in
    let z := map (fun m =>
      let x := tsin (nofZ m * (tpi / (two * nofZ nz))) in
      cneg (cconj (cdiv (0, 1) (x, 0)))) m in
    let p := map (fun x =>
      let e := cneg (cexp (0, tpi * nofZ x / (two * nofZ nz))) in
      cdiv cone (tsinh mu * cre e, tcosh mu * cim e)) (step2 (- nz + 1) nz) in
    let k := cre (cdiv (cprod (map cneg p)) (cprod (map cneg z))) in
    mkZpk z p k
  end.

(** iirfilter.rs:45-209 [iirfilter_dyn]. *)
Definition iirfilter_dyn (order : nat) (wn : list F) (rp rs : option F)
  (btype : option FilterBandType) (ftype : option FilterType) (analog : option bool)
  (output : option FilterOutputType) (fs : option F) : res DigitalFilter :=
  let analog := unwrap_or analog false in
  if Nat.ltb 2 (length wn) then Panic else
  let! wn := match fs with
    | Some fs => if analog then Panic else Ok (map (fun wni => two * wni / fs) wn)
    | None => Ok wn end in
  if existsb (fun wi => wi <=? 0) wn then Panic else
  let! _ := match wn with
    | w0 :: w1 :: _ => if w1 <=? w0 then Panic else Ok tt
    | _ => Ok tt end in
  let! _ := match rp with Some rp => if rp <? 0 then Panic else Ok tt | None => Ok tt end in
  let! _ := match rs with Some rs => if rs <? 0 then Panic else Ok tt | None => Ok tt end in
  let ftype := unwrap_or ftype Butterworth in
  let! zpk := match ftype with
    | Butterworth => Ok (buttap_dyn order)
    | ChebyshevI => if is_none rp then Panic else let! rp := unwrap rp in Ok (cheb1ap_dyn order rp)
    | ChebyshevII => if is_none rp then Panic else let! rs := unwrap rs in Ok (cheb2ap_dyn order rs)
    | CauerElliptic => Panic
    | BesselThomson => Panic
    end in
  let! (fs, warped) :=
    if negb analog then
      if existsb (fun wi => (wi <=? 0) || (1 <=? wi)) wn then Panic
      else
        let fs := two in
        Ok (fs, map (fun wni => two * fs * ttan (tpi * wni / fs)) wn)
    else Ok (unwrap_or fs 1, wn) in
  let btype := unwrap_or btype Bandpass in
  let! zpk := match btype with
    | Lowpass => if negb (Nat.eqb (length wn) 1) then Panic else
        let! w0 := index warped 0 in lp2lp_zpk_dyn zpk (Some w0)
    | Highpass => if negb (Nat.eqb (length wn) 1) then Panic else
        let! w0 := index warped 0 in lp2hp_zpk_dyn zpk (Some w0)
    | Bandpass => if negb (Nat.eqb (length wn) 2) then Panic else
        let! w0 := index warped 0 in
        let! w1 := index warped 1 in
        let bw := w1 - w0 in
        let wo := nsqrt (w0 * w1) in
        lp2bp_zpk_dyn zpk (Some wo) (Some bw)
    | Bandstop => if negb (Nat.eqb (length wn) 2) then Panic else
        let! w0 := index warped 0 in
        let! w1 := index warped 1 in
        let bw := w1 - w0 in
        let wo := nsqrt (w0 * w1) in
        lp2bs_zpk_dyn zpk (Some wo) (Some bw)
    end in
  let! zpk := if negb analog then bilinear_zpk_dyn zpk fs else Ok zpk in
  match unwrap_or output OutBa with
  | OutZpk => Ok (DZpk zpk)
  | OutBa => let! ba := zpk2tf_dyn (2 * order) (zk_z zpk) (zk_p zpk) (zk_k zpk) in Ok (DBa ba)
  | OutSos => let! s := zpk2sos_dyn order zpk None (Some analog) in Ok (DSos s)
  end.

(** butter.rs:20-45 [butter_dyn]. *)
Definition butter_dyn (order : nat) (wn : list F) (btype : option FilterBandType) (analog : option bool)
  (output : option FilterOutputType) (fs : option F) : res DigitalFilter :=
  iirfilter_dyn order wn None None (Some (unwrap_or btype Lowpass)) (Some Butterworth)
    (Some (unwrap_or analog false)) (Some (unwrap_or output OutBa)) fs.
(** iirfilter.rs:350-373 [cheby1_dyn]. *)
Definition cheby1_dyn (n : nat) (rp : F) (wn : list F) (btype : option FilterBandType) (analog : option bool)
  (output : option FilterOutputType) (fs : option F) : res DigitalFilter :=
  iirfilter_dyn n wn (Some rp) None btype (Some ChebyshevI) analog output fs.
(** iirfilter.rs:502-525 [cheby2_dyn]. *)
Definition cheby2_dyn (n : nat) (rs : F) (wn : list F) (btype : option FilterBandType) (analog : option bool)
  (output : option FilterOutputType) (fs : option F) : res DigitalFilter :=
  iirfilter_dyn n wn None (Some rs) btype (Some ChebyshevII) analog output fs.
End Design.
