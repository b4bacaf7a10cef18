(** Model of sci-rs/src/signal/filter: sosfilt.rs, sosfilt_zi.rs, lfilter_zi.rs,
    ext.rs, sosfiltfilt.rs and design/sos.rs.  No proofs in this file. *)
From Coq Require Import List Arith Bool.
From Verif Require Import Base Num M_Linalg M_Stats.
Import ListNotations.
Local Open Scope nat_scope.

Section Filter.
Context {F : Type} {NF : Num F}.
Local Open Scope num_scope.

(** design/sos.rs:22-32 [struct Sos]: the arrays [b: [F; 3]], [a: [F; 3]] are
    written out as six fields. *)
Record Sos : Type := mkSos {
  b0 : F; b1 : F; b2 : F;
  a0 : F; a1 : F; a2 : F;
  zi0 : F; zi1 : F
}.

(** design/sos.rs:51-57 [Sos::new] (delays from [Default]: zero). *)
Definition Sos_new (B0 B1 B2 A0 A1 A2 : F) : Sos := mkSos B0 B1 B2 A0 A1 A2 0 0.

(** itertools [tuples::<(_,_,_,_,_,_)>()]: disjoint sextuples, an incomplete last
    one is dropped. *)
Fixpoint tuples6 (l : list F) : list (F * F * F * F * F * F) :=
  match l with
  | x0 :: x1 :: x2 :: x3 :: x4 :: x5 :: r => (x0, x1, x2, x3, x4, x5) :: tuples6 r
  | _ => []
  end.

(** design/sos.rs:62-70 [Sos::from_scipy_dyn]. *)
Definition from_scipy_dyn (order : nat) (sos : list F) : res (list Sos) :=
  let! _ := rassert (Nat.eqb (order * 6) (length sos)) in
  Ok (map (fun t => let '(x0, x1, x2, x3, x4, x5) := t in Sos_new x0 x1 x2 x3 x4 x5)
          (firstn order (tuples6 sos))).

Definition set_state (s : Sos) (z0 z1 : F) : Sos :=
  mkSos (b0 s) (b1 s) (b2 s) (a0 s) (a1 s) (a2 s) z0 z1.

(** The closure body of sosfilt.rs:37-42 (repeated at 48-165, 204-209), and
    sosfilt.rs:215-220 [biquad_fold]. *)
Definition biquad_fold (x_curr : F) (s : Sos) : F * Sos :=
  let x_new := b0 s * x_curr + zi0 s in
  let z0 := b1 s * x_curr - a1 s * x_new + zi1 s in
  let z1 := b2 s * x_curr - a2 s * x_new in
  (x_new, set_state s z0 z1).

(** sosfilt.rs:199-210 [sosfilt_item]: [fold] over [sos.iter_mut()], returning the
    output and the mutated sections. *)
Fixpoint sosfilt_item (y : F) (sos : list Sos) : F * list Sos :=
  match sos with
  | [] => (y, [])
  | s :: rest =>
      let '(x_new, s') := biquad_fold y s in
      let '(out, rest') := sosfilt_item x_new rest in
      (out, s' :: rest')
  end.

(** The closures of sosfilt.rs:34-165: [sos[..k].iter_mut().fold(...)] mutates the
    first [k] sections only ([sos[..k]] panics when there are fewer). *)
Definition sosfilt_item_slice (k : nat) (y : F) (sos : list Sos) : res (F * list Sos) :=
  let! _ := rassert (Nat.leb k (length sos)) in
  let '(out, front) := sosfilt_item y (firstn k sos) in
  Ok (out, front ++ skipn k sos).

(** [y.into_iter().map(|yi| step(yi, sos)).collect()] with the sections mutated
    from sample to sample. *)
Fixpoint run_samples (step : F -> list Sos -> res (F * list Sos)) (y : list F) (sos : list Sos)
  : res (list F * list Sos) :=
  match y with
  | [] => Ok ([], sos)
  | yi :: y' =>
      let! (out, sos') := step yi sos in
      let! (outs, sos'') := run_samples step y' sos' in
      Ok (out :: outs, sos'')
  end.

(** sosfilt.rs:27-171 [sosfilt_dyn]: one arm per section count. *)
Definition sosfilt_dyn (y : list F) (sos : list Sos) : res (list F * list Sos) :=
  match length sos with
  | 2 => run_samples (sosfilt_item_slice 2) y sos
  | 3 => run_samples (sosfilt_item_slice 3) y sos
  | 4 => run_samples (sosfilt_item_slice 4) y sos
  | 5 => run_samples (sosfilt_item_slice 5) y sos
  | 6 => run_samples (sosfilt_item_slice 6) y sos
  | 8 => run_samples (sosfilt_item_slice 8) y sos
  | 10 => run_samples (sosfilt_item_slice 10) y sos
  | 12 => run_samples (sosfilt_item_slice 12) y sos
  | 14 => run_samples (sosfilt_item_slice 14) y sos
  | 16 => run_samples (sosfilt_item_slice 16) y sos
  | 18 => run_samples (sosfilt_item_slice 18) y sos
  | 20 => run_samples (sosfilt_item_slice 20) y sos
  | _ => run_samples (fun yi s => Ok (sosfilt_item yi s)) y sos
  end.

(** sosfilt.rs:181-188 [sosfilt_st], the iterator consumed to its end. *)
Definition sosfilt_st (y : list F) (sos : list Sos) : res (list F * list Sos) :=
  run_samples (fun yi s => Ok (sosfilt_item yi s)) y sos.

(** The inner loop of sosfilt.rs:237-240:
    [*zi = *yi; for s in sos.iter_mut() { *zi = biquad_fold( *zi, s); }]. *)
Fixpoint sections_loop (zi : F) (sos : list Sos) : F * list Sos :=
  match sos with
  | [] => (zi, [])
  | s :: rest =>
      let '(zi', s') := biquad_fold zi s in
      let '(zi'', rest') := sections_loop zi' rest in
      (zi'', s' :: rest')
  end.

(** sosfilt.rs:307-312: [for (yi, zi) in y.iter().zip(z.iter_mut()) {...}].
    [conv] is the identity in [_sosfilt32] and [Into::<isize>::into( *yi) as f32]
    in [_sosfilt_isize_32]. *)
Fixpoint samples_loop {I} (conv : I -> F) (y : list I) (sos : list Sos) (z : list F)
  : list F * list Sos :=
  match y, z with
  | yi :: y', _ :: z' =>
      let '(zi, sos') := sections_loop (conv yi) sos in
      let '(zs, sos'') := samples_loop conv y' sos' z' in
      (zi :: zs, sos'')
  | _, _ => (z, sos)
  end.

Fixpoint itiles4 {I} (l : list I) : list (list I) :=
  match l with
  | x0 :: x1 :: x2 :: x3 :: r => [x0; x1; x2; x3] :: itiles4 r
  | _ => []
  end.
Fixpoint irem4 {I} (l : list I) : list I :=
  match l with
  | x0 :: x1 :: x2 :: x3 :: r => irem4 r
  | r => r
  end.

(** sosfilt.rs:233-242: [y.chunks_exact(4).zip(z.chunks_exact_mut(4)).for_each(..)],
    on the lists of tiles; unpaired tiles of [z] are left alone. *)
Fixpoint tiles_loop {I} (conv : I -> F) (yt : list (list I)) (sos : list Sos) (zt : list (list F))
  : list (list F) * list Sos :=
  match yt, zt with
  | yc :: yt', zc :: zt' =>
      let '(zc', sos') := samples_loop conv yc sos zc in
      let '(zt'', sos'') := tiles_loop conv yt' sos' zt' in
      (zc' :: zt'', sos'')
  | _, _ => (zt, sos)
  end.

(** sosfilt.rs:222-315 [_sosfilt32] ([conv] = identity) and sosfilt.rs:317-410
    [_sosfilt_isize_32].  Returns (z after, sections after).  The recursive call
    on the remainder is fuelled. *)
Fixpoint sosfilt32_gen {I} (conv : I -> F) (fuel : nat) (y : list I) (sos : list Sos) (z : list F)
  : res (list F * list Sos) :=
  match fuel with
  | O => OutOfFuel
  | S fuel' =>
    if negb (Nat.eqb (length y) (length z)) then Panic
    else if Nat.eqb (length y) 0 then Ok (z, sos)
    else
      let tiled :=
        let rem := (length y mod 4)%nat in
        let '(zt, sos') := tiles_loop conv (itiles4 y) sos (itiles4 z) in
        let z' := concat zt ++ irem4 z in
        let! idx := usub (length y) rem in
        let! (ztail, sos'') := sosfilt32_gen conv fuel' (skipn idx y) sos' (skipn idx z') in
        Ok (firstn idx z' ++ ztail, sos'') in
      match length sos, Nat.eqb (length y mod 4) 0 with
      | 2, true => tiled
      | 4, true => tiled
      | 6, true => tiled
      | 8, true => tiled
      | 10, true => tiled
      | _, _ => Ok (samples_loop conv y sos z)
      end
  end.

(** sosfilt.rs:421-423 [sosfilt_fast32_st], 435-440 [sosfilt_ifast32_st]; two
    units of fuel (that they suffice is a theorem). *)
Definition sosfilt_fast32_st (y : list F) (sos : list Sos) (z : list F) :=
  sosfilt32_gen (fun yi => yi) 2 y sos z.
Definition sosfilt_ifast32_st {I} (conv : I -> F) (y : list I) (sos : list Sos) (z : list F) :=
  sosfilt32_gen conv 2 y sos z.

(** [position] of the first element satisfying [f]. *)
Fixpoint position (f : F -> bool) (l : list F) : option nat :=
  match l with
  | [] => None
  | x :: l' => if f x then Some O else option_map S (position f l')
  end.

(** lfilter_zi.rs:27-83 [lfilter_zi_dyn]. *)
Definition lfilter_zi_dyn (b a : list F) : res (list F) :=
  let! _ := rassert (Nat.eqb (length b) (length a)) in
  let m := length b in
  let! ai0 := unwrap (position (fun ai => negb (ai =? 0)) a) in
  let a := skipn ai0 a in
  let! A0 := index a 0 in
  let '(a, b) := if negb (A0 =? 1) then (map (fun xi => xi / A0) a, map (fun xi => xi / A0) b)
                 else (a, b) in
  let a := a ++ repeat 0 (m - length a) in
  let! compa := companion_dyn a m in
  let compa := mtranspose compa in
  let! m1 := usub m 1 in
  let! i_minus_a := msub (mdiag m1 1) compa in
  let zi := repeat 0 m1 in
  let! B0 := index b 0 in
  let bsum := nsum (map (fun p : F * F => fst p - snd p * B0) (zip (skipn 1 b) (skipn 1 a))) in
  let! csum0 := mcol_sum i_minus_a 0 in
  let z0 := bsum / csum0 in
  let! zi := set_index zi 0 z0 in
  let! (_, _, zi) :=
    rfold (fun (st : F * F * list F) k =>
        let '(asum, csum, zi) := st in
        let! ak := get_unchecked a k in
        let asum := asum + ak in
        let! bk := get_unchecked b k in
        let csum := csum + (bk - ak * B0) in
        let! zi := set_unchecked zi k (asum * z0 - csum) in
        Ok (asum, csum, zi))
      (seq 1 (m1 - 1)) (1, 0, zi) in
  Ok zi.

(** sosfilt_zi.rs:25-37 [sosfilt_zi_dyn]. *)
Fixpoint sosfilt_zi_loop (scale : F) (s : list Sos) : res (list Sos) :=
  match s with
  | [] => Ok []
  | sec :: rest =>
      let bs := [b0 sec; b1 sec; b2 sec] in
      let as_ := [a0 sec; a1 sec; a2 sec] in
      let! zi := lfilter_zi_dyn bs as_ in
      let! z0 := index zi 0 in
      let! z1 := index zi 1 in
      let sec' := set_state sec (scale * z0) (scale * z1) in
      let scale := scale * (nsum bs / nsum as_) in
      let! rest' := sosfilt_zi_loop scale rest in
      Ok (sec' :: rest')
  end.
Definition sosfilt_zi_dyn (s : list Sos) : res (list Sos) := sosfilt_zi_loop 1 s.

(** ext.rs:95-222 [odd_ext_dyn].  Loops run over the index pairs in the order of
    the source; every unchecked access is bounds-checked into [UB]. *)
Definition odd_ext_dyn (x : mat F) (n axis : nat) : res (mat F) :=
  let! _ := rassert (Nat.ltb axis 2) in
  if Nat.ltb n 1 then mat_from_list (nrows x) (ncols x) (mat_to_list x)
  else
  let two := 1 + 1 in
  let old_rows := nrows x in
  let old_columns := ncols x in
  match axis with
  | 0 =>
      let! _ := rassert (Nat.ltb n (nrows x)) in
      let m := mzeros (old_rows + 2 * n)%nat old_columns in
      let! m := rfold (fun m (p : nat * nat) => let '(j, i) := p in
          let! f := mget x 0 j in
          let! k := usub n i in
          let! v := mget_unchecked x k j in
          mset_unchecked m i j (two * f - v))
        (list_prod (seq 0 old_columns) (seq 0 n)) m in
      let! m := rfold (fun m (p : nat * nat) => let '(j, i) := p in
          let! v := mget_unchecked x i j in
          mset_unchecked m (i + n)%nat j v)
        (list_prod (seq 0 old_columns) (seq 0 old_rows)) m in
      let! last_row_idx := usub old_rows 1 in
      rfold (fun m (p : nat * nat) => let '(j, i) := p in
          let! f := mget x last_row_idx j in
          let! k := usub last_row_idx n in
          let! v := mget_unchecked x (k + i)%nat j in
          let! r := usub (old_rows + 2 * n - 1)%nat i in
          mset_unchecked m r j (two * f - v))
        (list_prod (seq 0 old_columns) (seq 0 n)) m
  | 1 =>
      let! _ := rassert (Nat.ltb n (ncols x)) in
      let m := mzeros old_rows (old_columns + 2 * n)%nat in
      let! m := rfold (fun m (p : nat * nat) => let '(j, i) := p in
          let! f := mget x i 0 in
          let! k := usub n j in
          let! v := mget_unchecked x i k in
          mset_unchecked m i j (two * f - v))
        (list_prod (seq 0 n) (seq 0 old_rows)) m in
      let! m := rfold (fun m (p : nat * nat) => let '(j, i) := p in
          let! v := mget_unchecked x i j in
          mset_unchecked m i (j + n)%nat v)
        (list_prod (seq 0 old_columns) (seq 0 old_rows)) m in
      let! last_col_idx := usub old_columns 1 in
      rfold (fun m (p : nat * nat) => let '(j, i) := p in
          let! f := mget x i last_col_idx in
          let! k := usub last_col_idx n in
          let! v := mget_unchecked x i (k + j)%nat in
          let! c := usub (old_columns + 2 * n - 1)%nat j in
          mset_unchecked m i c (two * f - v))
        (list_prod (seq 0 n) (seq 0 old_rows)) m
  | _ => Panic
  end.

(** ext.rs:9-21 [enum Pad]. *)
Inductive Pad := PadNone | PadEven | PadOdd | PadConstant.

(** ext.rs:26-90 [pad]. *)
Definition pad (padtype : Pad) (padlen : option nat) (x : mat F) (axis ntaps : nat)
  : res (nat * mat F) :=
  let padlen := match padtype with PadNone => Some O | _ => padlen end in
  let edge := match padlen with Some p => p | None => (ntaps * 3)%nat end in
  let! _ := rassert (Nat.ltb axis 2) in
  let! _ := match axis with
            | 0 => rassert (Nat.ltb edge (nrows x))
            | 1 => rassert (Nat.ltb edge (ncols x))
            | _ => Panic
            end in
  match padtype with
  | PadNone => let! m := mat_from_list (nrows x) (ncols x) (mat_to_list x) in Ok (edge, m)
  | _ =>
    if Nat.eqb edge 0 then
      let! m := mat_from_list (nrows x) (ncols x) (mat_to_list x) in Ok (edge, m)
    else match padtype with
         | PadOdd => let! m := odd_ext_dyn x edge axis in Ok (edge, m)
         | _ => Panic                           (* unreachable!() *)
         end
  end.

(** [DVector::from_vec]. *)
Definition dvector (y : list F) : mat F := mkmat (length y) 1 (fun i _ => nth i y 0).

(** [for s in sos.iter_mut() { s.zi0 *= c; s.zi1 *= c; }] (sosfiltfilt.rs:38-41, 46-49). *)
Definition scale_state (c : F) (sos : list Sos) : list Sos :=
  map (fun s => set_state s (zi0 s * c) (zi1 s * c)) sos.

(** sosfiltfilt.rs:17-57 [sosfiltfilt_dyn]. *)
Definition sosfiltfilt_dyn (y : list F) (sos : list Sos) : res (list F) :=
  let n := length sos in
  let ntaps := (2 * n + 1)%nat in
  let bzeros := length (filter (fun s => b2 s =? 0) sos) in
  let azeros := length (filter (fun s => a2 s =? 0) sos) in
  let! ntaps := usub ntaps (Nat.min bzeros azeros) in
  let y_len := length y in
  let x := dvector y in
  let! (edge, ext) := pad PadOdd None x 0 ntaps in
  let! init_sos := sosfilt_zi_dyn sos in
  let! x0 := index (mat_to_list ext) 0 in
  let sos_x := scale_state x0 init_sos in
  let! (y, _) := sosfilt_dyn (mat_to_list ext) sos_x in
  let! y0 := unwrap (nth_error (rev y) 0) in
  let sos_y := scale_state y0 init_sos in
  let! (z, _) := sosfilt_dyn (rev y) sos_y in
  Ok (rev (firstn y_len (skipn edge z))).
End Filter.
Arguments Sos F : clear implicits.
