(** Model of src/monotone/rasterize.rs on exact scalars.  The loops over
    [advance_to(..)] are run over the list of all its items: the iterator is
    only driven by the loop, and the loop bodies do not touch the scanner. *)
Require Import List String Bool Arith ZArith.
From Verif Require Import Base Scalar M_Events M_Geo M_MonoPoly.
Require Import Qround.
Import ListNotations.
Local Open Scope string_scope.
Local Open Scope list_scope.
Local Open Scope Qc_scope.

(** A scalar, or [T::infinity()], or [T::neg_infinity()]. *)
Inductive ext : Type := NegInf | Fin (q : Qc) | PosInf.
(** Float::max, Float::min and [<=] on these. *)
Definition ext_leb (a b : ext) : bool :=
  match a, b with
  | NegInf, _ => true
  | _, PosInf => true
  | Fin p, Fin q => qleb p q
  | _, _ => false
  end.
Definition emax (a b : ext) : ext := if ext_leb a b then b else a.
Definition emin (a b : ext) : ext := if ext_leb a b then a else b.
(** Only finite bounds get this far; the arithmetic on infinities is not
    modelled, so the model panics there. *)
Definition finite (a : ext) : res Qc :=
  match a with Fin q => Ok q | _ => Panic "rasterize.rs: infinite bound" end.

(** [T::from(n)]. *)
Definition of_nat (n : nat) : Qc := Q2Qc (inject_Z (Z.of_nat n)).
(** [floor().to_usize().unwrap()]: fails on negative numbers. *)
Definition floor_usize (q : Qc) : res nat :=
  if (Qfloor (this q) <? 0)%Z then Panic "rasterize.rs: to_usize on a negative number"
  else Ok (Z.to_nat (Qfloor (this q))).
(** [height - 1] on usize. *)
Definition pred_usize (n : nat) : res nat :=
  match n with O => Panic "rasterize.rs: attempt to subtract with overflow" | S k => Ok k end.
(** rasterize.rs:33-38, 80-85: [j] is [(y - cross_min) * slice_height_inv]. *)
Definition clamp_idx (height : nat) (j : Qc) : res nat :=
  let* k := floor_usize (qmin (qmax j 0) (of_nat height)) in
  let* last := pred_usize height in
  Ok (Nat.min k last).

(** rasterize.rs:16-19, the loop of [cross_ubounds]: the pair of [bot_min] and [top_max]. *)
Definition ubounds_step (b : ext * ext) (z : trapz) : ext * ext :=
  let '(bot_min, top_max) := b in
  (emin (emin bot_min (Fin (t_bot (z_left z)))) (Fin (t_bot (z_right z))),
   emax (emax top_max (Fin (t_top (z_left z)))) (Fin (t_top (z_right z)))).
(** rasterize.rs:5-45. *)
Definition cross_ubounds (s : scanner) (right cross_min cross_max : Qc) (height : nat)
  : res (scanner * (nat * nat)) :=
  let* (s', zs) := advance_to s right in
  let '(bot_min, top_max) := fold_left ubounds_step zs (PosInf, NegInf) in
  if ext_leb top_max bot_min || ext_leb top_max (Fin cross_min) || ext_leb (Fin cross_max) bot_min then
    Ok (s', (height, 0%nat))
  else
    let* bot_min := finite (emax bot_min (Fin cross_min)) in
    let* top_max := finite (emin top_max (Fin cross_max)) in
    let slice_height_inv := of_nat height / (cross_max - cross_min) in
    let* j_min := clamp_idx height ((bot_min - cross_min) * slice_height_inv) in
    let* j_max := clamp_idx height ((top_max - cross_min) * slice_height_inv) in
    Ok (s', (j_min, j_max)).

(** rasterize.rs:60-65, the loop of [cross_bounds]. *)
Record bnds : Type := mkB { b_top_max : ext; b_top_min : ext; b_bot_max : ext; b_bot_min : ext }.
Definition bounds_step (b : bnds) (z : trapz) : bnds :=
  let lt := Fin (t_top (z_left z)) in
  let rt := Fin (t_top (z_right z)) in
  let lb := Fin (t_bot (z_left z)) in
  let rb := Fin (t_bot (z_right z)) in
  mkB (emax (emax (b_top_max b) lt) rt) (emin (emin (b_top_min b) lt) rt)
      (emax (emax (b_bot_max b) lb) rb) (emin (emin (b_bot_min b) lb) rb).
(** rasterize.rs:46-92. *)
Definition cross_bounds (s : scanner) (right cross_min cross_max : Qc) (height : nat)
  : res (scanner * option (nat * nat * Qc * Qc)) :=
  let* (s', zs) := advance_to s right in
  let b := fold_left bounds_step zs (mkB NegInf PosInf NegInf PosInf) in
  if ext_leb (b_top_max b) (b_bot_min b) || ext_leb (b_top_max b) (Fin cross_min)
     || ext_leb (Fin cross_max) (b_bot_min b) then
    Ok (s', None)
  else
    let* bot_min := finite (emax (b_bot_min b) (Fin cross_min)) in
    let* top_max := finite (emin (b_top_max b) (Fin cross_max)) in
    let slice_height_inv := of_nat height / (cross_max - cross_min) in
    let* j_min := clamp_idx height ((bot_min - cross_min) * slice_height_inv) in
    let* j_max := clamp_idx height ((top_max - cross_min) * slice_height_inv) in
    let* bot_max := finite (b_bot_max b) in
    let* top_min := finite (b_top_min b) in
    Ok (s', Some (j_min, j_max, bot_max, top_min)).

(** rasterize.rs:121-156: the trapezoid with its axes exchanged, as the two
    chains of a monotone polygon. *)
Definition flip (z : trapz) : list pt * list pt :=
  let l := z_left z in
  let r := z_right z in
  let '(top1, bot1) :=
    if qleb (t_bot l) (t_bot r) then
      ([mkC (t_bot l) (t_x l); mkC (t_bot r) (t_x r)]
         ++ (if qltb (t_bot r) (t_top r) then [mkC (t_top r) (t_x r)] else []),
       [mkC (t_bot l) (t_x l)]
         ++ (if qltb (t_bot l) (t_top l) then [mkC (t_top l) (t_x l)] else []))
    else
      ([mkC (t_bot r) (t_x r)]
         ++ (if qltb (t_bot r) (t_top r) then [mkC (t_top r) (t_x r)] else []),
       [mkC (t_bot r) (t_x r); mkC (t_bot l) (t_x l)]
         ++ (if qltb (t_bot l) (t_top l) then [mkC (t_top l) (t_x l)] else [])) in
  if qleb (t_top l) (t_top r) then (top1, bot1 ++ [mkC (t_top r) (t_x r)])
  else (top1 ++ [mkC (t_top l) (t_x l)], bot1).

(** [array[j] = array[j] + v]. *)
Fixpoint add_at (arr : list Qc) (j : nat) (v : Qc) : res (list Qc) :=
  match arr, j with
  | a :: arr', O => Ok ((a + v) :: arr')
  | a :: arr', S j' => let* r := add_at arr' j' v in Ok (a :: r)
  | [], _ => Panic "rasterize.rs:171 index out of bounds"
  end.
(** rasterize.rs:170-172. *)
Definition add_areas (arr : list Qc) (j : nat) (tzs : list trapz) : res (list Qc) :=
  fold_res (fun arr tz => let* a := trapz_area tz in add_at arr j a) arr tzs.
(** rasterize.rs:168-173: rows [j], ..., [j + n - 1]. *)
Fixpoint area_rows (cross_min slice_height : Qc) (sc : scanner) (arr : list Qc) (j n : nat) : res (list Qc) :=
  match n with
  | O => Ok arr
  | S n' =>
      let jt := of_nat (j + 1) * slice_height + cross_min in
      let* (sc', tzs) := advance_to sc jt in
      let* arr' := add_areas arr j tzs in
      area_rows cross_min slice_height sc' arr' (S j) n'
  end.
(** rasterize.rs:118-173, the loop body. *)
Definition area_trapz (cross_min cross_max : Qc) (arr : list Qc) (z : trapz) : res (list Qc) :=
  let height := List.length arr in
  let slice_height := (cross_max - cross_min) / of_nat height in
  let '(top_coords, bot_coords) := flip z in
  let* tpoly := mp_new top_coords bot_coords in
  let* scanner := mp_scan_lines tpoly cross_min in
  let bot_min := qmin (t_bot (z_left z)) (t_bot (z_right z)) in
  let top_max := qmax (t_top (z_left z)) (t_top (z_right z)) in
  if qleb cross_max bot_min || qleb top_max cross_min then Ok arr
  else
    let* j_min := clamp_idx height ((bot_min - cross_min) / slice_height) in
    let* j_max := clamp_idx height ((top_max - cross_min) / slice_height) in
    area_rows cross_min slice_height scanner arr j_min (S j_max - j_min).
(** rasterize.rs:94-175. *)
Definition cross_area (s : scanner) (right cross_min cross_max : Qc) (array : list Qc)
  : res (scanner * list Qc) :=
  let* (s', zs) := advance_to s right in
  let* arr := fold_res (area_trapz cross_min cross_max) array zs in
  Ok (s', arr).
