(** Model of the rasterisation loops: benches/utils/rasterize.rs:46-70 and, with other
    stops, src/monotone.rs:175-184 (tests).  Exact scalars instead of [f64]. *)
Require Import List String Bool Arith ZArith.
From Verif Require Import Base Scalar M_Events M_Geo M_MonoPoly M_Raster M_Op M_MonoSweep M_Chains.
Import ListNotations.
Local Open Scope string_scope.
Local Open Scope list_scope.
Local Open Scope Qc_scope.

(** benches/utils/rasterize.rs:61-67: one call of [cross_area] for every column, on the
    slice of the array that belongs to it.  The caller has as many slices as columns. *)
Fixpoint raster_cols (lo hi : Qc) (s : scanner) (rights : list Qc) (arr : list (list Qc)) : res (list (list Qc)) :=
  match rights, arr with
  | right_ :: rights', slice :: arr' =>
      let* (s', slice') := cross_area s right_ lo hi slice in
      let* r := raster_cols lo hi s' rights' arr' in
      Ok (slice' :: r)
  | _, _ => Ok arr
  end.
(** benches/utils/rasterize.rs:58-68: all pieces, one after the other. *)
Definition raster_pieces (ms : list mono_poly) (left : Qc) (rights : list Qc) (lo hi : Qc) (arr : list (list Qc)) : res (list (list Qc)) :=
  fold_res (fun arr m => let* s := mp_scan_lines m left in raster_cols lo hi s rights arr) arr ms.

(** geo: [Polygon::bounding_rect] is that of the exterior ring, [None] if it is empty. *)
Definition grow (r : rect) (c : pt) : rect :=
  mkRect (mkC (qmin (cx (r_min r)) (cx c)) (qmin (cy (r_min r)) (cy c)))
         (mkC (qmax (cx (r_max r)) (cx c)) (qmax (cy (r_max r)) (cy c))).
Definition poly_bounding_rect (p : polygon) : option rect :=
  match pg_exterior p with [] => None | c :: l => Some (fold_left grow l (mkRect c c)) end.
(** [map_coords(|&(x, y)| (y, x))]. *)
Definition swap_pt (c : pt) : pt := mkC (cy c) (cx c).
Definition swap_poly (p : polygon) : polygon := mkPolygon (map swap_pt (pg_exterior p)) (map (map swap_pt) (pg_interiors p)).
(** benches/utils/rasterize.rs:46-70; the array is the list of its rows. *)
Definition our_area (presort : list event -> list event) (pick : list nat -> nat -> nat -> nat)
    (poly : polygon) (width height : nat) : res (list (list Qc)) :=
  let arr := repeat (repeat 0 width) height in
  let poly := swap_poly poly in
  let '(width, _height) := (height, width) in
  let* bbox := expect (poly_bounding_rect poly) "benches/utils/rasterize.rs:51 unwrap on None" in
  let left := cx (r_min bbox) in
  let right := cx (r_max bbox) in
  let slice_width := (right - left) / of_nat width in
  let cross_min := cy (r_min bbox) in
  let cross_max := cy (r_max bbox) in
  let* ms := monotone_chains presort pick poly in
  raster_pieces ms left (map (fun i => left + slice_width * of_nat i) (seq 0 width)) cross_min cross_max arr.

(** src/monotone.rs:175-183 (test helper [verify_scanner_area]): the rows of one piece, summed
    up over all columns.  The number of slices is 16 in the code, any number here. *)
Fixpoint slice_cols (lo hi : Qc) (s : scanner) (rights : list Qc) (arr : list Qc) : res (list Qc) :=
  match rights with
  | [] => Ok arr
  | right_ :: rights' => let* (s', arr') := cross_area s right_ lo hi arr in slice_cols lo hi s' rights' arr'
  end.
(** src/monotone.rs:157-190; [iter().sum()] is a sum from the left. *)
Definition scanned_area (presort : list event -> list event) (pick : list nat -> nat -> nat -> nat)
    (poly : polygon) (slices : nat) : res Qc :=
  let* bbox := expect (poly_bounding_rect poly) "src/monotone.rs:160 check_ops_scanner: bounding_rect" in
  let left := cx (r_min bbox) in
  let bot := cy (r_min bbox) in
  let right := cx (r_max bbox) in
  let top := cy (r_max bbox) in
  let slice_width := (right - left) / of_nat slices in
  let* ms := monotone_chains presort pick poly in
  fold_res (fun total m =>
      let* s := mp_scan_lines m left in
      let* arr := slice_cols bot top s (map (fun i => qmin right (left + of_nat (i + 1) * slice_width)) (seq 0 slices)) (repeat 0 slices) in
      Ok (total + fold_left Qcplus arr 0))
    0 ms.
