(** Model of the loops over [cross_ubounds] and [cross_bounds]:
    benches/utils/rasterize.rs:12-44 and src/monotone.rs:95-155 (test helper
    [verify_scanner_bounds]).  Exact scalars instead of [f64]. *)
Require Import List String Bool Arith ZArith.
From Verif Require Import Base Scalar M_Events M_Geo M_Slab M_MonoPoly M_Raster M_Op M_MonoSweep M_Chains M_RasterUse S_Mono S_Chains.
Import ListNotations.
Local Open Scope string_scope.
Local Open Scope list_scope.
Local Open Scope Qc_scope.

(** The calls of [cross_ubounds] for all columns of a piece, one after the other, and their
    results: benches/utils/rasterize.rs:30-32 without what is done with them. *)
Fixpoint ubounds_cols (lo hi : Qc) (n : nat) (s : scanner) (rights : list Qc) : res (list (nat * nat)) :=
  match rights with
  | [] => Ok []
  | right_ :: rights' =>
      let* (s', b) := cross_ubounds s right_ lo hi n in
      let* r := ubounds_cols lo hi n s' rights' in
      Ok (b :: r)
  end.
(** benches/utils/rasterize.rs:27-32. *)
Definition piece_ubounds (lo hi : Qc) (n : nat) (left : Qc) (rights : list Qc) (m : mono_poly) : res (list (nat * nat)) :=
  let* s := mp_scan_lines m left in ubounds_cols lo hi n s rights.

(** benches/utils/rasterize.rs:36-38: [slice[j] = true] for [n] rows from [j] on; the slice
    begins at [start] and has [height] entries. *)
Fixpoint mark_rows (start height j n : nat) (arr : list bool) : res (list bool) :=
  match n with
  | O => Ok arr
  | S n' =>
      let* _ := check (j <? height)%nat "benches/utils/rasterize.rs:37 index out of bounds" in
      mark_rows start height (S j) n' (list_set (start + j) true arr)
  end.
(** benches/utils/rasterize.rs:29-40. *)
Fixpoint mark_cols (lo hi : Qc) (height : nat) (s : scanner) (rights : list Qc) (arr_start : nat) (arr : list bool) : res (list bool) :=
  match rights with
  | [] => Ok arr
  | right_ :: rights' =>
      let* (s', b) := cross_ubounds s right_ lo hi height in
      let '(jmin, jmax) := b in
      if (jmax <? jmin)%nat then mark_cols lo hi height s' rights' arr_start arr
      else
        let* _ := check (arr_start + height <=? List.length arr)%nat "benches/utils/rasterize.rs:35 range out of bounds" in
        let* arr' := mark_rows arr_start height jmin (S jmax - jmin) arr in
        mark_cols lo hi height s' rights' (arr_start + height) arr'
  end.
(** benches/utils/rasterize.rs:12-44.  The entry [(i, j)] of the array that is returned is
    number [i * height + j] of the vector, where [height] is the exchanged one. *)
Definition our_rasterize (presort : list event -> list event) (pick : list nat -> nat -> nat -> nat)
    (poly : polygon) (width height : nat) : res (list bool) :=
  let arr := repeat false (height * width) in
  let poly := swap_poly poly in
  let '(width, height) := (height, width) in
  let* bbox := expect (poly_bounding_rect poly) "benches/utils/rasterize.rs:18 unwrap on None" in
  let left := cx (r_min bbox) in
  let right := cx (r_max bbox) in
  let slice_width := (right - left) / of_nat width in
  let cross_min := cy (r_min bbox) in
  let cross_max := cy (r_max bbox) in
  let* ms := monotone_chains presort pick poly in
  fold_res (fun arr m =>
      let* s := mp_scan_lines m left in
      mark_cols cross_min cross_max height s (map (fun i => left + slice_width * of_nat i) (seq 0 width)) 0 arr)
    arr ms.

(** geo: the unsigned area of a polygon without holes. *)
Definition exterior_area (p : polygon) : Qc := magnitude (shoelace (pg_exterior p)).
(** src/monotone.rs:123-137: the bounds of one piece, column by column. *)
Fixpoint bounds_cols (bot top cell_area : Qc) (n : nat) (s : scanner) (rights : list Qc) (lb ub : Qc) : res (Qc * Qc) :=
  match rights with
  | [] => Ok (lb, ub)
  | right_ :: rights' =>
      let curr_left := t_x (sc_curr s) in
      let* (s', o) := cross_bounds s right_ bot top n in
      match o with
      | None => bounds_cols bot top cell_area n s' rights' lb ub
      | Some (j_min, j_max, i_min, i_max) =>
          let curr_right := qmin (t_x (sc_curr s')) right_ in
          let curr_ub := of_nat (1 + j_max - j_min) * cell_area in
          let* lb' :=
            (if qltb i_min i_max then
               let curr_lb := (i_max - i_min) * (curr_right - curr_left) in
               let* _ := check (qleb curr_lb curr_ub) "src/monotone.rs:133 assert" in
               Ok (lb + curr_lb)
             else Ok lb) in
          bounds_cols bot top cell_area n s' rights' lb' (ub + curr_ub)
      end
  end.
(** src/monotone.rs:105-147, for one number of slices, with the borders of the grid given
    (they are the bounding rectangle, moved outwards at random): the two totals. *)
Definition scanner_bounds (presort : list event -> list event) (pick : list nat -> nat -> nat -> nat)
    (poly : polygon) (left right bot top : Qc) (slices : nat) : res (Qc * Qc) :=
  let slice_width := (right - left) / of_nat slices in
  let slice_height := (top - bot) / of_nat slices in
  let cell_area := slice_width * slice_height in
  let* ms := monotone_chains presort pick poly in
  fold_res (fun (t : Qc * Qc) m =>
      let* s := mp_scan_lines m left in
      let* (area_lb, area_ub) := bounds_cols bot top cell_area slices s (map (fun i => qmin right (left + of_nat (i + 1) * slice_width)) (seq 0 slices)) 0 0 in
      let* pg := mp_into_polygon m in
      let true_area := exterior_area pg in
      let* _ := check (qleb area_lb true_area) "src/monotone.rs:143 assert" in
      let* _ := check (qleb true_area area_ub) "src/monotone.rs:144 assert" in
      Ok (fst t + area_lb, snd t + area_ub))
    (0, 0) ms.
