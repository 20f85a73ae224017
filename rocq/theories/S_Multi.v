(** Specification: multi-polygons as returned by boolean operations, and their area. *)
Require Import List Bool Arith.
From Verif Require Import Base Scalar M_Events M_Geo M_MonoPoly S_Geo S_Mono S_Op S_Laminar S_Chains S_Cells.
Import ListNotations.
Local Open Scope list_scope.

(** Every polygon is valid, edges of all polygons meet only at their ends, rings not at
    all, and no point is in two polygons. *)
Record valid_multi (mp : list polygon) : Prop := {
  vm_each : forall p, In p mp -> valid_polygon p;
  vm_edges : ForallOrdPairs meet_at_ends (all_edges mp);
  vm_apart : ForallOrdPairs apart (rings_in mp);
  vm_once : forall q, (List.length (filter (fun p => inside [p] q) mp) <= 1)%nat }.
(** What is needed to speak of the area: valid polygons that do not overlap. They may have
    vertices and edges in common. *)
Record tiles (mp : list polygon) : Prop := {
  ti_each : forall p, In p mp -> valid_polygon p;
  ti_once : forall q, (List.length (filter (fun p => inside [p] q) mp) <= 1)%nat }.
Definition multi_area (mp : list polygon) : Qc := sum polygon_area mp.
(** The area of the part inside the rectangle from (a, c) to (b, d). *)
Definition cells (mp : list polygon) (a b c d : Qc) : Qc := sum (fun p => cell_area p a b c d) mp.
