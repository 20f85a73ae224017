(** Model of src/bops/laminar.rs and of the whole boolean operation,
    src/bops.rs:26-50, on exact scalars.  Logging is dropped.

    An [&Edge] handed to [CrossingsIter] is the position of the edge in [edges];
    the [Cell] of an edge is a field of the edge and writing to it replaces the
    edge in the list. *)
Require Import List String Bool Arith.
From Verif Require Import Base Scalar M_Events M_Geo M_LineOrPoint M_Slab M_Sweep M_Crossings M_MonoPoly M_Rings M_Op.
Import ListNotations.
Local Open Scope string_scope.
Local Open Scope list_scope.

(** laminar.rs:103-108. *)
Record ledge : Type := mkLedge { le_geom : lop; le_ring : nat; le_region : option nat }.

(** laminar.rs:12-24: the edges of the rings, the ring number [i] first. *)
Fixpoint laminar_edges (i : nat) (rings : list ring) : res (list ledge) :=
  match rings with
  | [] => Ok []
  | r :: rs =>
      let* _ := check (ls_is_closed (r_coords r)) "laminar.rs:16 debug_assert" in
      let* rest := laminar_edges (S i) rs in
      Ok (map (fun l => mkLedge (lop_of_line l) i None) (ls_lines (r_coords r)) ++ rest)
  end.

(** laminar.rs:28-38. *)
Definition laminar_compare (a b : crossing nat) : res comparison :=
  match cr_left a, cr_left b with
  | true, false => Ok Lt
  | false, true => Ok Gt
  | false, false => Ok Eq
  | true, true => expect (lop_partial_cmp (cr_line a) (cr_line b)) "laminar.rs:35 unwrap on None"
  end.
(** laminar.rs:39, [sort_by]: a stable sort.  It is modelled by insertion sort
    (the algorithm used for at most twenty elements). *)
Fixpoint laminar_insert (x : crossing nat) (l : list (crossing nat)) : res (list (crossing nat)) :=
  match l with
  | [] => Ok [x]
  | y :: l' =>
      let* o := laminar_compare x y in
      match o with
      | Gt => let* r := laminar_insert x l' in Ok (y :: r)
      | _ => Ok (x :: l)
      end
  end.
Fixpoint laminar_sort (l : list (crossing nat)) : res (list (crossing nat)) :=
  match l with
  | [] => Ok []
  | x :: l' => let* r := laminar_sort l' in laminar_insert x r
  end.

(** Dereferencing [crossable], and [rings[i]]. *)
Definition ledge_at (es : list ledge) (i : nat) : res ledge := expect (nth_error es i) "no such edge".
Definition ring_at (rings : list ring) (i : nat) : res ring := expect (nth_error rings i) "laminar.rs: ring index out of bounds".

(** laminar.rs:60-77: the value of [below] above an edge of ring number [i], and
    [parents]. *)
Definition laminar_cross (rings : list ring) (i : nat) (parents : list nat) (below : option nat) : res (option nat * list nat) :=
  let* r := ring_at rings i in
  match below with
  | Some ext =>
      if r_hole r then Ok (None, list_set i ext parents)
      else
        let* _ := check (i =? ext)%nat "laminar.rs:66 matching idx" in
        Ok (None, parents)
  | None =>
      if r_hole r then
        let* p := expect (nth_error parents i) "laminar.rs:72 index out of bounds" in
        Ok (Some p, parents)
      else Ok (Some i, parents)
  end.
(** laminar.rs:54-82: [position] goes through the crossings as long as they are
    [at_left]. *)
Fixpoint laminar_starts (rings : list ring) (es : list ledge) (parents : list nat) (l : list (crossing nat)) (below : option nat)
  : res (list ledge * list nat) :=
  match l with
  | [] => Ok (es, parents)
  | c :: l' =>
      if negb (cr_left c) then Ok (es, parents)
      else
        let* _ := check (negb (cr_overlap c)) "laminar.rs:58 laminar are non-overlapping" in
        let* e := ledge_at es (cr_cross c) in
        let* (below', parents') := laminar_cross rings (le_ring e) parents below in
        laminar_starts rings (list_set (cr_cross c) (mkLedge (le_geom e) (le_ring e) below') es) parents' l' below'
  end.

(** laminar.rs:28-82, one point: [it] is the iterator after [next]. *)
Definition laminar_point (rings : list ring) (it : sweep nat) (es : list ledge) (parents : list nat)
  : res (sweep nat * list ledge * list nat) :=
  let* l := laminar_sort (ci_intersections it) in
  let it1 := set_out l it in
  match l with
  | [] => Panic "laminar.rs:42 unwrap on None"
  | first :: _ =>
      if negb (cr_left first) then Ok (it1, es, parents)
      else
        let* (it2, active) := prev_active it1 first in
        let* below :=
          match active with
          | Some sg => let* e := ledge_at es (sg_cross sg) in Ok (le_region e)
          | None => Ok None
          end in
        let* (es', parents') := laminar_starts rings es parents l below in
        Ok (it2, es', parents')
  end.

(** The geometry of an edge given by its position: laminar.rs:110-116. *)
Definition ledge_line (es : list ledge) (i : nat) : line :=
  match nth_error es i with Some e => lop_line (le_geom e) | None => mkLine (mkC 0%Qc 0%Qc) (mkC 0%Qc 0%Qc) end.

(** laminar.rs:27-83. *)
Fixpoint laminar_loop {ar : arith} (tie : nat -> nat) (n fuel : nat) (ln : nat -> line) (rings : list ring) (it : sweep nat) (es : list ledge) (parents : list nat)
  : res (list nat) :=
  match n with
  | O => NoFuel
  | S n' =>
      let* (it', o) := ci_next ln tie fuel it in
      match o with
      | None => Ok parents
      | Some _ =>
          let* (it'', es', parents') := laminar_point rings it' es parents in
          laminar_loop tie n' fuel ln rings it'' es' parents'
      end
  end.
(** laminar.rs:11-83: the rings in which the holes lie. *)
Definition find_parents {ar : arith} (tie : nat -> nat) (fuel : nat) (rings : list ring) : res (list nat) :=
  let* es := laminar_edges 0 rings in
  let* it := ci_from_iter (ledge_line es) (seq 0 (List.length es)) in
  laminar_loop tie fuel fuel (ledge_line es) rings it es (repeat 0%nat (List.length rings)).

(** Polygon::interiors_push. *)
Definition interiors_push (p : polygon) (r : list pt) : polygon := mkPolygon (pg_exterior p) (pg_interiors p ++ [ls_close r]).
(** [polygons[i]], made from ring number [i] if there is none. *)
Definition polygon_at (rings : list ring) (polygons : list (option polygon)) (i : nat) : res polygon :=
  let* o := expect (nth_error polygons i) "laminar.rs: polygon index out of bounds" in
  match o with
  | Some p => Ok p
  | None => let* r := ring_at rings i in Ok (polygon_new (r_coords r) [])
  end.
(** laminar.rs:86-98, the ring number [i] and those that follow it. *)
Fixpoint place_rings (rings : list ring) (parents : list nat) (i : nat) (rs : list ring) (polygons : list (option polygon))
  : res (list (option polygon)) :=
  match rs with
  | [] => Ok polygons
  | r :: rs' =>
      let* polygons' :=
        (if r_hole r then
           let* j := expect (nth_error parents i) "laminar.rs:88 index out of bounds" in
           let* p := polygon_at rings polygons j in
           Ok (list_set j (Some (interiors_push p (r_coords r))) polygons)
         else
           let* p := polygon_at rings polygons i in
           Ok (list_set i (Some p) polygons)) in
      place_rings rings parents (S i) rs' polygons'
  end.
(** laminar.rs:85-100. *)
Definition build_polygons (rings : list ring) (parents : list nat) : res (list polygon) :=
  let* ps := place_rings rings parents 0 rings (repeat None (List.length rings)) in
  Ok (flat_map (fun o => match o with Some p => [p] | None => [] end) ps).

(** laminar.rs:10-101. *)
Definition assemble {ar : arith} (tie : nat -> nat) (fuel : nat) (rings : list ring) : res (list polygon) :=
  let* parents := find_parents tie fuel rings in
  build_polygons rings parents.

(** bops.rs:40-46; for single polygons, bops.rs:29-35, the lists have one
    element.  [fuel'] and [tie'] belong to the second sweep. *)
Definition boolean_op {ar : arith} (tie : nat -> nat) (presort : list (crossing nat) -> list (crossing nat)) (fuel : nat) (tie' : nat -> nat) (fuel' : nat)
  (ty : op_type) (a b : list polygon) : res (list polygon) :=
  let* o := op_input ty a b in
  let* rings := op_sweep tie presort fuel o in
  assemble tie' fuel' rings.
