(** Model of the parts of the external crate geo 0.20 used by the sweep:
    kernels::orient2d (exact predicate) and algorithm::line_intersection.
    Written from the crate's source as published; it is part of the trusted
    base.  Arithmetic is exact. *)
Require Import List String Bool.
From Verif Require Import Base Scalar M_Events.
Import ListNotations.
Local Open Scope string_scope.
Local Open Scope Qc_scope.

Inductive orientation : Type := CounterClockwise | Clockwise | Collinear.

(** kernels/mod.rs, Kernel::orient2d. *)
Definition orient2d_value (p q r : pt) : Qc :=
  (cx q - cx p) * (cy r - cy q) - (cy q - cy p) * (cx r - cx q).
Definition orient2d (p q r : pt) : orientation :=
  match orient2d_value p q r ?= 0 with
  | Gt => CounterClockwise
  | Lt => Clockwise
  | Eq => Collinear
  end.
Definition orient_eqb (a b : orientation) : bool :=
  match a, b with
  | CounterClockwise, CounterClockwise | Clockwise, Clockwise | Collinear, Collinear => true
  | _, _ => false
  end.

(** geo::Line. *)
Record line : Type := mkLine { l_start : pt; l_end : pt }.

Definition qmin (a b : Qc) : Qc := if qleb a b then a else b.
Definition qmax (a b : Qc) : Qc := if qleb a b then b else a.

(** geo::Rect with its minimum and maximum corner. *)
Record rect : Type := mkRect { r_min : pt; r_max : pt }.
(** bounding_rect.rs for Line. *)
Definition line_bounding_rect (l : line) : rect :=
  mkRect (mkC (qmin (cx (l_start l)) (cx (l_end l))) (qmin (cy (l_start l)) (cy (l_end l))))
         (mkC (qmax (cx (l_start l)) (cx (l_end l))) (qmax (cy (l_start l)) (cy (l_end l)))).
(** intersects/rect.rs, Rect x Rect. *)
Definition rect_intersects (a b : rect) : bool :=
  negb (qltb (cx (r_max a)) (cx (r_min b))) &&
  negb (qltb (cy (r_max a)) (cy (r_min b))) &&
  negb (qltb (cx (r_max b)) (cx (r_min a))) &&
  negb (qltb (cy (r_max b)) (cy (r_min a))).
(** intersects/rect.rs, Rect x Coordinate. *)
Definition rect_has (a : rect) (c : pt) : bool :=
  qleb (cx (r_min a)) (cx c) && qleb (cx c) (cx (r_max a)) &&
  qleb (cy (r_min a)) (cy c) && qleb (cy c) (cy (r_max a)).

(** line_intersection.rs, enum LineIntersection. *)
Inductive line_intersection_result : Type :=
| SinglePoint (intersection : pt) (is_proper : bool)
| CollinearSeg (intersection : line).

(** line_intersection.rs, collinear_intersection. *)
Definition collinear_intersection (p q : line) : option line_intersection_result :=
  let pb := line_bounding_rect p in
  let qb := line_bounding_rect q in
  let a := rect_has pb (l_start q) in
  let b := rect_has pb (l_end q) in
  let c := rect_has qb (l_start p) in
  let d := rect_has qb (l_end p) in
  if a && b then Some (CollinearSeg q)
  else if c && d then Some (CollinearSeg p)
  else if a && negb b && c && negb d && peqb (l_start q) (l_start p) then Some (SinglePoint (l_start q) false)
  else if a && c then Some (CollinearSeg (mkLine (l_start q) (l_start p)))
  else if a && negb b && negb c && d && peqb (l_start q) (l_end p) then Some (SinglePoint (l_start q) false)
  else if a && d then Some (CollinearSeg (mkLine (l_start q) (l_end p)))
  else if negb a && b && c && negb d && peqb (l_end q) (l_start p) then Some (SinglePoint (l_end q) false)
  else if b && c then Some (CollinearSeg (mkLine (l_end q) (l_start p)))
  else if negb a && b && negb c && d && peqb (l_end q) (l_end p) then Some (SinglePoint (l_end q) false)
  else if b && d then Some (CollinearSeg (mkLine (l_end q) (l_end p)))
  else None.

(** line_intersection.rs, raw_line_intersection (the conditioning translation
    by the midpoint of the overlap of the bounding boxes changes nothing in
    exact arithmetic and is omitted, as are the NaN/envelope fall-backs of
    proper_intersection, which exact arithmetic cannot reach). *)
Definition proper_intersection (p q : line) : pt :=
  let px := cy (l_start p) - cy (l_end p) in
  let py := cx (l_end p) - cx (l_start p) in
  let pw := cx (l_start p) * cy (l_end p) - cx (l_end p) * cy (l_start p) in
  let qx := cy (l_start q) - cy (l_end q) in
  let qy := cx (l_end q) - cx (l_start q) in
  let qw := cx (l_start q) * cy (l_end q) - cx (l_end q) * cy (l_start q) in
  let xw := py * qw - qy * pw in
  let yw := qx * pw - px * qw in
  let w := px * qy - qx * py in
  mkC (xw / w) (yw / w).

Definition same_side (a b : orientation) : bool :=
  match a, b with
  | Clockwise, Clockwise | CounterClockwise, CounterClockwise => true
  | _, _ => false
  end.
Definition is_collinear (a : orientation) : bool := orient_eqb a Collinear.

(** line_intersection.rs, line_intersection, with the point that is computed for
    two lines that cross properly left open. *)
Definition line_intersection_with (proper : line -> line -> pt) (p q : line) : option line_intersection_result :=
  if negb (rect_intersects (line_bounding_rect p) (line_bounding_rect q)) then None
  else
    let p_q1 := orient2d (l_start p) (l_end p) (l_start q) in
    let p_q2 := orient2d (l_start p) (l_end p) (l_end q) in
    if same_side p_q1 p_q2 then None
    else
      let q_p1 := orient2d (l_start q) (l_end q) (l_start p) in
      let q_p2 := orient2d (l_start q) (l_end q) (l_end p) in
      if same_side q_p1 q_p2 then None
      else if is_collinear p_q1 && is_collinear p_q2 && is_collinear q_p1 && is_collinear q_p2
      then collinear_intersection p q
      else if is_collinear p_q1 || is_collinear p_q2 || is_collinear q_p1 || is_collinear q_p2
      then
        let i :=
          if peqb (l_start p) (l_start q) || peqb (l_start p) (l_end q) then l_start p
          else if peqb (l_end p) (l_start q) || peqb (l_end p) (l_end q) then l_end p
          else if is_collinear p_q1 then l_start q
          else if is_collinear p_q2 then l_end q
          else if is_collinear q_p1 then l_start p
          else l_end p in
        Some (SinglePoint i false)
      else Some (SinglePoint (proper p q) true).
(** line_intersection.rs, line_intersection, in exact arithmetic. *)
Definition line_intersection : line -> line -> option line_intersection_result := line_intersection_with proper_intersection.
