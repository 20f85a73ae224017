(** Model of src/line_or_point.rs on exact scalars. *)
Require Import List String Bool.
From Verif Require Import Base Scalar M_Events M_Geo.
Import ListNotations.
Local Open Scope string_scope.
Local Open Scope Qc_scope.

(** line_or_point.rs:22-26. *)
Inductive lop : Type :=
| Point (p : pt)
| Line (p q : pt).

(** line_or_point.rs:29-39. *)
Definition lop_of_line (l : line) : lop :=
  let start := l_start l in
  let end_ := l_end l in
  match pcmp start end_ with
  | Lt => Line start end_
  | Eq => Point start
  | Gt => Line end_ start
  end.
(** line_or_point.rs:42-46. *)
Definition lop_of_coord (c : pt) : lop := Point c.

(** line_or_point.rs:51-53. *)
Definition is_line (g : lop) : bool := match g with Line _ _ => true | Point _ => false end.
(** line_or_point.rs:57-62. *)
Definition lop_line (g : lop) : line :=
  match g with
  | Line p q => mkLine p q
  | Point p => mkLine p p
  end.
(** line_or_point.rs:65-70. *)
Definition lop_first (g : lop) : pt := match g with Point p => p | Line p _ => p end.
(** line_or_point.rs:72-77. *)
Definition lop_second (g : lop) : pt := match g with Point p => p | Line _ q => q end.

(** line_or_point.rs:83-111. *)
Definition intersect_line_with (proper : line -> line -> pt) (self other : lop) : res (option lop) :=
  let* _ := check (is_line other) "line_or_point.rs:84 tried to intersect with a point variant!" in
  let ln := lop_line other in
  match self with
  | Point p =>
      Ok (if is_collinear (orient2d (l_start ln) p (l_end ln))
          then (if pleb (l_start ln) p && pleb p (l_end ln) then Some self else None)
          else None)
  | Line p q =>
      Ok (option_map
            (fun l => match l with
                      | SinglePoint i _ => Point i
                      | CollinearSeg i => lop_of_line i
                      end)
            (line_intersection_with proper (mkLine p q) ln))
  end.
Definition intersect_line : lop -> lop -> res (option lop) := intersect_line_with proper_intersection.

(** line_or_point.rs:116-173.  [next_up] is [next_after] of line 150. *)
Definition intersect_line_ordered_with (proper : line -> line -> pt) (next_up : Qc -> res Qc) (self other : lop) : res (option lop) :=
  let* o := intersect_line_with proper self other in
  match o with
  | Some (Point p) =>
      let c := lop_first self in
      let* x := (if qeqb (cx p) (cx c) && qltb (cy p) (cy c) then next_up (cx p) else Ok (cx p)) in
      let p' := mkC x (cy p) in
      let* _ := check (pleb (lop_first self) p') "line_or_point.rs:154 intersection not in total-order with first line" in
      let* _ := check (pleb (lop_first other) p') "line_or_point.rs:162 intersection not in total-order with second line" in
      Ok (Some (Point p'))
  | e => Ok e
  end.
(** In exact arithmetic there is no next representable number: a call of
    [next_after] is an explicit failure, which the theorems show never happens. *)
Definition intersect_line_ordered : lop -> lop -> res (option lop) :=
  intersect_line_ordered_with proper_intersection (fun _ => Panic "line_or_point.rs:150 next_after needed").

(** The arithmetic of the scalars, as far as the sweep depends on it: how two
    geometries are intersected while sweeping, and how the two lines of a
    reported pair are.  Everything else is comparisons and [orient2d], which are
    exact also for floats ([geo] uses a robust predicate for them).
    [exact] is the default: where nothing is said the arithmetic is exact.
    M_Round.v has the instances that round. *)
Class arith : Type := mkArith {
  meet : lop -> lop -> res (option lop);
  common : line -> line -> option line_intersection_result
}.
#[global] Instance exact : arith | 100 := mkArith intersect_line_ordered line_intersection.

(** line_or_point.rs:259-265. *)
Definition orientation_as_ordering (o : orientation) : comparison :=
  match o with
  | CounterClockwise => Lt
  | Clockwise => Gt
  | Collinear => Eq
  end.
(** Ordering::then. *)
Definition ord_then (a b : comparison) : comparison := match a with Eq => b | c => c end.

(** line_or_point.rs:223-231, Line against Point. *)
Definition cmp_line_point (p q r : pt) : option comparison :=
  if pltb q r || pltb r p then None
  else Some (ord_then (orientation_as_ordering (orient2d p q r)) Gt).
(** line_or_point.rs:236-251, two lines with [p1 <= p2]. *)
Definition cmp_line_line_ordered (p1 q1 p2 q2 : pt) : option comparison :=
  if pleb q2 p1 || pleb q2 p2 then None
  else Some (ord_then (orientation_as_ordering (orient2d p1 q1 p2))
                      (orientation_as_ordering (orient2d p1 q1 q2))).
(** line_or_point.rs:232-252, two lines.  The recursive call of line 234 has
    its arguments swapped, hence [p2 < p1] there, so it takes the other
    branch. *)
Definition cmp_line_line (p1 q1 p2 q2 : pt) : option comparison :=
  if pltb p2 p1 then option_map CompOpp (cmp_line_line_ordered p2 q2 p1 q1)
  else cmp_line_line_ordered p1 q1 p2 q2.
(** line_or_point.rs:209-254. *)
Definition lop_partial_cmp (self other : lop) : option comparison :=
  match self, other with
  | Point p, Point q => if peqb p q then Some Eq else None
  | Point r, Line p q => option_map CompOpp (cmp_line_point p q r)
  | Line p q, Point r => cmp_line_point p q r
  | Line p1 q1, Line p2 q2 => cmp_line_line p1 q1 p2 q2
  end.
(** line_or_point.rs:192-197. *)
Definition lop_eqb (self other : lop) : bool :=
  match lop_partial_cmp self other with Some Eq => true | _ => false end.
