(** Specification: moving the input.  A map of the plane is applied to every
    coordinate of the input or of the output. *)
Require Import List.
From Verif Require Import Base Scalar M_Events M_Geo M_LineOrPoint M_MonoPoly M_Sweep M_Crossings S_Geo.
Import ListNotations.
Local Open Scope Qc_scope.

Section Moved.
Variable f : pt -> pt.
Definition moved_line (l : line) : line := mkLine (f (l_start l)) (f (l_end l)).
Definition moved_lop (x : lop) : lop := match x with Point p => Point (f p) | Line p q => Line (f p) (f q) end.
Definition moved_polygon (p : polygon) : polygon := mkPolygon (map f (pg_exterior p)) (map (map f) (pg_interiors p)).
Definition moved_piece (m : mono_poly) : mono_poly := mkMono (map f (mp_top m)) (map f (mp_bot m)).
Definition moved_event (e : event) : event := mkEvent (f (ev_point e)) (ev_ty e) (ev_key e).
(** What [line_intersection] and the two iterators of the crossings module return. *)
Definition moved_intersection (i : line_intersection_result) : line_intersection_result :=
  match i with SinglePoint p b => SinglePoint (f p) b | CollinearSeg l => CollinearSeg (moved_line l) end.
(** A crossing: [h] moves the input itself. *)
Definition moved_crossing {C D} (h : C -> D) (x : crossing C) : crossing D :=
  mkCrossing (h (cr_cross x)) (moved_lop (cr_line x)) (cr_first x) (cr_overlap x) (cr_left x) (cr_key x).
Definition moved_point {C D} (h : C -> D) (x : pt * list (crossing C)) : pt * list (crossing D) :=
  (f (fst x), map (moved_crossing h) (snd x)).
Definition moved_pair {C D} (h : C -> D) (x : C * C * line_intersection_result) : D * D * line_intersection_result :=
  (h (fst (fst x)), h (snd (fst x)), moved_intersection (snd x)).
End Moved.
(** The outcome of a run, a value or a panic or not enough fuel, with the value moved. *)
Definition moved_result {A B} (h : A -> B) (r : res A) : res B :=
  match r with Ok a => Ok (h a) | Panic s => Panic s | NoFuel => NoFuel end.

(** [f] keeps the order in which the sweep visits the points of [V]. *)
Definition keeps_order_on (V : pt -> Prop) (f : pt -> pt) : Prop :=
  forall u v, V u -> V v -> lex_lt u v -> lex_lt (f u) (f v).
(** [f] keeps the orientation of every triple from [V]; for a right turn swap two
    points. *)
Definition keeps_turns_on (V : pt -> Prop) (f : pt -> pt) : Prop :=
  forall u v w, V u -> V v -> V w -> (0 < cross u v w -> 0 < cross (f u) (f v) (f w)) /\ (cross u v w = 0 -> cross (f u) (f v) (f w) = 0).
Definition vertex_of (P : polygon) (v : pt) : Prop := exists r, In r (pg_exterior P :: pg_interiors P) /\ In v r.

(** The affine maps of the plane. *)
Definition affine (f : pt -> pt) : Prop :=
  exists a b c d e h, forall p, f p = mkC (a * cx p + b * cy p + c) (d * cx p + e * cy p + h).
Definition keeps_order (f : pt -> pt) : Prop := forall u v, lex_lt u v -> lex_lt (f u) (f v).
