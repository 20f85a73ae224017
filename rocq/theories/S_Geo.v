(** Specification: plane geometry over the rationals, independent of the
    program.  Points are pairs of rationals; the sweep visits points in
    lexicographic order. *)
Require Import List.
From Verif Require Import Scalar M_Events.
Import ListNotations.
Local Open Scope Qc_scope.

(** [a] is strictly before [b]: further left, or on the same vertical and
    lower. *)
Definition lex_lt (a b : pt) : Prop := cx a < cx b \/ (cx a = cx b /\ cy a < cy b).
Definition lex_le (a b : pt) : Prop := lex_lt a b \/ a = b.

(** [r] is on the closed straight segment from [p] to [q]. *)
Definition on_seg (p q r : pt) : Prop :=
  exists t : Qc, 0 <= t /\ t <= 1 /\
    cx r = cx p + t * (cx q - cx p) /\
    cy r = cy p + t * (cy q - cy p).

(** Twice the signed area of the triangle [p q r]; positive when [r] is to the
    left of the directed line from [p] to [q]. *)
Definition cross (p q r : pt) : Qc :=
  (cx q - cx p) * (cy r - cy p) - (cy q - cy p) * (cx r - cx p).

(** The sweep line is the vertical line tilted by an infinitesimal amount, so
    that it meets the points of one vertical in order of their height.  For a
    tilt [e] the abscissa of a point along the sweep is [tilt e p]. *)
Definition tilt (e : Qc) (p : pt) : Qc := cx p + e * cy p.

(** Segment [p1 q1] is below segment [p2 q2] immediately after the sweep has
    passed [z]: for every small enough tilt and every small enough advance [d]
    beyond [z], the sweep line meets both segments, the first one at a lower
    point. *)
Definition below_just_after (z p1 q1 p2 q2 : pt) : Prop :=
  exists e0, 0 < e0 /\ forall e, 0 < e -> e < e0 ->
  exists d0, 0 < d0 /\ forall d, 0 < d -> d < d0 ->
  exists w1 w2,
    on_seg p1 q1 w1 /\ on_seg p2 q2 w2 /\
    tilt e w1 = tilt e z + d /\ tilt e w2 = tilt e z + d /\
    cy w1 < cy w2.
