(** Arithmetic that rounds.

    [geo] decides orientations of [f64] coordinates with a robust predicate, and
    everything else the sweep does with coordinates is comparing and copying
    them, except for two things: the point at which two lines cross properly is
    computed (line_intersection.rs, proper_intersection), and that point may be
    moved to the next larger number (line_or_point.rs:150).  Both are left open
    here: [proper] and [next_up] may be any functions.  The coordinates are the
    values of finite floats; [NaN]s and infinities are not values of this type. *)
Require Import List String Bool.
From Verif Require Import Base Scalar M_Events M_Geo M_LineOrPoint.

Definition rounded (proper : line -> line -> pt) (next_up : Qc -> Qc) : arith :=
  mkArith (intersect_line_ordered_with proper (fun x => Ok (next_up x))) (line_intersection_with proper).
