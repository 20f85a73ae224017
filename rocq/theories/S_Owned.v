(** Specification for C88: calls of [Intersections::next]. *)
Require Import List.
From Verif Require Import Base Scalar M_Events M_Geo M_LineOrPoint M_Sweep M_Crossings.
From Verif Require Import S_Geo S_Sweep S_Round.
Import ListNotations.

(** [next()] called [k] times, and what it returned.  [fuel] bounds the work of
    one call. *)
Fixpoint in_calls {C} {ar : arith} (line_of : C -> line) (tie : nat -> nat) (fuel k : nat) (s : intersections)
  : res (list (option (C * C * line_intersection_result))) :=
  match k with
  | O => Ok []
  | S k' =>
      let* (s', o) := in_next line_of tie fuel s in
      let* rest := in_calls line_of tie fuel k' s' in
      Ok (o :: rest)
  end.

(** The intersection [i] of [l] and [m], when the point of a proper crossing is
    computed by [proper]: the lines do meet, and [i] is exactly the set of their
    common points, except that where they cross properly the point is the one
    that was computed. *)
Definition right_up_to_rounding (proper : line -> line -> pt) (l m : line) (i : line_intersection_result) : Prop :=
  match i with
  | SinglePoint q true => q = proper l m /\ exists r, cross_properly l m r
  | _ => exact_intersection l m i
  end.
