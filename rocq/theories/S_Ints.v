(** Specification of what a user of [Intersections] sees. *)
Require Import List Bool Arith.
From Verif Require Import Base Scalar M_Events M_Geo S_Geo S_Sweep.
Import ListNotations.

(** The same input may occur several times in a collection: the triples [rn] are
    [r] with both inputs given as positions of the collection. *)
Definition same_report {C} (input : list C) (t : C * C * line_intersection_result) (tn : nat * nat * line_intersection_result) : Prop :=
  nth_error input (fst (fst tn)) = Some (fst (fst t)) /\ nth_error input (snd (fst tn)) = Some (snd (fst t)) /\ snd tn = snd t.
(** [p] is not the left end of [l] (the end that comes first in sweep order); a
    line that is a single point has none. *)
Definition not_left_end (l : line) (p : pt) : Prop := forall a z, ends l a z -> lex_lt a z -> p <> a.
(** A triple about the positions [i] and [j], in either order. *)
Definition is_pair (i j : nat) (t : nat * nat * line_intersection_result) : bool :=
  ((fst (fst t) =? i) && (snd (fst t) =? j)) || ((fst (fst t) =? j) && (snd (fst t) =? i)).
