(** Specification: corners of a polygon where its boundary turns back. *)
Require Import List.
From Verif Require Import Scalar M_Events M_Geo S_Geo M_MonoPoly S_Mono M_Rings S_Op.
Import ListNotations.

Definition vertex_of (P : polygon) (v : pt) : Prop := exists a b, In (a, b) (all_edges [P]) /\ (a = v \/ b = v).
(** A vertex before both its neighbours, and one after both, by abscissa and then
    ordinate. *)
Definition first_corner (P : polygon) (v : pt) : Prop := vertex_of P v /\
  forall a b, In (a, b) (all_edges [P]) -> (a = v -> lex_lt v b) /\ (b = v -> lex_lt v a).
Definition last_corner (P : polygon) (v : pt) : Prop := vertex_of P v /\
  forall a b, In (a, b) (all_edges [P]) -> (a = v -> lex_lt b v) /\ (b = v -> lex_lt a v).
