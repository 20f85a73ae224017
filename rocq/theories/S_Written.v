(** Specification of C84: the same polygons written differently. *)
Require Import List Permutation.
From Verif Require Import Base Scalar M_Events M_Geo S_Geo M_MonoPoly M_Op S_Op.
Import ListNotations.

(** The closed ring [r'] starts at another vertex than [r]. *)
Definition restarted (r r' : list pt) : Prop :=
  exists p u q v, r = p :: u ++ q :: v ++ [p] /\ r' = q :: v ++ p :: u ++ [q].
(** The same ring, possibly started elsewhere and possibly run backwards. *)
Definition same_ring (r r' : list pt) : Prop :=
  exists s, (s = r \/ restarted r s) /\ (r' = s \/ r' = rev s).
(** The same things in some order. *)
Definition same_up_to {X} (same : X -> X -> Prop) (l l' : list X) : Prop :=
  exists l1, Permutation l1 l' /\ Forall2 same l l1.
(** The same polygon, and the same collection of polygons. *)
Definition same_polygon (p p' : polygon) : Prop :=
  same_ring (pg_exterior p) (pg_exterior p') /\ same_up_to same_ring (pg_interiors p) (pg_interiors p').
Definition same_polygons (mp mp' : list polygon) : Prop := same_up_to same_polygon mp mp'.
(** The same rings, however they are distributed among polygons. *)
Definition same_rings (mp mp' : list polygon) : Prop := same_up_to same_ring (rings_in mp) (rings_in mp').
