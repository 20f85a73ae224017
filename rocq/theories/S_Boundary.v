(** Specification of the boundary of a region made of pieces of edges. *)
Require Import List Bool.
From Verif Require Import Base Scalar M_Events M_Geo M_LineOrPoint S_Geo M_Rings.
Import ListNotations.
Local Open Scope Qc_scope.

Section Boundary.
(** The edges, each given by its two ends. *)
Variable E : list (pt * pt).

(** Nothing happens at [m]: no edge ends there, and any two edges through [m]
    run along each other. *)
Definition plain (m : pt) : Prop :=
  (forall a b, In (a, b) E -> m <> a /\ m <> b) /\
  (forall a b a' b', In (a, b) E -> In (a', b') E -> on_seg a b m -> on_seg a' b' m ->
     exists r, r <> m /\ on_seg a b r /\ on_seg a' b' r).
Definition strictly_inside (x y m : pt) : Prop := on_seg x y m /\ m <> x /\ m <> y.
(** [q] can be reached from [m] on a straight way without meeting an edge. *)
Definition visible (m q : pt) : Prop :=
  forall r, on_seg m q r -> r <> m -> forall a b, In (a, b) E -> ~ on_seg a b r.

(** A part of an edge that cannot be made longer without something happening. *)
Definition piece (x y : pt) : Prop :=
  lex_lt x y /\ (exists a b, In (a, b) E /\ on_seg a b x /\ on_seg a b y) /\
  ~ plain x /\ ~ plain y /\ (forall m, strictly_inside x y m -> plain m).

(** [out] is the boundary of the region [inr]: a list of pieces, none twice,
    with the region on exactly one side of each - on the left hand side when
    walking in lexicographic order if the piece is marked [Ccw], on the right
    hand side if it is marked [Cw] -, and no piece missing. *)
Record boundary (inr : pt -> bool) (out : list (lop * winding)) : Prop := {
  bd_piece : forall g w, In (g, w) out -> exists x y, g = Line x y /\ piece x y;
  bd_once : NoDup (map fst out);
  bd_left : forall x y w m q, In (Line x y, w) out -> strictly_inside x y m -> visible m q -> 0 < cross x y q -> (inr q = true <-> w = Ccw);
  bd_right : forall x y w m q, In (Line x y, w) out -> strictly_inside x y m -> visible m q -> cross x y q < 0 -> (inr q = true <-> w = Cw);
  bd_all : forall a b m q q', In (a, b) E -> on_seg a b m -> plain m -> visible m q -> visible m q' ->
    0 < cross a b q -> cross a b q' < 0 -> inr q <> inr q' -> exists x y w, In (Line x y, w) out /\ strictly_inside x y m
}.
End Boundary.
