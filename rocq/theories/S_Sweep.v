(** Specification of what a user of [CrossingsIter] and [Intersections] sees,
    in terms of plane geometry. *)
Require Import List String Bool.
From Verif Require Import Base Scalar M_Events M_Geo M_LineOrPoint M_Sweep M_Crossings S_Geo.
Import ListNotations.

(** The points of an input line (which may be a single point), and its two ends
    in sweep order. *)
Definition on_line (l : line) (r : pt) : Prop := on_seg (l_start l) (l_end l) r.
Definition is_end_of (l : line) (r : pt) : Prop := r = l_start l \/ r = l_end l.
Definition ends (l : line) (a z : pt) : Prop :=
  lex_le a z /\ ((a = l_start l /\ z = l_end l) \/ (a = l_end l /\ z = l_start l)).
(** The points of a reported piece, and where it starts and ends. *)
Definition on_piece (g : lop) (r : pt) : Prop :=
  match g with Point p => r = p | Line p q => on_seg p q r end.
Definition starts_at (g : lop) (p : pt) : Prop :=
  match g with Point q => p = q | Line a b => lex_lt a b /\ p = a end.
Definition ends_at (g : lop) (p : pt) : Prop :=
  match g with Point q => p = q | Line a b => lex_lt a b /\ p = b end.

(** [r] is the only common point of two lines. *)
Definition only_common (l l' : line) (r : pt) : Prop :=
  forall r', on_line l r' /\ on_line l' r' <-> r' = r.
(** Two lines share exactly the segment from [r1] to [r2]. *)
Definition common_stretch (l l' : line) (r1 r2 : pt) : Prop :=
  lex_lt r1 r2 /\ forall r', on_line l r' /\ on_line l' r' <-> on_seg r1 r2 r'.

(** Where something happens in a collection of lines: an end of one of them, or
    the only common point of two. *)
Definition event_point (ls : list line) (p : pt) : Prop :=
  (exists l, In l ls /\ is_end_of l p) \/
  (exists l l', In l ls /\ In l' ls /\ only_common l l' p).

(** The output: the yielded points, each with the crossings shown there. *)
Definition output (C : Type) : Type := list (pt * list (crossing C)).

(** [next()] called [k] times; what it returned and what [intersections()]
    showed after each call.  [fuel] bounds the events handled by one call. *)
Fixpoint calls {C} {ar : arith} (line_of : C -> line) (tie : nat -> nat) (fuel k : nat) (it : crossings_iter)
  : res (list (option pt * list (crossing C))) :=
  match k with
  | O => Ok []
  | S k' =>
      let* (it', o) := ci_next line_of tie fuel it in
      let* rest := calls line_of tie fuel k' it' in
      Ok ((o, ci_intersections it') :: rest)
  end.

(** The same input may occur several times in a collection.  [traced input ys
    ysn]: the output [ysn] is [ys] with every crossing attributed to a position
    of the collection at which its [crossable] stands. *)
Definition same_crossing {C} (input : list C) (x : crossing C) (xn : crossing nat) : Prop :=
  nth_error input (cr_cross xn) = Some (cr_cross x) /\
  cr_line xn = cr_line x /\ cr_first xn = cr_first x /\ cr_overlap xn = cr_overlap x /\ cr_left xn = cr_left x.
Definition traced {C} (input : list C) (ys : output C) (ysn : output nat) : Prop :=
  Forall2 (fun y yn => fst yn = fst y /\ Forall2 (same_crossing input) (snd y) (snd yn)) ys ysn.

(** The crossings of position [i], in the order they are reported. *)
Definition crossings_of (i : nat) (ysn : output nat) : list (crossing nat) :=
  filter (fun x => Nat.eqb (cr_cross x) i) (List.concat (map snd ysn)).
Definition ending (l : list (crossing nat)) : list lop := map cr_line (filter (fun x => negb (cr_left x)) l).
Definition starting (l : list (crossing nat)) : list lop := map cr_line (filter cr_left l).

(** Position [i] is among the crossings [o] of one yield. *)
Definition meeting (i : nat) (o : list (crossing nat)) : Prop := exists x, In x o /\ cr_cross x = i.

(** Consecutive segments leading from [a] to [z] in sweep order. *)
Inductive consecutive : pt -> pt -> list lop -> Prop :=
| cons_nil : forall a, consecutive a a []
| cons_piece : forall a b z gs, lex_lt a b -> consecutive b z gs -> consecutive a z (Line a b :: gs).

(** A result of [line_intersection] that is exactly the set of the common
    points. *)
Definition exact_intersection (l l' : line) (i : line_intersection_result) : Prop :=
  match i with
  | SinglePoint p _ => forall r, on_line l r /\ on_line l' r <-> r = p
  | CollinearSeg s => forall r, on_line l r /\ on_line l' r <-> on_line s r
  end.
