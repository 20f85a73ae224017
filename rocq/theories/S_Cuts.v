(** Specification of C83: what a collection of lines is up to order, direction
    and repetition, and where its lines are cut. *)
Require Import List.
From Verif Require Import Base Scalar M_Events M_Geo M_LineOrPoint M_Sweep M_Crossings S_Geo S_Sweep.
Import ListNotations.

(** The same line, possibly given from its other end. *)
Definition same_line (l l' : line) : Prop :=
  l_start l = l_start l' /\ l_end l = l_end l' \/ l_start l = l_end l' /\ l_end l = l_start l'.
(** Every line of [ls] is one of [ls']. *)
Definition some_lines (ls ls' : list line) : Prop := forall l, In l ls -> exists l', In l' ls' /\ same_line l l'.
Definition same_lines (ls ls' : list line) : Prop := some_lines ls ls' /\ some_lines ls' ls.

(** [r] is an end of one of the pieces [gs]. *)
Definition break_of (gs : list lop) (r : pt) : Prop := exists p q, In (Line p q) gs /\ (r = p \/ r = q).
(** The line [l] cut at exactly the points of [l] at which something happens in
    the collection [ls]; the pieces in sweep order. *)
Definition cut_at (ls : list line) (l : line) (gs : list lop) : Prop :=
  exists a z, ends l a z /\
    (a = z -> gs = [Point a]) /\
    (a <> z -> consecutive a z gs /\ forall r, break_of gs r <-> event_point ls r /\ on_line l r).
