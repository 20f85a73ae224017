(** Specification: which lines cross properly. *)
Require Import List.
From Verif Require Import Base Scalar M_Events M_Geo S_Geo S_Sweep.

(** [l] and [l'] cross properly at [r]: their only common point, inside both. *)
Definition cross_properly (l l' : line) (r : pt) : Prop :=
  only_common l l' r /\ ~ is_end_of l r /\ ~ is_end_of l' r.
(** No two lines of [ls] cross properly: they may share ends, end in the middle
    of each other, overlap, be equal, or be points. *)
Definition no_proper_crossing (ls : list line) : Prop :=
  forall l l' r, In l ls -> In l' ls -> ~ cross_properly l l' r.
