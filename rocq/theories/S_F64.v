(** Specification: ends of lines and how far they are from the other line. *)
From Verif Require Import Base Scalar M_Events M_Geo S_Geo S_Sweep.
Local Open Scope Qc_scope.

(** The squared distance of two points. *)
Definition sq_dist (a b : pt) : Qc := (cx a - cx b) * (cx a - cx b) + (cy a - cy b) * (cy a - cy b).
(** [e] is an end of one of two lines and [l] is the other one. *)
Definition end_and_other (p q : line) (e : pt) (l : line) : Prop :=
  (is_end_of p e /\ l = q) \/ (is_end_of q e /\ l = p).
(** [nearest p q] is always an end of [p] or [q], and no end is nearer to the other
    line by more than a factor of four (16 for the squares). *)
Definition nearly_nearest (nearest : line -> line -> pt) : Prop :=
  forall p q, exists l, end_and_other p q (nearest p q) l /\
  forall e l' x, end_and_other p q e l' -> on_line l' x ->
  exists y, on_line l y /\ sq_dist (nearest p q) y <= Q2Qc 16 * sq_dist e x.
