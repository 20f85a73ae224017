(** Specification: chains, monotone polygons and strips of trapezoids,
    independent of the program. *)
Require Import List Sorted.
From Verif Require Import Scalar M_Events S_Geo M_MonoPoly.
Import ListNotations.
Local Open Scope list_scope.
Local Open Scope Qc_scope.

Definition starts_at (l : list pt) (p : pt) : Prop := exists l', l = p :: l'.
Definition ends_at (l : list pt) (p : pt) : Prop := exists l', l = l' ++ [p].
(** Every coordinate is lexicographically before all later ones. *)
Definition increasing (l : list pt) : Prop := StronglySorted lex_lt l.
(** Two chains from a common left end to a different common right end. *)
Definition mono_pair (top bot : list pt) : Prop :=
  exists p q, starts_at top p /\ starts_at bot p /\ ends_at top q /\ ends_at bot q /\
    p <> q /\ increasing top /\ increasing bot.

(** The edges of a chain, in order and direction. *)
Definition edges (l : list pt) : list (pt * pt) := combine l (tl l).
Definition reversed (e : pt * pt) : pt * pt := (snd e, fst e).
(** The point [r] is on the chain. *)
Definition on_chain (l : list pt) (r : pt) : Prop :=
  exists a b, In (a, b) (edges l) /\ on_seg a b r.
(** [a] and [b] are on one and the same edge of the chain. *)
Definition on_one_edge (l : list pt) (a b : pt) : Prop :=
  exists p q, In (p, q) (edges l) /\ on_seg p q a /\ on_seg p q b.
(** On every vertical line the top chain is nowhere below the bottom chain. *)
Definition above (top bot : list pt) : Prop :=
  forall r s, on_chain top r -> on_chain bot s -> cx r = cx s -> cy s <= cy r.

(** The corners of a trapezoid. *)
Definition top_of (t : trip) : pt := mkC (t_x t) (t_top t).
Definition bot_of (t : trip) : pt := mkC (t_x t) (t_bot t).
(** The trapezoids have positive width and follow each other without gap from
    abscissa [a] to abscissa [b]. *)
Inductive gap_free : Qc -> Qc -> list trapz -> Prop :=
| gap_nil : forall a, gap_free a a []
| gap_cons : forall z a b l, t_x (z_left z) = a -> a < t_x (z_right z) ->
    gap_free (t_x (z_right z)) b l -> gap_free a b (z :: l).
(** Its top and bottom sides lie on the chains. *)
Definition between_chains (top bot : list pt) (z : trapz) : Prop :=
  on_one_edge top (top_of (z_left z)) (top_of (z_right z)) /\
  on_one_edge bot (bot_of (z_left z)) (bot_of (z_right z)).

(** Area of a trapezoid with vertical parallel sides; negative parts count
    negatively. *)
Definition trapezoid_area (z : trapz) : Qc :=
  (t_x (z_right z) - t_x (z_left z)) *
  ((t_top (z_left z) - t_bot (z_left z)) + (t_top (z_right z) - t_bot (z_right z))) / (1 + 1).
Definition sum {A} (f : A -> Qc) (l : list A) : Qc := fold_right (fun a s => f a + s) 0 l.
(** The shoelace formula: the signed area enclosed by a closed ring,
    counter-clockwise positive. *)
Definition shoelace (ring : list pt) : Qc :=
  sum (fun e => cx (fst e) * cy (snd e) - cx (snd e) * cy (fst e)) (edges ring) / (1 + 1).

(** A scanner value a user can hold: freshly made by [Scanner::new] or
    [scan_lines], or after further calls of its methods.  [advance_to], consumed
    to the end or dropped at any point, and [advance_upto] only change the
    scanner by calls of [advance_next]. *)
Inductive scan_reach (m : mono_poly) : scanner -> Prop :=
| reach_new : forall s, sc_new m = Base.Ok s -> scan_reach m s
| reach_next : forall s u s' r, scan_reach m s -> t_x (sc_curr s) < u ->
    sc_advance_next s u = Base.Ok (s', r) -> scan_reach m s'.

(** Several calls of [advance_to], one after the other, and all their
    trapezoids. *)
Fixpoint scan_stops (s : scanner) (us : list Qc) : Base.res (scanner * list trapz) :=
  match us with
  | [] => Base.Ok (s, [])
  | u :: us' =>
      match advance_to s u with
      | Base.Ok (s', zs) =>
          match scan_stops s' us' with
          | Base.Ok (s'', zs') => Base.Ok (s'', zs ++ zs')
          | e => e
          end
      | e => e
      end
  end.
