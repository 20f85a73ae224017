(** Specification: the area of the part of a polygon in a rectangle with sides parallel
    to the axes, by the surveyor's formula cut off at the sides of the rectangle. *)
Require Import List.
From Verif Require Import Scalar M_Events M_Geo M_MonoPoly S_Geo S_Mono S_Raster S_Chains.
Import ListNotations.
Local Open Scope list_scope.
Local Open Scope Qc_scope.

(** The height of the straight line through the ends of an edge at abscissa [x]. *)
Definition height_at (e : pt * pt) (x : Qc) : Qc :=
  cy (fst e) + (x - cx (fst e)) / (cx (snd e) - cx (fst e)) * (cy (snd e) - cy (fst e)).
(** The area between an edge that runs to the right, from below, and the horizontal line
    at [c], from above, as far as it is between the abscissas [a] and [b]. *)
Definition over_edge (a b c : Qc) (e : pt * pt) : Qc :=
  let l := qmax a (cx (fst e)) in
  let r := qmin b (cx (snd e)) in
  if qltb l r then area_above_0 (r - l) (c - height_at e l) (c - height_at e r) else 0.
(** The same for edges in either direction: those that run to the left count negatively. *)
Definition signed_over (a b c : Qc) (e : pt * pt) : Qc :=
  if qleb (cx (fst e)) (cx (snd e)) then over_edge a b c e else - over_edge a b c (reversed e).
(** The area enclosed by a ring, whichever way it runs, with abscissas from [a] to [b] and
    ordinates from [c] to [d]. *)
Definition ring_cell (a b c d : Qc) (l : list pt) : Qc :=
  magnitude (sum (fun e => signed_over a b d e - signed_over a b c e) (edges l)).
Definition cell_area (p : polygon) (a b c d : Qc) : Qc :=
  ring_cell a b c d (pg_exterior p) - sum (ring_cell a b c d) (pg_interiors p).
(** Inside the rectangle, not on its sides. *)
Definition in_cell (a b c d : Qc) (q : pt) : Prop := a < cx q /\ cx q < b /\ c < cy q /\ cy q < d.
