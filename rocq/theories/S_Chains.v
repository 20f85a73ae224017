(** Specification of the monotone decomposition. *)
Require Import List Bool Arith Permutation.
From Verif Require Import Base Scalar M_Events M_Geo M_MonoPoly M_Rings S_Geo S_Mono S_Rings S_Op S_Laminar.
Import ListNotations.
Local Open Scope list_scope.

(** ** Valid polygons *)
(** Common points of two edges are ends of both. *)
Definition meet_at_ends (e e' : pt * pt) : Prop :=
  forall r, on_seg (fst e) (snd e) r -> on_seg (fst e') (snd e') r ->
    (r = fst e \/ r = snd e) /\ (r = fst e' \/ r = snd e').
(** Two rings have no vertex in common. *)
Definition apart (l l' : list pt) : Prop := forall v, In v l -> In v l' -> False.
(** Every ring is closed and runs through at least three pairwise different vertices;
    edges meet only at their ends, different rings not at all; the vertices of a hole are
    inside the exterior ring and outside all other holes. *)
Record valid_polygon (p : polygon) : Prop := {
  vp_rings : forall l, In l (rings_in [p]) -> proper_ring l;
  vp_edges : ForallOrdPairs meet_at_ends (all_edges [p]);
  vp_apart : ForallOrdPairs apart (rings_in [p]);
  vp_in : forall h v, In h (pg_interiors p) -> In v h -> ring_in (pg_exterior p) v = true;
  vp_out : forall A h B v, pg_interiors p = A ++ h :: B -> In v h -> forall h', In h' (A ++ B) -> ring_in h' v = false }.

(** ** Pieces *)
(** Even-odd rule for the region between the two chains of a piece. *)
Definition piece_in (m : mono_poly) (q : pt) : bool :=
  odd (map (ray_crosses q) (edges (mp_top m) ++ edges (mp_bot m))).
(** The boundary of a piece, clockwise. *)
Definition piece_edges (m : mono_poly) : list (pt * pt) :=
  edges (mp_top m) ++ map reversed (edges (mp_bot m)).
(** A coordinate that follows itself makes an edge without length. *)
Definition real_edge (e : pt * pt) : bool := negb (peqb (fst e) (snd e)).
(** The edges of a polygon directed with the interior on the right: the exterior ring
    clockwise, holes counter-clockwise. *)
Definition region_right (p : polygon) : list (pt * pt) :=
  flat_map (fun r => map reversed (region_left r))
    (mkRing (pg_exterior p) false :: map (fun h => mkRing h true) (pg_interiors p)).

(** ** Areas *)
Definition magnitude (x : Qc) : Qc := if qleb 0 x then x else (- x)%Qc.
(** Area of a polygon: the area enclosed by the exterior ring less that of the holes,
    whichever way the rings run. *)
Definition polygon_area (p : polygon) : Qc :=
  (magnitude (shoelace (pg_exterior p)) - sum (fun h => magnitude (shoelace h)) (pg_interiors p))%Qc.
