(** Specification of polygon assembly. *)
Require Import List Bool Arith.
From Verif Require Import Base Scalar M_Events M_Geo M_MonoPoly M_Rings S_Mono S_Op.
Import ListNotations.
Local Open Scope list_scope.
Local Open Scope nat_scope.

(** The elements of a list with their positions. *)
Definition numbered {X} (l : list X) : list (nat * X) := combine (seq 0 (List.length l)) l.
(** The holes whose parent is ring number [i], in order. *)
Definition holes_of (rs : list ring) (parents : list nat) (i : nat) : list (list pt) :=
  map (fun kr => r_coords (snd kr)) (filter (fun kr => r_hole (snd kr) && (nth (fst kr) parents 0 =? i)%nat) (numbered rs)).
(** One polygon for every ring that is not a hole. *)
Definition polygons_of (rs : list ring) (parents : list nat) : list polygon :=
  map (fun ir => mkPolygon (r_coords (snd ir)) (holes_of rs parents (fst ir))) (filter (fun ir => negb (r_hole (snd ir))) (numbered rs)).
(** Every hole has a parent, which is not a hole. *)
Definition parents_ok (rs : list ring) (parents : list nat) : Prop :=
  List.length parents = List.length rs /\
  forall k r, nth_error rs k = Some r -> r_hole r = true -> exists e, nth_error rs (nth k parents 0) = Some e /\ r_hole e = false.

(** Even-odd rule for a single ring. *)
Definition ring_in (l : list pt) (q : pt) : bool := odd (map (ray_crosses q) (edges l)).
(** A point of a polygon is inside the exterior ring and in no interior ring. *)
Definition polygon_in (p : polygon) (q : pt) : bool := ring_in (pg_exterior p) q && forallb (fun h => negb (ring_in h q)) (pg_interiors p).
