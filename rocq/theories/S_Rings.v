(** Specification of ring assembly: directed edges, rings. *)
Require Import List Bool Sorted Permutation.
From Verif Require Import Base Scalar M_Events M_Geo M_LineOrPoint S_Geo M_MonoPoly S_Mono M_Rings.
Import ListNotations.
Local Open Scope list_scope.

(** An edge given to the ring builder, directed so that the region is on its
    left: an edge with winding [Ccw] has the region above it. *)
Definition directed (e : lop * winding) : pt * pt :=
  match snd e with
  | Ccw => (lop_first (fst e), lop_second (fst e))
  | Cw => (lop_second (fst e), lop_first (fst e))
  end.
Definition pt_eqb (p q : pt) : bool := qeqb (cx p) (cx q) && qeqb (cy p) (cy q).
(** The edges at the vertex [p], in the order in which they are added: [true]
    for an edge that leaves [p], [false] for one that arrives. *)
Definition turns (p : pt) (es : list (lop * winding)) : list bool :=
  flat_map (fun e => (if pt_eqb (fst (directed e)) p then [true] else []) ++
                     (if pt_eqb (snd (directed e)) p then [false] else [])) es.
(** The first and the second, the third and the fourth, ... are opposite. *)
Fixpoint alternate (l : list bool) : Prop :=
  match l with
  | a :: b :: l' => a <> b /\ alternate l'
  | _ => True
  end.
(** Two segments have at most one point in common. *)
Definition touch_only (e e' : pt * pt) : Prop :=
  forall r r', on_seg (fst e) (snd e) r -> on_seg (fst e') (snd e') r ->
               on_seg (fst e) (snd e) r' -> on_seg (fst e') (snd e') r' -> r = r'.
(** What the ring builder is given: proper segments in normal form with at most
    single points in common; at every vertex an even number of edges, of which
    consecutive ones in the order of insertion are one arriving, one leaving. *)
Definition ring_input (es : list (lop * winding)) : Prop :=
  (forall e, In e es -> exists a b, fst e = Line a b /\ lex_lt a b) /\
  ForallOrdPairs touch_only (map directed es) /\
  forall p, Nat.even (List.length (turns p es)) = true /\ alternate (turns p es).

(** All edges added in order, then [finish]. *)
Definition rings_of (es : list (lop * winding)) : res (list ring) :=
  let* r := fold_res (fun r e => add_edge r (fst e) (snd e)) rings_default es in
  finish r.

(** A closed ring through pairwise different vertices, at least three. *)
Definition proper_ring (l : list pt) : Prop :=
  exists p l', l = p :: l' ++ [p] /\ NoDup (p :: l') /\ (2 <= List.length l')%nat.
(** The edges of a ring in the direction that has the region on the left: an
    exterior ring runs counter-clockwise, a hole clockwise. *)
Definition region_left (r : ring) : list (pt * pt) :=
  match ls_winding_order (r_coords r), r_hole r with
  | Some Ccw, false | Some Cw, true => edges (r_coords r)
  | _, _ => map reversed (edges (r_coords r))
  end.
