(** Specification of boolean operations on polygons: even-odd rule, the edges of
    polygons, the two sides of an edge. *)
Require Import List Bool Arith.
From Verif Require Import Base Scalar M_Events M_Geo M_LineOrPoint S_Geo M_MonoPoly S_Mono M_Rings S_Rings M_Op.
Import ListNotations.
Local Open Scope Qc_scope.

(** Membership in the result, given membership in the operands. *)
Definition result (ty : op_type) (a b : bool) : bool :=
  match ty with
  | Intersection => a && b
  | Union => a || b
  | Difference => a && negb b
  | Xor => xorb a b
  end.
(** An odd number of [true]. *)
Definition odd (l : list bool) : bool := fold_right xorb false l.

(** ** Polygons *)
Definition closed (r : list pt) : Prop := match r with [] => True | p :: _ => last r p = p end.
Definition rings_in (mp : list polygon) : list (list pt) := flat_map (fun p => pg_exterior p :: pg_interiors p) mp.
Definition all_closed (mp : list polygon) : Prop := forall r, In r (rings_in mp) -> closed r.
Definition all_edges (mp : list polygon) : list (pt * pt) := flat_map edges (rings_in mp).
(** The edges that matter: those of rings with at least four coordinates, of
    positive length. *)
Definition ring_edges (r : list pt) : list (pt * pt) :=
  if (List.length r <=? 3)%nat then [] else filter (fun e => negb (pt_eqb (fst e) (snd e))) (edges r).
Definition proper_edges (mp : list polygon) : list (pt * pt) := flat_map ring_edges (rings_in mp).
(** [g] is the edge [e] in normal form. *)
Definition normal_form (e : pt * pt) (g : lop) : Prop :=
  exists x y, g = Line x y /\ lex_lt x y /\ (e = (x, y) \/ e = (y, x)).

(** The vertical ray from [q] downwards crosses the edge: exactly one end is
    strictly to the right of [q], and the edge passes strictly below [q]. *)
Definition ray_crosses (q : pt) (e : pt * pt) : bool :=
  let (a, b) := e in
  if qleb (cx a) (cx q) && qltb (cx q) (cx b) then qltb 0 (cross a b q)
  else if qleb (cx b) (cx q) && qltb (cx q) (cx a) then qltb 0 (cross b a q)
  else false.
(** Even-odd rule over all rings. *)
Definition inside (mp : list polygon) (q : pt) : bool := odd (map (ray_crosses q) (all_edges mp)).
Definition in_result (ty : op_type) (a b : list polygon) (q : pt) : bool := result ty (inside a q) (inside b q).
