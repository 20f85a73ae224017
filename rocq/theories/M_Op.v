(** Model of src/bops/op.rs and src/bops.rs:26-50 (up to ring assembly) on exact
    scalars.  Logging is dropped, and with it the [Display] and [Debug]
    instances.

    An [&Edge] handed to [CrossingsIter] is the position of the edge in
    [Op::edges]; the two [Cell]s of an edge are fields of the edge and writing
    to them replaces the edge in the list. *)
Require Import List String Bool Arith.
From Verif Require Import Base Scalar M_Events M_Geo M_LineOrPoint M_Slab M_Sweep M_Crossings M_MonoPoly M_Rings.
Import ListNotations.
Local Open Scope string_scope.
Local Open Scope list_scope.

(** op.rs:180-185. *)
Inductive op_type : Type := Intersection | Union | Difference | Xor.
(** op.rs:188-191. *)
Record region : Type := mkRegion { is_first : bool; is_second : bool }.
(** op.rs:204-209. *)
Definition region_infinity (ty : op_type) : region :=
  mkRegion false (match ty with Difference => true | _ => false end).
(** op.rs:210-216. *)
Definition region_cross (first : bool) (r : region) : region :=
  if first then mkRegion (negb (is_first r)) (is_second r) else mkRegion (is_first r) (negb (is_second r)).
(** op.rs:217-223. *)
Definition is_ty (r : region) (ty : op_type) : bool :=
  match ty with
  | Intersection | Difference => is_first r && is_second r
  | Union => is_first r || is_second r
  | Xor => xorb (is_first r) (is_second r)
  end.

(** op.rs:227-232. *)
Record edge : Type := mkEdge { e_geom : lop; e_first : bool; e_region : region; e_region2 : region }.
(** op.rs:235-256. *)
Definition get_region (e : edge) (piece : lop) : region :=
  if pltb (lop_first piece) (lop_second (e_geom e)) then e_region e else e_region2 e.
(** op.rs:257-264. *)
Definition set_region (r : region) (piece : lop) (e : edge) : edge :=
  if pltb (lop_first piece) (lop_second (e_geom e))
  then mkEdge (e_geom e) (e_first e) r (e_region2 e)
  else mkEdge (e_geom e) (e_first e) (e_region e) r.

(** op.rs:9-12. *)
Record op : Type := mkOp { op_ty : op_type; op_edges : list edge }.
(** op.rs:15-20, without the capacity. *)
Definition op_new (ty : op_type) : op := mkOp ty [].
(** LineString::lines. *)
Fixpoint ls_lines (l : list pt) : list line :=
  match l with
  | p :: ((q :: _) as l') => mkLine p q :: ls_lines l'
  | _ => []
  end.
(** op.rs:38-53, the loop body. *)
Definition add_line (first : bool) (o : op) (l : line) : op :=
  let lp := lop_of_line l in
  if is_line lp
  then mkOp (op_ty o) (op_edges o ++ [mkEdge lp first (region_infinity (op_ty o)) (region_infinity (op_ty o))])
  else o.
(** op.rs:32-54. *)
Definition add_closed_ring (ring : list pt) (first : bool) (o : op) : res op :=
  let* _ := check (ls_is_closed ring) "op.rs:33 assert" in
  if (List.length ring <=? 3)%nat then Ok o
  else Ok (fold_left (add_line first) (ls_lines ring) o).
(** op.rs:26-31. *)
Definition add_polygon (p : polygon) (first : bool) (o : op) : res op :=
  let* o1 := add_closed_ring (pg_exterior p) first o in
  fold_res (fun o h => add_closed_ring h first o) o1 (pg_interiors p).
(** op.rs:22-24. *)
Definition add_multi_polygon (mp : list polygon) (first : bool) (o : op) : res op :=
  fold_res (fun o p => add_polygon p first o) o mp.

Section Sweep.
Context {ar : arith}.
Variable tie : nat -> nat.

(** op.rs:65-76. *)
Definition compare_crossings (a b : crossing nat) : res comparison :=
  match cr_left a, cr_left b with
  | false, true => Ok Lt
  | true, false => Ok Gt
  | la, _ =>
      let* ord := expect (lop_partial_cmp (cr_line a) (cr_line b)) "op.rs:69 unwrap on None" in
      Ok (if la then ord else CompOpp ord)
  end.
(** op.rs:77, [sort_unstable_by].  Which permutation an unstable sort leaves
    among equal elements is up to the standard library: [presort] permutes the
    vector, then a stable insertion sort (the algorithm used for at most twenty
    elements) sorts it, so that every outcome an unstable sort may have arises
    for some [presort].  A call of the comparison that panics ends the sort. *)
Fixpoint insert_crossing (x : crossing nat) (l : list (crossing nat)) : res (list (crossing nat)) :=
  match l with
  | [] => Ok [x]
  | y :: l' =>
      let* o := compare_crossings x y in
      match o with
      | Gt => let* r := insert_crossing x l' in Ok (y :: r)
      | _ => Ok (x :: l)
      end
  end.
Fixpoint insertion_sort (l : list (crossing nat)) : res (list (crossing nat)) :=
  match l with
  | [] => Ok []
  | x :: l' => let* r := insertion_sort l' in insert_crossing x r
  end.
Variable presort : list (crossing nat) -> list (crossing nat).
Definition sort_crossings (l : list (crossing nat)) : res (list (crossing nat)) := insertion_sort (presort l).

(** Dereferencing [crossable]. *)
Definition edge_at (es : list edge) (i : nat) : res edge := expect (nth_error es i) "no such edge".
(** op.rs:98-99 and 152-153: is the next crossing equal to this one? *)
Definition has_overlap (c : crossing nat) (rest : list (crossing nat)) : res bool :=
  match rest with
  | [] => Ok false
  | d :: _ => let* o := compare_crossings c d in Ok (match o with Eq => true | _ => false end)
  end.

Section Sink.
(** What receives the boundary edges: [Rings::add_edge] on the ring builder in
    the program. *)
Context {A : Type}.
Variable add : A -> lop -> winding -> res A.

(** op.rs:79-122.  The index [idx] is represented by the rest of the vector. *)
Fixpoint process_ends (ty : op_type) (es : list edge) (l : list (crossing nat)) (next : option region) (s : A)
  : res (A * list (crossing nat)) :=
  match l with
  | [] => Ok (s, [])
  | c :: l' =>
      if cr_left c then Ok (s, l)
      else
        let* e := edge_at es (cr_cross c) in
        let next1 := match next with None => get_region e (cr_line c) | Some r => r end in
        let next2 := region_cross (e_first e) next1 in
        let* ov := has_overlap c l' in
        if ov : bool then process_ends ty es l' (Some next2) s
        else
          let prev := get_region e (cr_line c) in
          let next_is_ty := is_ty next2 ty in
          let* s' :=
            (if xorb (is_ty prev ty) next_is_ty
             then add s (cr_line c) (if negb next_is_ty then Ccw else Cw)
             else Ok s) in
          process_ends ty es l' None s'
  end.

(** op.rs:166-170, [set_region] on every crossing of the group. *)
Definition set_regions (es : list edge) (r : region) (grp : list (crossing nat)) : res (list edge) :=
  fold_res (fun es c => let* e := edge_at es (cr_cross c) in
                        Ok (list_set (cr_cross c) (set_region r (cr_line c) e) es)) es grp.
(** op.rs:147-172: [grp] are the crossings from [jdx] to before [idx]. *)
Fixpoint process_starts (es : list edge) (l grp : list (crossing nat)) (r : region) : res (list edge) :=
  match l with
  | [] => Ok es
  | c :: l' =>
      let* e := edge_at es (cr_cross c) in
      let r' := region_cross (e_first e) r in
      let* ov := has_overlap c l' in
      if ov : bool then process_starts es l' (grp ++ [c]) r'
      else
        let* es' := set_regions es r' (grp ++ [c]) in
        process_starts es' l' [] r'
  end.

(** op.rs:61-172, one point: [it] is the iterator after [next]. *)
Definition op_point (ty : op_type) (it : sweep nat) (es : list edge) (s : A)
  : res (sweep nat * list edge * A) :=
  let* l := sort_crossings (ci_intersections it) in
  let it1 := set_out l it in
  let* (s1, starts) := process_ends ty es l None s in
  match starts with
  | [] => Ok (it1, es, s1)
  | bot :: _ =>
      let* _ := check (cr_left bot) "op.rs:128 debug_assert" in
      let* (it2, prev) := prev_active it1 bot in
      let* r :=
        match prev with
        | Some sg => let* e := edge_at es (sg_cross sg) in Ok (get_region e (sg_geom sg))
        | None => Ok (region_infinity ty)
        end in
      let* es' := process_starts es starts [] r in
      Ok (it2, es', s1)
  end.

(** The geometry of an edge given by its position: op.rs:284-290. *)
Definition edge_line (es : list edge) (i : nat) : line :=
  match nth_error es i with Some e => lop_line (e_geom e) | None => mkLine (mkC 0%Qc 0%Qc) (mkC 0%Qc 0%Qc) end.

(** op.rs:60-173. *)
Fixpoint op_loop (n fuel : nat) (ln : nat -> line) (ty : op_type) (it : sweep nat) (es : list edge) (s : A) : res A :=
  match n with
  | O => NoFuel
  | S n' =>
      let* (it', o) := ci_next ln tie fuel it in
      match o with
      | None => Ok s
      | Some _ =>
          let* (it'', es', s') := op_point ty it' es s in
          op_loop n' fuel ln ty it'' es' s'
      end
  end.
(** op.rs:57 and 60-173: the loop from its start. *)
Definition op_run (fuel : nat) (o : op) (s : A) : res A :=
  let* it := ci_from_iter (edge_line (op_edges o)) (seq 0 (List.length (op_edges o))) in
  op_loop fuel fuel (edge_line (op_edges o)) (op_ty o) it (op_edges o) s.
End Sink.

(** op.rs:56-176. *)
Definition op_sweep (fuel : nat) (o : op) : res (list ring) :=
  let* r := op_run add_edge fuel o rings_default in
  finish r.

(** bops.rs:41-43 (a [Polygon] operand, bops.rs:30-32, is a list of one). *)
Definition op_input (ty : op_type) (a b : list polygon) : res op :=
  let* o := add_multi_polygon a true (op_new ty) in
  add_multi_polygon b false o.
End Sweep.
