(** Model of src/monotone/segment.rs:1-225, src/monotone/sweep.rs and the
    [BTreeSet] instance of src/active.rs on exact scalars.  Logging is dropped.

    [Pin] and [unsafe] only concern the address of the storage: an
    [Active<Segment>] is the key of the segment, and the storage is an argument
    of every operation that compares. *)
Require Import List String Bool Arith.
From Verif Require Import Base Scalar M_Events M_Geo M_LineOrPoint M_Slab M_Active M_MonoPoly M_Rings M_Op.
Import ListNotations.
Local Open Scope string_scope.
Local Open Scope list_scope.

(** segment.rs:15-19. *)
Record helper : Type := mkHelper { h_point : pt; h_merge : bool }.
(** segment.rs:49-54. *)
Record segment : Type := mkSegment { m_key : nat; m_geom : lop; m_helper : option helper }.
(** segment.rs:69-76. *)
Definition segment_cmp (a b : segment) : option comparison :=
  option_map (fun o => ord_then o (Nat.compare (m_key a) (m_key b))) (lop_partial_cmp (m_geom a) (m_geom b)).
(** segment.rs:79-85. *)
Definition segment_new_point (key : nat) (c : pt) : segment := mkSegment key (Point c) None.
(** segment.rs:87-107. *)
Definition segment_new (key : nat) (geom : line) (w : winding) : res segment :=
  let start := l_start geom in
  let en := l_end geom in
  let* _ := check (negb (peqb start en)) "segment.rs:90 debug_assert_ne" in
  let '(s, e, w') := if pltb en start then (en, start, winding_inverse w) else (start, en, w) in
  Ok (mkSegment key (Line s e) (match w' with Cw => Some (mkHelper s false) | Ccw => None end)).
(** segment.rs:109-124. *)
Definition segment_events (s : segment) : res (list event) :=
  let* _ := check (is_line (m_geom s)) "segment.rs:110 assert" in
  let geom := lop_line (m_geom s) in
  Ok [mkEvent (l_start geom) LineLeft (m_key s); mkEvent (l_end geom) LineRight (m_key s)].
(** segment.rs:126-132. *)
Definition interior_winding (s : segment) : winding := match m_helper s with Some _ => Cw | None => Ccw end.
(** Writing through [helper_mut], segment.rs:141-146. *)
Definition set_helper (h : option helper) (s : segment) : segment := mkSegment (m_key s) (m_geom s) h.

(** segment.rs:176-205. *)
Inductive mlink : Type :=
| LStart (root top bot : pt)
| LContinue (prev curr next : pt) (interior : winding)
| LMerge (prev next : pt) (limbs : option (pt * pt))
| LSplit (prev next top bot : pt)
| LEnd (top bot sink : pt).
(** segment.rs:207-214. *)
Inductive vertex_type : Type := VStart | VSplit | VEnd | VMerge | VContinue.
(** segment.rs:216-225; the field [orientation] is never read. *)
Record intersection : Type := mkIxn {
  ix_ty : vertex_type; ix_event1 : event; ix_event2 : event; ix_other1 : pt; ix_other2 : pt; ix_interior : winding }.

(** monotone.rs:17-23. *)
Definition winding_of_orientation (o : orientation) : option winding :=
  match o with CounterClockwise => Some Ccw | Clockwise => Some Cw | Collinear => None end.

(** * [BTreeSet<Active<Segment>>], active.rs:96-132

    The set is the list of its keys in order.  A search in a B-tree compares the
    sought element with some element of the range in which it may lie, and goes
    on in the part to the left or to the right of it; which element is compared
    first depends on the shape of the tree.  [pick] makes that choice from the
    elements of the set and the range: every sequence of comparisons that a
    B-tree may perform arises for some [pick]. *)
Section Tree.
Variable pick : list nat -> nat -> nat -> nat.
Variable cmp : nat -> nat -> res comparison.
(** The position of [key], or the position at which it is to be inserted. *)
Fixpoint bt_search (n : nat) (l : list nat) (lo hi key : nat) : res (bool * nat) :=
  match n with
  | O => NoFuel
  | S n' =>
      if (hi <=? lo)%nat then Ok (false, lo)
      else
        let i := (lo + pick l lo hi mod (hi - lo))%nat in
        let* k := expect (nth_error l i) "BTreeSet: no such element" in
        let* o := cmp key k in
        match o with
        | Lt => bt_search n' l lo i key
        | Eq => Ok (true, i)
        | Gt => bt_search n' l (S i) hi key
        end
  end.
Definition bt_find (l : list nat) (key : nat) : res (bool * nat) := bt_search (S (List.length l)) l 0 (List.length l) key.
(** active.rs:109-117, [range((Excluded(aseg), Unbounded)).next()]. *)
Definition bt_next_key (l : list nat) (key : nat) : res (option nat) :=
  let* (found, i) := bt_find l key in
  Ok (nth_error l (if found : bool then S i else i)).
(** active.rs:99-107, [range((Unbounded, Excluded(aseg))).next_back()]. *)
Definition bt_prev_key (l : list nat) (key : nat) : res (option nat) :=
  let* (_, i) := bt_find l key in
  Ok (match i with O => None | S j => nth_error l j end).
(** active.rs:119-123, without the check of the storage. *)
Definition bt_insert (l : list nat) (key : nat) : res (list nat) :=
  let* (found, i) := bt_find l key in
  let* _ := check (negb found) "active.rs:122 assert insert" in
  Ok (firstn i l ++ key :: skipn i l).
(** active.rs:125-131, without the check of the storage. *)
Definition bt_remove (l : list nat) (key : nat) : res (list nat) :=
  let* (found, i) := bt_find l key in
  let* _ := check found "active.rs:130 assert remove" in
  Ok (remove_nth i l).
End Tree.

(** sweep.rs:26-43.  [ms_events] is the vector [events] read from its end: the
    head of the list is what [pop] returns. *)
Record msweep : Type := mkMsweep { ms_segments : slab segment; ms_pt_key : nat; ms_events : list event; ms_active : list nat }.
(** sweep.rs:47-52. *)
Record sweep_event : Type := mkSweepEvent { se_pt : pt; se_ty : vertex_type; se_links : list mlink }.

(** [self.segments[key]]: panics when there is no such segment. *)
Definition seg_at (st : slab segment) (k : nat) : res segment := expect (slab_get st k) "slab: invalid key".

(** sweep.rs:268-279, the loop body. *)
Definition add_ring_line (w : winding) (s : msweep) (l : line) : res msweep :=
  if peqb (l_start l) (l_end l) then Ok s
  else
    let* seg := segment_new (slab_vacant_key (ms_segments s)) l w in
    let* st := slab_insert (ms_segments s) seg in
    let* evs := segment_events seg in
    Ok (mkMsweep st (ms_pt_key s) (rev evs ++ ms_events s) (ms_active s)).
(** sweep.rs:255-280. *)
Definition ms_add_closed_ring (ring : list pt) (is_hole : bool) (s : msweep) : res msweep :=
  let* _ := check (ls_is_closed ring) "sweep.rs:256 assert" in
  let* _ := check (3 <? List.length ring)%nat "sweep.rs:257 assert" in
  let* w := expect (ls_winding_order ring) "sweep.rs:260 ring has a winding order" in
  let w' := if is_hole then winding_inverse w else w in
  fold_res (add_ring_line w') s (ls_lines ring).

(** sweep.rs:77, [sort_unstable].  Which permutation an unstable sort leaves
    among equal elements is up to the standard library: [presort] permutes the
    vector, then a stable insertion sort sorts it, so that every outcome an
    unstable sort may have arises for some [presort].  The list is in the order
    of [pop]: the greatest event is its head. *)
Fixpoint insert_event (e : event) (l : list event) : list event :=
  match l with
  | [] => [e]
  | e' :: l' => match ev_cmp e e' with Lt => e' :: insert_event e l' | _ => e :: l end
  end.
Definition sort_events (l : list event) : list event := fold_right insert_event [] l.

Section Sweep.
Variable presort : list event -> list event.
Variable pick : list nat -> nat -> nat -> nat.

(** sweep.rs:55-79. *)
Definition from_polygon (p : polygon) : res msweep :=
  let pt_key := slab_vacant_key (@slab_new segment) in
  let* _ := check (pt_key =? 0)%nat "sweep.rs:63 assert_eq" in
  let* st := slab_insert slab_new (segment_new_point pt_key (mkC 0%Qc 0%Qc)) in
  let* s1 := ms_add_closed_ring (pg_exterior p) false (mkMsweep st pt_key [] []) in
  let* s2 := fold_res (fun s h => ms_add_closed_ring h true s) s1 (pg_interiors p) in
  Ok (mkMsweep (ms_segments s2) (ms_pt_key s2) (sort_events (presort (ms_events s2))) (ms_active s2)).

(** sweep.rs:292-308: the number of events at the point of the next event. *)
Fixpoint events_at (p : pt) (l : list event) : nat :=
  match l with
  | e :: l' => if peqb (ev_point e) p then S (events_at p l') else O
  | [] => O
  end.

(** sweep.rs:323-335. *)
Definition other_end (e : event) (s : segment) : res pt :=
  let* _ := check (is_line (m_geom s)) "sweep.rs:323 debug_assert" in
  match ev_ty e with
  | LineLeft => Ok (l_end (lop_line (m_geom s)))
  | LineRight => Ok (l_start (lop_line (m_geom s)))
  | _ => Panic "sweep.rs:329 unexpected: point type event!"
  end.
(** sweep.rs:309-376: also the sweep without the two events. *)
Definition find_intersection_type (s : msweep) (p : pt) : res (msweep * intersection) :=
  let* _ := check (events_at p (ms_events s) =? 2)%nat "sweep.rs:314 exactly two events at each point" in
  match ms_events s with
  | e1 :: e2 :: evs =>
      let* s1 := seg_at (ms_segments s) (ev_key e1) in
      let* s2 := seg_at (ms_segments s) (ev_key e2) in
      let* other1 := other_end e1 s1 in
      let* other2 := other_end e2 s2 in
      let* _ := check (peqb p (ev_point e1) && peqb p (ev_point e2)) "sweep.rs:336 debug_assert_eq" in
      let w := winding_of_orientation (orient2d other1 p other2) in
      let iw := interior_winding s1 in
      let* ty :=
        match ev_ty e1, ev_ty e2 with
        | LineRight, LineRight =>
            let* w := expect w "sweep.rs:347 pair RR: can't have collinearity" in
            Ok (if winding_eqb w iw then VEnd else VMerge)
        | LineRight, LineLeft | LineLeft, LineRight => Ok VContinue
        | LineLeft, LineLeft =>
            let* w := expect w "sweep.rs:357 pair RR: can't have collinearity" in
            Ok (if winding_eqb w iw then VSplit else VStart)
        | _, _ => Panic "sweep.rs:364 unexpected: point type event!"
        end in
      Ok (mkMsweep (ms_segments s) (ms_pt_key s) evs (ms_active s), mkIxn ty e1 e2 other1 other2 iw)
  | _ => Panic "sweep.rs:320 unwrap on None"
  end.

Definition set_segments (st : slab segment) (s : msweep) : msweep := mkMsweep st (ms_pt_key s) (ms_events s) (ms_active s).
Definition set_active (l : list nat) (s : msweep) : msweep := mkMsweep (ms_segments s) (ms_pt_key s) (ms_events s) l.
(** sweep.rs:281-288. *)
Definition store_point (p : pt) (s : msweep) : res msweep :=
  let* st := slab_set (ms_segments s) (ms_pt_key s) (segment_new_point (ms_pt_key s) p) in
  Ok (set_segments st s).

(** sweep.rs:95-118, [handle_remove]. *)
Definition handle_remove (p : pt) (e : event) (a : msweep * list mlink) : res (msweep * list mlink) :=
  let '(s, links) := a in
  match ev_ty e with
  | LineRight =>
      let* seg := seg_at (ms_segments s) (ev_key e) in
      let* (s1, links1) :=
        match m_helper seg with
        | Some h =>
            if h_merge h then
              let* st := slab_set (ms_segments s) (ev_key e) (set_helper (Some (mkHelper (h_point h) false)) seg) in
              Ok (set_segments st s, links ++ [LMerge (h_point h) p None])
            else Ok (s, links)
        | None => Ok (s, links)
        end in
      let* _ := check (slab_contains (ms_segments s1) (ev_key e)) "active.rs:127 debug_assert contains" in
      let* l := bt_remove pick (active_cmp segment_cmp (ms_segments s1)) (ms_active s1) (ev_key e) in
      Ok (set_active l s1, links1)
  | _ => Ok a
  end.

(** sweep.rs:136-181, [fix_up]. *)
Definition fix_up (p : pt) (ix : intersection) (force is_merge : bool) (a : msweep * list mlink) : res (msweep * list mlink) :=
  let '(s, links) := a in
  let* o := bt_next_key pick (active_cmp segment_cmp (ms_segments s)) (ms_active s) (ms_pt_key s) in
  let* next := expect o "sweep.rs:142 fix-up: next_key should be available" in
  let* seg := seg_at (ms_segments s) next in
  let* h := expect (m_helper seg) "sweep.rs:147 fix-up: next-segment must have helper" in
  let '(top, bot) := match ix_interior ix with
                     | Ccw => (ix_other1 ix, ix_other2 ix)
                     | Cw => (ix_other2 ix, ix_other1 ix)
                     end in
  let links1 :=
    if h_merge h || force then
      links ++ [if h_merge h then LMerge (h_point h) p (Some (top, bot)) else LSplit (h_point h) p top bot]
    else links in
  let merge1 := if (h_merge h || force) && negb is_merge then false else h_merge h in
  let* st := slab_set (ms_segments s) next (set_helper (Some (mkHelper p (if is_merge : bool then true else merge1))) seg) in
  Ok (set_segments st s, links1).

(** sweep.rs:224-235, [handle_insert]. *)
Definition handle_insert (e : event) (s : msweep) : res msweep :=
  match ev_ty e with
  | LineLeft =>
      let* _ := check (slab_contains (ms_segments s) (ev_key e)) "active.rs:121 debug_assert contains" in
      let* l := bt_insert pick (active_cmp segment_cmp (ms_segments s)) (ms_active s) (ev_key e) in
      Ok (set_active l s)
  | _ => Ok s
  end.

(** sweep.rs:183-222: the links that depend on the type of the vertex. *)
Definition vertex_links (p : pt) (ix : intersection) (w : winding) (a : msweep * list mlink) : res (msweep * list mlink) :=
  let '(top, bot) := match ix_interior ix with
                     | Cw => (ix_other1 ix, ix_other2 ix)
                     | Ccw => (ix_other2 ix, ix_other1 ix)
                     end in
  match ix_ty ix with
  | VContinue =>
      let* (s, links) := (match w with Ccw => fix_up p ix false false a | Cw => Ok a end) in
      let* (p1, p2) :=
        match pcmp (ix_other1 ix) (ix_other2 ix) with
        | Gt => Ok (ix_other2 ix, ix_other1 ix)
        | Lt => Ok (ix_other1 ix, ix_other2 ix)
        | Eq => Panic "sweep.rs:194 continue segment: others must be orderable!"
        end in
      Ok (s, links ++ [LContinue p1 p p2 (ix_interior ix)])
  | VSplit => fix_up p ix true false a
  | VMerge => fix_up p ix false true a
  | VEnd => let '(s, links) := a in Ok (s, links ++ [LEnd top bot p])
  | VStart => let '(s, links) := a in Ok (s, links ++ [LStart p top bot])
  end.

(** sweep.rs:80-243. *)
Definition process_event (s : msweep) : res (msweep * option sweep_event) :=
  match ms_events s with
  | [] => Ok (s, None)
  | e :: _ =>
      let p := ev_point e in
      let* (s1, ix) := find_intersection_type s p in
      let* s2 := store_point p s1 in
      let* a1 := handle_remove p (ix_event1 ix) (s2, []) in
      let* (s3, links) := handle_remove p (ix_event2 ix) a1 in
      let* g1 := seg_at (ms_segments s3) (ev_key (ix_event1 ix)) in
      let* g2 := seg_at (ms_segments s3) (ev_key (ix_event2 ix)) in
      let* _ := check (match ix_ty ix with
                       | VContinue => winding_eqb (interior_winding g1) (interior_winding g2)
                       | _ => true
                       end) "sweep.rs:127 interior winding consistency" in
      let* (s4, links') := vertex_links p ix (interior_winding g1) (s3, links) in
      let* s5 := handle_insert (ix_event1 ix) s4 in
      let* s6 := handle_insert (ix_event2 ix) s5 in
      Ok (s6, Some (mkSweepEvent p (ix_ty ix) links'))
  end.
End Sweep.
