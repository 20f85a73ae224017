(** Model of src/crossings/sweep.rs on exact scalars.

    The sweep works on any type [C] with a geometry [line_of : C -> line]
    (trait [Crossable], crossings.rs:23-30).  Simplifications, all observable
    only through them: [Vec]/[BinaryHeap]/[Slab] capacities are dropped; [trace!]
    output is dropped; the callback of [next_event] is the one the crate passes,
    which pushes [Crossing::from_segment] on a vector ([sw_out] here); the order
    in which [BinaryHeap] pops equal events is an arbitrary function [tie] of the
    number of pops done so far; recursion and pointer-chasing loops carry fuel
    ([NoFuel] is a failure). *)
Require Import List String Bool Arith.
From Verif Require Import Base Scalar M_Events M_Geo M_LineOrPoint M_Splay M_Slab M_Active.
Import ListNotations.
Local Open Scope string_scope.

Section Sweep.
Context {C : Type} {ar : arith}.
(** crossings.rs:29 [Crossable::line]. *)
Variable line_of : C -> line.
Variable tie : nat -> nat.

(** sweep.rs:15-23. *)
Record segment : Type := mkSeg {
  sg_geom : lop;
  sg_key : nat;
  sg_cross : C;
  sg_first : bool;
  sg_done : bool;
  sg_ovl : option nat;
  sg_is_ovl : bool
}.

(** crossings.rs:70-101. *)
Record crossing : Type := mkCrossing {
  cr_cross : C;
  cr_line : lop;
  cr_first : bool;
  cr_overlap : bool;
  cr_left : bool;
  cr_key : nat
}.

(** sweep.rs:237-245, with the callback's vector and the pop counter. *)
Record sweep : Type := mkSweep {
  sw_segs : slab segment;
  sw_events : list event;
  sw_active : active_set;
  sw_out : list crossing;
  sw_clock : nat
}.

(** Field updates through a mutable reference. *)
Definition with_geom (g : lop) (s : segment) : segment :=
  mkSeg g (sg_key s) (sg_cross s) (sg_first s) (sg_done s) (sg_ovl s) (sg_is_ovl s).
Definition with_first (b : bool) (s : segment) : segment :=
  mkSeg (sg_geom s) (sg_key s) (sg_cross s) b (sg_done s) (sg_ovl s) (sg_is_ovl s).
Definition with_done (b : bool) (s : segment) : segment :=
  mkSeg (sg_geom s) (sg_key s) (sg_cross s) (sg_first s) b (sg_ovl s) (sg_is_ovl s).
Definition with_ovl (o : option nat) (s : segment) : segment :=
  mkSeg (sg_geom s) (sg_key s) (sg_cross s) (sg_first s) (sg_done s) o (sg_is_ovl s).
Definition with_is_ovl (b : bool) (s : segment) : segment :=
  mkSeg (sg_geom s) (sg_key s) (sg_cross s) (sg_first s) (sg_done s) (sg_ovl s) b.

Definition set_segs (sl : slab segment) (sw : sweep) : sweep :=
  mkSweep sl (sw_events sw) (sw_active sw) (sw_out sw) (sw_clock sw).
Definition set_events (h : list event) (sw : sweep) : sweep :=
  mkSweep (sw_segs sw) h (sw_active sw) (sw_out sw) (sw_clock sw).
Definition set_active (t : active_set) (sw : sweep) : sweep :=
  mkSweep (sw_segs sw) (sw_events sw) t (sw_out sw) (sw_clock sw).
Definition set_out (o : list crossing) (sw : sweep) : sweep :=
  mkSweep (sw_segs sw) (sw_events sw) (sw_active sw) o (sw_clock sw).

Definition push (e : event) (sw : sweep) : sweep := set_events (heap_push e (sw_events sw)) sw.
(** [events.pop()]. *)
Definition pop (sw : sweep) : option (event * sweep) :=
  match heap_pop (tie (sw_clock sw)) (sw_events sw) with
  | Some (e, h) =>
      Some (e, mkSweep (sw_segs sw) h (sw_active sw) (sw_out sw) (S (sw_clock sw)))
  | None => None
  end.

(** [get_unchecked_mut(k)] followed by an assignment. *)
Definition upd_seg (sl : slab segment) (k : nat) (f : segment -> segment) : res (slab segment) :=
  let* s := slab_get_unchecked sl k in
  slab_set sl k (f s).

(** sweep.rs:46-65. *)
Definition segment_new (sl : slab segment) (c : C) (geom : option lop)
  : res (slab segment * segment) :=
  let first := match geom with None => true | Some _ => false end in
  let g := match geom with None => lop_of_line (line_of c) | Some g => g end in
  let s := mkSeg g (slab_vacant_key sl) c first false None false in
  let* sl' := slab_insert sl s in
  Ok (sl', s).

(** sweep.rs:68-81. *)
Definition left_event (s : segment) : event :=
  match sg_geom s with
  | Point p => mkEvent p PointLeft (sg_key s)
  | Line p _ => mkEvent p LineLeft (sg_key s)
  end.
(** sweep.rs:84-97. *)
Definition right_event (s : segment) : event :=
  match sg_geom s with
  | Point p => mkEvent p PointRight (sg_key s)
  | Line _ q => mkEvent q LineRight (sg_key s)
  end.

(** sweep.rs:605-616. *)
Inductive split : Type :=
| Unchanged (overlap : bool)
| SplitOnce (overlap : option bool) (right : lop)
| SplitTwice (right : lop).

(** sweep.rs:114-180. *)
Definition seg_adjust (s : segment) (i : lop) : res (segment * split) :=
  match sg_geom s with
  | Point _ => Panic "sweep.rs:122 attempt to adjust a point segment"
  | Line p q =>
      match i with
      | Point r =>
          let* _ := check (pleb p r) "sweep.rs:128 intersection point was not ordered within the line" in
          if peqb p r || peqb q r then Ok (s, Unchanged false)
          else Ok (with_first false (with_geom (Line p r) s),
                   SplitOnce None (if pltb r q then Line r q else Line q r))
      | Line r1 r2 =>
          let* _ := check (pleb p r1 && pleb r2 q)
                      "sweep.rs:150 overlapping segment was not ordered within the line" in
          if peqb p r1 then
            if peqb r2 q then Ok (s, Unchanged true)
            else Ok (with_first false (with_geom (Line p r2) s), SplitOnce (Some false) (Line r2 q))
          else if peqb r2 q then
            Ok (with_first false (with_geom (Line p r1) s), SplitOnce (Some true) (Line r1 q))
          else
            Ok (with_first false (with_geom (Line p r1) s), SplitTwice (Line r2 q))
      end
  end.

(** sweep.rs:195-204. *)
Definition crossing_of (s : segment) (ty : event_type) : crossing :=
  mkCrossing (sg_cross s) (sg_geom s) (sg_first s)
    (match sg_ovl s with Some _ => true | None => false end)
    (ty_eqb ty LineLeft) (sg_key s).
(** The callback of crossings.rs:195-201. *)
Definition cb (s : segment) (ty : event_type) (sw : sweep) : sweep :=
  set_out (sw_out sw ++ [crossing_of s ty]) sw.

(** sweep.rs:220-226. *)
Definition seg_partial_cmp (a b : segment) : option comparison :=
  option_map (fun o => ord_then o (Nat.compare (sg_key a) (sg_key b)))
             (lop_partial_cmp (sg_geom a) (sg_geom b)).

(** sweep.rs:292-306: copy the chain of overlapping children of the parent
    below the new segment, each with the new segment's geometry. *)
Fixpoint copy_chain (fuel : nat) (sl : slab segment) (child : option nat) (target : nat) (g : lop)
  : res (slab segment) :=
  match child with
  | None => Ok sl
  | Some ck =>
      match fuel with
      | O => NoFuel
      | S fuel' =>
          let* c := slab_get_unchecked sl ck in
          let* (sl1, n) := segment_new sl (sg_cross c) (Some g) in
          let* sl2 := upd_seg sl1 target (with_ovl (Some (sg_key n))) in
          let* sl3 := upd_seg sl2 (sg_key n) (with_is_ovl true) in
          copy_chain fuel' sl3 (sg_ovl c) (sg_key n) g
      end
  end.
Definition chain_fuel (sl : slab segment) : nat := S (List.length (s_entries sl)).

(** sweep.rs:272-309. *)
Definition create_segment (sw : sweep) (c : C) (geom : option lop) (parent : option nat)
  : res (sweep * nat) :=
  let* (sl, s) := segment_new (sw_segs sw) c geom in
  let sw1 := push (right_event s) (push (left_event s) (set_segs sl sw)) in
  match parent with
  | None => Ok (sw1, sg_key s)
  | Some pk =>
      let* p := slab_get_unchecked sl pk in
      let* sl' := copy_chain (chain_fuel sl) sl (sg_ovl p) (sg_key s) (sg_geom s) in
      Ok (set_segs sl' sw1, sg_key s)
  end.

(** sweep.rs:253-270. *)
Definition sweep_new (input : list C) : res sweep :=
  fold_res (fun sw c => let* (sw', _) := create_segment sw c None None in Ok sw')
           (mkSweep slab_new [] active_new [] 0) input.

(** sweep.rs:330-335: give all overlapping children the geometry [g]. *)
Fixpoint set_chain_geom (fuel : nat) (sl : slab segment) (child : option nat) (g : lop)
  : res (slab segment) :=
  match child with
  | None => Ok sl
  | Some ck =>
      match fuel with
      | O => NoFuel
      | S fuel' =>
          let* c := slab_get_unchecked sl ck in
          let* sl' := slab_set sl ck (with_geom g c) in
          set_chain_geom fuel' sl' (sg_ovl c) g
      end
  end.

(** sweep.rs:310-337. *)
Definition adjust_for_intersection (sw : sweep) (key : nat) (i : lop) : res (sweep * split) :=
  let* s := slab_get_unchecked (sw_segs sw) key in
  let* (s', out) := seg_adjust s i in
  let* sl := slab_set (sw_segs sw) key s' in
  let sw1 := set_segs sl sw in
  let sw2 := match out with Unchanged _ => sw1 | _ => push (right_event s') sw1 end in
  let* sl' := set_chain_geom (chain_fuel sl) sl (sg_ovl s') (sg_geom s') in
  Ok (set_segs sl' sw2, out).

(** sweep.rs:338-366. *)
Definition adjust_one_segment (sw : sweep) (key : nat) (i : lop) : res (sweep * option nat) :=
  let* s := slab_get_unchecked (sw_segs sw) key in
  let c := sg_cross s in
  let* (sw1, out) := adjust_for_intersection sw key i in
  match out with
  | Unchanged overlap => Ok (sw1, if overlap then Some key else None)
  | SplitOnce overlap rt =>
      let* (sw2, new_key) := create_segment sw1 c (Some rt) (Some key) in
      Ok (sw2, match overlap with
               | Some false => Some key
               | Some true => Some new_key
               | None => None
               end)
  | SplitTwice rt =>
      let* (sw2, _) := create_segment sw1 c (Some rt) (Some key) in
      let* (sw3, middle_key) := create_segment sw2 c (Some i) (Some key) in
      Ok (sw3, Some middle_key)
  end.

(** sweep.rs:367-396. *)
Definition segment_for_event (sl : slab segment) (e : event) : res (option segment) :=
  let m := slab_get sl (ev_key e) in
  match ev_ty e with
  | LineRight =>
      Ok (match m with
          | Some s =>
              if sg_is_ovl s then None
              else match sg_geom s with
                   | Line _ q => if peqb q (ev_point e) then Some s else None
                   | Point _ => None
                   end
          | None => None
          end)
  | LineLeft =>
      let* s := expect m "sweep.rs:381 segment for event not found in storage" in
      match sg_geom s with
      | Line p _ =>
          let* _ := check (peqb p (ev_point e)) "sweep.rs:384 assert_eq" in
          Ok (Some s)
      | Point _ => Panic "sweep.rs:385 unexpected segment type for event"
      end
  | PointLeft | PointRight =>
      let* s := expect m "sweep.rs:381 segment for event not found in storage" in
      match sg_geom s with
      | Point p =>
          let* _ := check (peqb p (ev_point e)) "sweep.rs:388 assert_eq" in
          Ok (Some s)
      | Line _ _ => Panic "sweep.rs:389 unexpected segment type for event"
      end
  end.

(** sweep.rs:399-403: the last key of the chain that starts at [k]. *)
Fixpoint chain_last (fuel : nat) (sl : slab segment) (k : nat) : res nat :=
  match fuel with
  | O => NoFuel
  | S fuel' =>
      let* s := slab_get_unchecked sl k in
      match sg_ovl s with
      | Some o => chain_last fuel' sl o
      | None => Ok k
      end
  end.
(** sweep.rs:397-405. *)
Definition chain_overlap (sw : sweep) (src tgt : nat) : res sweep :=
  let* last := chain_last (chain_fuel (sw_segs sw)) (sw_segs sw) src in
  let* sl1 := upd_seg (sw_segs sw) last (with_ovl (Some tgt)) in
  let* sl2 := upd_seg sl1 tgt (with_is_ovl true) in
  Ok (set_segs sl2 sw).

(** sweep.rs:503-509: report a segment and its chain as starting here. *)
Fixpoint report_left (fuel : nat) (sw : sweep) (k : option nat) (ty : event_type) : res sweep :=
  match k with
  | None => Ok sw
  | Some key =>
      match fuel with
      | O => NoFuel
      | S fuel' =>
          let* s := slab_get_unchecked (sw_segs sw) key in
          let sw1 := cb s ty sw in
          let* sl := upd_seg (sw_segs sw1) key (with_done true) in
          report_left fuel' (set_segs sl sw1) (sg_ovl s) ty
      end
  end.
(** sweep.rs:517-523: report a segment and its chain as ending here, and drop
    them from the storage. *)
Fixpoint report_right (fuel : nat) (sw : sweep) (k : option nat) (ty : event_type) : res sweep :=
  match k with
  | None => Ok sw
  | Some key =>
      match fuel with
      | O => NoFuel
      | S fuel' =>
          let* s := slab_get_unchecked (sw_segs sw) key in
          let sw1 := cb s ty sw in
          let* (sl, _) := slab_remove (sw_segs sw1) key in
          report_right fuel' (set_segs sl sw1) (sg_ovl s) ty
      end
  end.

(** How one round of the loop of sweep.rs:430-492 ends: next round, [break]
    (line 486), or [return true] (line 488). *)
Inductive flow : Type := Continue | Break | Return.

Section Handle.
(** The recursive call. *)
Variable handle : sweep -> event -> res (sweep * bool).

(** sweep.rs:430-491, one neighbour.  [segment] is the local copy of the event
    segment. *)
Definition ll_round (ev : event) (sw : sweep) (sgm : segment) (adj_key : nat)
  : res (sweep * segment * flow) :=
  let* adj := expect (slab_get (sw_segs sw) adj_key) "sweep.rs:434 active segment not found in storage" in
  let* o := meet (sg_geom sgm) (sg_geom adj) in
  match o with
  | None => Ok (sw, sgm, Continue)
  | Some i =>
      let* (sw1, adj_ovl) := adjust_one_segment sw adj_key i in
      let* adj' := slab_get_unchecked (sw_segs sw1) adj_key in
      let* sw2 :=
        (if negb (peqb (lop_first i) (lop_first (sg_geom adj')))
            && peqb (lop_first i) (lop_first (sg_geom sgm))
         then
           let* (e, sw1') := expect (pop sw1) "sweep.rs:455 unwrap on None" in
           let* (sw1'', done) := handle sw1' e in
           let* _ := check done "sweep.rs:457 special right-end event handling failed" in
           Ok sw1''
         else Ok sw1) in
      let* (sw3, seg_ovl) := adjust_one_segment sw2 (ev_key ev) i in
      let* sgm' := slab_get_unchecked (sw_segs sw3) (ev_key ev) in
      let* _ := check (Bool.eqb (match adj_ovl with Some _ => true | None => false end)
                                (match seg_ovl with Some _ => true | None => false end))
                  "sweep.rs:466 one of the intersecting segments had an overlap, but not the other" in
      match adj_ovl with
      | None => Ok (sw3, sgm', Continue)
      | Some adj_ovl_key =>
          let* tgt := expect seg_ovl "sweep.rs:472 unwrap on None" in
          let* sw4 := chain_overlap sw3 adj_ovl_key tgt in
          if Nat.eqb tgt (ev_key ev) then
            let* a := slab_get_unchecked (sw_segs sw4) adj_ovl_key in
            Ok (sw4, sgm', if sg_done a then Break else Return)
          else Ok (sw4, sgm', Continue)
      end
  end.
(** sweep.rs:430-492. *)
Fixpoint ll_loop (ev : event) (sw : sweep) (sgm : segment) (keys : list nat)
  : res (sweep * flow) :=
  match keys with
  | [] => Ok (sw, Continue)
  | k :: ks =>
      let* (sw', sgm', f) := ll_round ev sw sgm k in
      match f with
      | Continue => ll_loop ev sw' sgm' ks
      | f' => Ok (sw', f')
      end
  end.
End Handle.

Definition opt_list {X} (o : option X) : list X := match o with Some x => [x] | None => [] end.

(** sweep.rs:544-559, one neighbour of a point. *)
Definition pl_round (sgm : segment) (sw : sweep) (adj_key : nat) : res sweep :=
  let* adj := expect (slab_get (sw_segs sw) adj_key) "sweep.rs:548 active segment not found in storage" in
  let* o := meet (sg_geom sgm) (sg_geom adj) in
  match o with
  | None => Ok sw
  | Some i =>
      let* (sw1, adj_ovl) := adjust_one_segment sw adj_key i in
      let* _ := check (match adj_ovl with Some _ => false | None => true end)
                  "sweep.rs:557 can't have overlap with a point" in
      Ok sw1
  end.

(** sweep.rs:406-571. *)
Fixpoint handle_event (fuel : nat) (sw : sweep) (ev : event) : res (sweep * bool) :=
  match fuel with
  | O => NoFuel
  | S fuel' =>
      let* o := segment_for_event (sw_segs sw) ev in
      match o with
      | None => Ok (sw, false)
      | Some sgm =>
          let* (t1, prev) := prev_key seg_partial_cmp (sw_active sw) (sg_key sgm) (sw_segs sw) in
          let* (t2, next) := next_key seg_partial_cmp t1 (sg_key sgm) (sw_segs sw) in
          let sw0 := set_active t2 sw in
          match ev_ty ev with
          | LineLeft =>
              let* (sw1, f) := ll_loop (handle_event fuel') ev sw0 sgm (opt_list prev ++ opt_list next) in
              match f with
              | Return => Ok (sw1, true)
              | _ =>
                  let* sw2 :=
                    match f with
                    | Break => Ok sw1
                    | _ => let* t := add_key seg_partial_cmp (sw_active sw1) (ev_key ev) (sw_segs sw1) in
                           Ok (set_active t sw1)
                    end in
                  let* sw3 := report_left (chain_fuel (sw_segs sw2)) sw2 (Some (ev_key ev)) (ev_ty ev) in
                  Ok (sw3, true)
              end
          | LineRight =>
              let* t := remove_key seg_partial_cmp (sw_active sw0) (ev_key ev) (sw_segs sw0) in
              let* sw1 := report_right (chain_fuel (sw_segs sw0)) (set_active t sw0)
                            (Some (ev_key ev)) (ev_ty ev) in
              match prev, next with
              | Some pk, Some nk =>
                  let* ps := slab_get_unchecked (sw_segs sw1) pk in
                  let* ns := slab_get_unchecked (sw_segs sw1) nk in
                  let* o := meet (sg_geom ps) (sg_geom ns) in
                  match o with
                  | None => Ok (sw1, true)
                  | Some i =>
                      let* (sw2, a) := adjust_one_segment sw1 pk i in
                      let* (sw3, b) := adjust_one_segment sw2 nk i in
                      let* _ := check (match a, b with None, None => true | _, _ => false end)
                                  "sweep.rs:536 adjacent segments @ removal can't overlap" in
                      Ok (sw3, true)
                  end
              | _, _ => Ok (sw1, true)
              end
          | PointLeft =>
              let* sw1 := fold_res (pl_round sgm) sw0 (opt_list prev ++ opt_list next) in
              Ok (cb sgm (ev_ty ev) sw1, true)
          | PointRight => Ok (sw0, true)
          end
      end
  end.

(** The recursion of [handle_event] goes through a popped event each time. *)
Definition handle_fuel (sw : sweep) : nat := 2 + List.length (sw_events sw).

(** sweep.rs:577-587. *)
Definition next_event (sw : sweep) : res (sweep * option pt) :=
  match pop sw with
  | None => Ok (sw, None)
  | Some (e, sw1) =>
      let* (sw2, _) := handle_event (handle_fuel sw1) sw1 e in
      Ok (sw2, Some (ev_point e))
  end.
(** sweep.rs:589-591. *)
Definition peek_point (sw : sweep) : option pt := option_map ev_point (heap_peek (sw_events sw)).

(** sweep.rs:594-599. *)
Definition prev_active (sw : sweep) (c : crossing) : res (sweep * option segment) :=
  let* _ := check (cr_left c) "sweep.rs:595 debug_assert at_left" in
  let* (t, o) := prev_key seg_partial_cmp (sw_active sw) (cr_key c) (sw_segs sw) in
  match o with
  | None => Ok (set_active t sw, None)
  | Some k =>
      let* s := slab_get_unchecked (sw_segs sw) k in
      Ok (set_active t sw, Some s)
  end.
End Sweep.
Arguments segment : clear implicits.
Arguments crossing : clear implicits.
Arguments sweep : clear implicits.
