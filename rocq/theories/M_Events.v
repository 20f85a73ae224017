(** Model of src/events.rs. *)
Require Import List String Bool.
From Verif Require Import Base Scalar.
Import ListNotations.
Local Open Scope string_scope.
Local Open Scope Qc_scope.

(** geo::Coordinate<T>; events.rs:69 [SweepPoint<T>(Coordinate<T>)] is the same
    data. *)
Record coord (T : Type) : Type := mkC { cx : T; cy : T }.
Arguments mkC {T} cx cy.
Arguments cx {T} c.
Arguments cy {T} c.

Section Generic.
Context {T : Type}.
(** [T::partial_cmp]. *)
Variable partial_cmp : T -> T -> option comparison.

(** events.rs:82-89. *)
Definition sp_partial_cmp (a b : coord T) : option comparison :=
  match partial_cmp (cx a) (cx b) with
  | Some Eq => partial_cmp (cy a) (cy b)
  | o => o
  end.
(** events.rs:92-96. *)
Definition sp_cmp (a b : coord T) : res comparison :=
  expect (sp_partial_cmp a b) "events.rs:94 unwrap on None".
(** events.rs:68 derived PartialEq: both components equal. *)
Definition scalar_eqb (x y : T) : bool := match partial_cmp x y with Some Eq => true | _ => false end.
Definition sp_eqb (a b : coord T) : bool := scalar_eqb (cx a) (cx b) && scalar_eqb (cy a) (cy b).
End Generic.

(** The exact instance. *)
Definition pt : Type := coord Qc.
Definition qc_partial_cmp (a b : Qc) : option comparison := Some (a ?= b).
(** events.rs:82-96 on exact scalars (where [cmp] cannot fail; see
    [sp_cmp_exact] in P_Geo). *)
Definition pcmp (a b : pt) : comparison :=
  match cx a ?= cx b with Eq => cy a ?= cy b | c => c end.
Definition pltb (a b : pt) : bool := match pcmp a b with Lt => true | _ => false end.
Definition pleb (a b : pt) : bool := match pcmp a b with Gt => false | _ => true end.
Definition peqb (a b : pt) : bool := match pcmp a b with Eq => true | _ => false end.

(** events.rs:50-56; the derived order is the order of declaration. *)
Inductive event_type : Type := PointLeft | LineRight | LineLeft | PointRight.
Definition ty_rank (t : event_type) : nat :=
  (match t with PointLeft => 0 | LineRight => 1 | LineLeft => 2 | PointRight => 3 end)%nat.
Definition ty_cmp (a b : event_type) : comparison := Nat.compare (ty_rank a) (ty_rank b).
Definition ty_eqb (a b : event_type) : bool := Nat.eqb (ty_rank a) (ty_rank b).

(** events.rs:6-10. *)
Record event : Type := mkEvent { ev_point : pt; ev_ty : event_type; ev_key : nat }.

(** events.rs:33-41: [point.cmp.then(ty.cmp).reverse()]. The reversal makes
    [BinaryHeap], a max-heap, pop the smallest. *)
Definition ev_cmp (a b : event) : comparison :=
  CompOpp (match pcmp (ev_point a) (ev_point b) with
           | Eq => ty_cmp (ev_ty a) (ev_ty b)
           | c => c
           end).
(** events.rs:14-18. *)
Definition ev_eqb (a b : event) : bool := peqb (ev_point a) (ev_point b) && ty_eqb (ev_ty a) (ev_ty b).

(** * std::collections::BinaryHeap<Event>

    The heap is a list of events; [pop] removes a greatest element.  Which one
    of several equally great events is popped is left to the parameter
    [choice], over which all theorems quantify: the position among the equally
    great events, the last one if there are fewer. *)
Definition is_max (h : list event) (e : event) : bool :=
  forallb (fun e' => match ev_cmp e e' with Lt => false | _ => true end) h.

(** Indices of the greatest events. *)
Fixpoint max_positions (h all : list event) (i : nat) : list nat :=
  match h with
  | [] => []
  | e :: h' => if is_max all e then i :: max_positions h' all (S i) else max_positions h' all (S i)
  end.
Fixpoint remove_nth {A} (n : nat) (l : list A) : list A :=
  match n, l with
  | _, [] => []
  | O, _ :: l' => l'
  | S n', a :: l' => a :: remove_nth n' l'
  end.
Definition heap_pop (choice : nat) (h : list event) : option (event * list event) :=
  let c := max_positions h h 0%nat in
  match nth_error c (Nat.min (Nat.pred (List.length c)) choice) with
  | Some i =>
      match nth_error h i with
      | Some e => Some (e, remove_nth i h)
      | None => None
      end
  | None => None
  end.
(** [BinaryHeap::peek]; all greatest events agree on point and type, so the
    observable result (the point) does not depend on the choice. *)
Definition heap_peek (h : list event) : option event := find (is_max h) h.
Definition heap_push (e : event) (h : list event) : list event := e :: h.
