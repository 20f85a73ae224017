(** Model of src/active.rs. *)
Require Import List String Bool Arith.
From Verif Require Import Base M_Splay M_Slab.
Import ListNotations.
Local Open Scope string_scope.

Section Active.
Context {A : Type}.
(** [T: PartialOrd] of the stored type. *)
Variable partial_cmp : A -> A -> option comparison.

(** active.rs:66-85: [Active] compares by looking both keys up in the storage
    ([get_unchecked]) and panics when the elements are not comparable.  The
    pointer to the storage is the parameter [st]. *)
Definition active_cmp (st : slab A) (a b : nat) : res comparison :=
  let* x := slab_get_unchecked st a in
  let* y := slab_get_unchecked st b in
  expect (partial_cmp x y) "active.rs:82 couldn't compare active segments".

(** active.rs:134 [SplayWrap<Active<T>>]; only the keys are stored. *)
Definition active_set : Type := @splay_set nat.
(** active.rs:136-140. *)
Definition active_new : active_set := ss_new.

(** active.rs:145-151. *)
Definition prev_key (t : active_set) (key : nat) (st : slab A) : res (active_set * option nat) :=
  ss_prev (active_cmp st) t key.
(** active.rs:153-159. *)
Definition next_key (t : active_set) (key : nat) (st : slab A) : res (active_set * option nat) :=
  ss_next (active_cmp st) t key.
(** active.rs:161-164. *)
Definition add_key (t : active_set) (key : nat) (st : slab A) : res active_set :=
  let* _ := check (slab_contains st key) "active.rs:162 debug_assert contains" in
  let* (t', b) := ss_insert (active_cmp st) t key in
  let* _ := check b "active.rs:163 assert insert" in
  Ok t'.
(** active.rs:166-171. *)
Definition remove_key (t : active_set) (key : nat) (st : slab A) : res active_set :=
  let* _ := check (slab_contains st key) "active.rs:167 debug_assert contains" in
  let* (t', b) := ss_remove (active_cmp st) t key in
  let* _ := check b "active.rs:170 assert remove" in
  Ok t'.
End Active.
