(** Model of the external crate slab 0.4: a vector of entries with a LIFO free
    list; keys are reused in last-freed-first order.  Part of the trusted
    base. *)
Require Import List String Bool Arith.
From Verif Require Import Base.
Import ListNotations.
Local Open Scope string_scope.

Section Slab.
Context {A : Type}.

(** slab: enum Entry. *)
Inductive entry : Type :=
| Vacant (next : nat)
| Occupied (a : A).

(** slab: struct Slab (the [len] field is not observable here). *)
Record slab : Type := mkSlab { s_entries : list entry; s_next : nat }.

Definition slab_new : slab := mkSlab [] 0.

Fixpoint list_set {B} (n : nat) (b : B) (l : list B) : list B :=
  match n, l with
  | _, [] => []
  | 0, _ :: l' => b :: l'
  | S n', x :: l' => x :: list_set n' b l'
  end.

(** Slab::get. *)
Definition slab_get (s : slab) (k : nat) : option A :=
  match nth_error (s_entries s) k with
  | Some (Occupied a) => Some a
  | _ => None
  end.
(** Slab::contains. *)
Definition slab_contains (s : slab) (k : nat) : bool :=
  match slab_get s k with Some _ => true | None => false end.
(** get_unchecked / get_unchecked_mut: reading a vacant entry is undefined
    behaviour (slab's own implementation panics); modelled as a panic. *)
Definition slab_get_unchecked (s : slab) (k : nat) : res A :=
  expect (slab_get s k) "slab: get_unchecked on a vacant key".
(** Overwriting an existing value through a mutable reference. *)
Definition slab_set (s : slab) (k : nat) (a : A) : res slab :=
  match slab_get s k with
  | Some _ => Ok (mkSlab (list_set k (Occupied a) (s_entries s)) (s_next s))
  | None => Panic "slab: get_unchecked_mut on a vacant key"
  end.
(** Slab::vacant_entry().key(). *)
Definition slab_vacant_key (s : slab) : nat := s_next s.
(** VacantEntry::insert / Slab::insert_at. *)
Definition slab_insert (s : slab) (a : A) : res slab :=
  let k := s_next s in
  if Nat.eqb k (List.length (s_entries s)) then
    Ok (mkSlab (s_entries s ++ [Occupied a]) (S k))
  else
    match nth_error (s_entries s) k with
    | Some (Vacant n) => Ok (mkSlab (list_set k (Occupied a) (s_entries s)) n)
    | _ => Panic "slab: corrupt free list"
    end.
(** Slab::remove. *)
Definition slab_remove (s : slab) (k : nat) : res (slab * A) :=
  match nth_error (s_entries s) k with
  | Some (Occupied a) => Ok (mkSlab (list_set k (Vacant (s_next s)) (s_entries s)) k, a)
  | _ => Panic "slab: invalid key"
  end.
End Slab.
Arguments slab : clear implicits.
Arguments entry : clear implicits.
