(** Results of Rust computations.

    A Rust function either returns a value or panics.  [Panic msg] stands for
    every kind of panic (assert!, debug_assert!, expect, unwrap, unreachable!,
    index out of bounds, a panicking comparator); the message names the place.
    [NoFuel] is an artefact of the model: a fuelled loop ran out of fuel.  No
    theorem of the form "never panics" accepts [NoFuel]. *)
Require Import List String.
Import ListNotations.

Inductive res (A : Type) : Type :=
| Ok (a : A)
| Panic (msg : string)
| NoFuel.
Arguments Ok {A} a.
Arguments Panic {A} msg.
Arguments NoFuel {A}.

Definition bind {A B} (m : res A) (f : A -> res B) : res B :=
  match m with
  | Ok a => f a
  | Panic s => Panic s
  | NoFuel => NoFuel
  end.

Declare Scope res_scope.
Delimit Scope res_scope with res.
Notation "'let*' x ':=' m 'in' k" := (bind m (fun x => k))
  (at level 200, x pattern, m at level 100, k at level 200, right associativity)
  : res_scope.
Open Scope res_scope.

(** Rust's [assert!]/[debug_assert!]. *)
Definition check (b : bool) (msg : string) : res unit :=
  if b then Ok tt else Panic msg.

(** Rust's [Option::expect]/[unwrap]. *)
Definition expect {A} (o : option A) (msg : string) : res A :=
  match o with Some a => Ok a | None => Panic msg end.

(** A panicking loop body applied to a list, left to right. *)
Fixpoint fold_res {A S} (f : S -> A -> res S) (s : S) (l : list A) : res S :=
  match l with
  | [] => Ok s
  | a :: l' => let* s' := f s a in fold_res f s' l'
  end.

(** The computation returns a value. *)
Definition is_ok {A} (m : res A) : Prop := exists a, m = Ok a.
