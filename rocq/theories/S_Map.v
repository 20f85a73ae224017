(** Specification of sorted maps as association lists, independent of trees. *)
Require Import List Bool.
Import ListNotations.

Section Spec.
Context {K V : Type}.
Variable cmp : K -> K -> comparison.

(** [cmp] is a total preorder (equal keys need not be identical). *)
Record total_order : Prop := {
  to_opp : forall a b, cmp b a = CompOpp (cmp a b);
  to_trans : forall a b c, cmp a b <> Gt -> cmp b c <> Gt -> cmp a c <> Gt
}.

Definition key_eqb (a b : K) : bool := match cmp a b with Eq => true | _ => false end.
Definition key_ltb (a b : K) : bool := match cmp a b with Lt => true | _ => false end.

(** The entry stored under a key equal to [k]. *)
Definition sm_find (k : K) (l : list (K * V)) : option (K * V) :=
  find (fun e => key_eqb k (fst e)) l.

(** Store [v] under [k]: an existing equal key keeps its place and its key object. *)
Fixpoint sm_insert (k : K) (v : V) (l : list (K * V)) : list (K * V) :=
  match l with
  | [] => [(k, v)]
  | (k', v') :: l' =>
      if key_eqb k k' then (k', v) :: l'
      else if key_ltb k k' then (k, v) :: (k', v') :: l'
      else (k', v') :: sm_insert k v l'
  end.

(** Remove the entry whose key equals [k]. *)
Definition sm_remove (k : K) (l : list (K * V)) : list (K * V) :=
  filter (fun e => negb (key_eqb k (fst e))) l.

(** Apply [f] to the value stored under [k]. *)
Definition sm_update (k : K) (f : V -> V) (l : list (K * V)) : list (K * V) :=
  map (fun e => if key_eqb k (fst e) then (fst e, f (snd e)) else e) l.

(** First entry with a key above [k]; last entry with a key below [k]. *)
Definition sm_next (k : K) (l : list (K * V)) : option (K * V) :=
  find (fun e => key_ltb k (fst e)) l.
Definition sm_prev (k : K) (l : list (K * V)) : option (K * V) :=
  find (fun e => key_ltb (fst e) k) (rev l).

Definition sm_first (l : list (K * V)) : option K := hd_error (map fst l).
Definition sm_last (l : list (K * V)) : option K := hd_error (map fst (rev l)).

(** Strictly increasing keys. *)
Fixpoint sm_sorted (l : list (K * V)) : Prop :=
  match l with
  | [] => True
  | e :: l' => Forall (fun e' => cmp (fst e) (fst e') = Lt) l' /\ sm_sorted l'
  end.

(** Calls of the map interface. [OGetMut k f] overwrites the value found by its
    image under [f]. *)
Inductive map_op : Type :=
| OInsert (k : K) (v : V)
| ORemove (k : K)
| OGet (k : K)
| OGetMut (k : K) (f : V -> V)
| OContains (k : K)
| OFindKey (k : K)
| ONext (k : K)
| OPrev (k : K)
| OMin
| OMax
| OLen
| OIsEmpty
| OExtend (items : list (K * V))
| OClear.

(** Answers. *)
Inductive map_ans : Type :=
| AUnit
| AVal (o : option V)
| AKey (o : option K)
| AEntry (o : option (K * V))
| ABool (b : bool)
| ANat (n : nat).

(** What a sorted association list answers. *)
Definition sm_step (l : list (K * V)) (op : map_op) : list (K * V) * map_ans :=
  match op with
  | OInsert k v => (sm_insert k v l, AVal (option_map snd (sm_find k l)))
  | ORemove k => (sm_remove k l, AVal (option_map snd (sm_find k l)))
  | OGet k => (l, AVal (option_map snd (sm_find k l)))
  | OGetMut k f => (sm_update k f l, AVal (option_map snd (sm_find k l)))
  | OContains k => (l, ABool (if sm_find k l then true else false))
  | OFindKey k => (l, AKey (option_map fst (sm_find k l)))
  | ONext k => (l, AEntry (sm_next k l))
  | OPrev k => (l, AEntry (sm_prev k l))
  | OMin => (l, AKey (sm_first l))
  | OMax => (l, AKey (sm_last l))
  | OLen => (l, ANat (length l))
  | OIsEmpty => (l, ABool (match l with [] => true | _ => false end))
  | OExtend items => (fold_left (fun l kv => sm_insert (fst kv) (snd kv) l) items l, AUnit)
  | OClear => ([], AUnit)
  end.

(** The answers to a whole history of calls, starting from the empty map. *)
Fixpoint sm_run (l : list (K * V)) (ops : list map_op) : list (K * V) * list map_ans :=
  match ops with
  | [] => (l, [])
  | op :: ops' =>
      let '(l1, a) := sm_step l op in
      let '(l2, r) := sm_run l1 ops' in
      (l2, a :: r)
  end.

(** The calls that take [&self] and only look. *)
Definition is_lookup (op : map_op) : Prop :=
  match op with
  | OGet _ | OContains _ | OFindKey _ | ONext _ | OPrev _ | OMin | OMax | OLen | OIsEmpty => True
  | _ => False
  end.

End Spec.

(** Taking elements from both ends of a list: [true] takes the first, [false]
    the last element. Each answer is paired with the number of elements left
    before the call. *)
Fixpoint deque_run {A} (l : list A) (calls : list bool) : list (option A * (nat * option nat)) :=
  match calls with
  | [] => []
  | true :: calls' =>
      (hd_error l, (length l, Some (length l))) :: deque_run (tl l) calls'
  | false :: calls' =>
      (hd_error (rev l), (length l, Some (length l))) :: deque_run (removelast l) calls'
  end.

(** * Sorted sets as lists *)
Section SetSpec.
Context {T : Type}.
Variable cmp : T -> T -> comparison.

Definition set_find (t : T) (l : list T) : option T := find (fun e => key_eqb cmp t e) l.
(** A new element goes to its sorted place; an equal one leaves the set alone. *)
Fixpoint set_insert (t : T) (l : list T) : list T :=
  match l with
  | [] => [t]
  | t' :: l' =>
      if key_eqb cmp t t' then t' :: l'
      else if key_ltb cmp t t' then t :: t' :: l'
      else t' :: set_insert t l'
  end.
Definition set_remove (t : T) (l : list T) : list T := filter (fun e => negb (key_eqb cmp t e)) l.
Definition set_next (t : T) (l : list T) : option T := find (fun e => key_ltb cmp t e) l.
Definition set_prev (t : T) (l : list T) : option T := find (fun e => key_ltb cmp e t) (rev l).

Inductive set_op : Type :=
| SInsert (t : T)
| SRemove (t : T)
| SContains (t : T)
| SFind (t : T)
| SNext (t : T)
| SPrev (t : T)
| SMin
| SMax
| SLen
| SIsEmpty
| SExtend (items : list T)
| SClear.

Inductive set_ans : Type :=
| SUnit
| SBool (b : bool)
| SElem (o : option T)
| SNat (n : nat).

Definition is_some {A} (o : option A) : bool := match o with Some _ => true | None => false end.

Definition set_step (l : list T) (op : set_op) : list T * set_ans :=
  match op with
  | SInsert t => (set_insert t l, SBool (negb (is_some (set_find t l))))
  | SRemove t => (set_remove t l, SBool (is_some (set_find t l)))
  | SContains t => (l, SBool (is_some (set_find t l)))
  | SFind t => (l, SElem (set_find t l))
  | SNext t => (l, SElem (set_next t l))
  | SPrev t => (l, SElem (set_prev t l))
  | SMin => (l, SElem (hd_error l))
  | SMax => (l, SElem (hd_error (rev l)))
  | SLen => (l, SNat (length l))
  | SIsEmpty => (l, SBool (Nat.eqb (length l) 0))
  | SExtend items => (fold_left (fun l t => set_insert t l) items l, SUnit)
  | SClear => ([], SUnit)
  end.

Fixpoint set_run (l : list T) (ops : list set_op) : list T * list set_ans :=
  match ops with
  | [] => (l, [])
  | op :: ops' =>
      let '(l1, a) := set_step l op in
      let '(l2, r) := set_run l1 ops' in
      (l2, a :: r)
  end.
End SetSpec.
