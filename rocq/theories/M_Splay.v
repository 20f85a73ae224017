(** Model of src/splay/{node,tree,set}.rs (and src/splay/mod.rs).

    A Rust comparator is a closure [Fn(&K,&K) -> Ordering] that may panic, so it
    is a function into [res comparison].  The tree is rebuilt functionally: the
    two raw "hole" pointers [l] and [r] of the Rust [splay] are two lists of
    pending nodes.  Every operation returns the new tree, because even the
    operations that take [&self] rewrite the tree through an [UnsafeCell].
    Simplification: [size: usize] is a [nat] (no wrap-around at 2^64). *)
Require Import List String.
From Verif Require Import Base.
Import ListNotations.
Local Open Scope string_scope.

Section Splay.
Context {K V : Type}.

(** node.rs:1-7 [Option<Box<Node<K,V>>>]. *)
Inductive tree : Type :=
| Leaf
| Node (left : tree) (key : K) (value : V) (right : tree).

Variable comparator : K -> K -> res comparison.

(** A node whose right (resp. left) child is the hole pointed to by [l]
    (resp. [r]) in tree.rs:408-410. *)
Definition pending : Type := (tree * K * V)%type.

(** tree.rs:467,471: fill the hole of the tree growing on the left. The head of
    the list is the most recently linked node. *)
Fixpoint close_left (ctx : list pending) (t : tree) : tree :=
  match ctx with
  | [] => t
  | (lt, k, v) :: ctx' => close_left ctx' (Node lt k v t)
  end.

(** tree.rs:468,472: fill the hole of the tree growing on the right. *)
Fixpoint close_right (ctx : list pending) (t : tree) : tree :=
  match ctx with
  | [] => t
  | (rt, k, v) :: ctx' => close_right ctx' (Node t k v rt)
  end.

(** tree.rs:467-472. *)
Definition splay_done (lc rc : list pending) (l : tree) (k : K) (v : V) (r : tree) : tree :=
  Node (close_left lc l) k v (close_right rc r).

Definition is_lt (c : comparison) : bool := match c with Lt => true | _ => false end.
Definition is_eq (c : comparison) : bool := match c with Eq => true | _ => false end.
Definition is_gt (c : comparison) : bool := match c with Gt => true | _ => false end.

(** tree.rs:412-465, the loop of [splay]; [lc]/[rc] are the trees under
    construction.  [Leaf] is never passed by the callers. *)
Fixpoint splay_loop (key : K) (node : tree) (lc rc : list pending) {struct node} : res tree :=
  match node with
  | Leaf => Panic "tree.rs:398 splay on an empty tree"
  | Node l k v r =>
      let* o := comparator key k in
      match o with
      | Eq => Ok (splay_done lc rc l k v r)                                  (* 415 *)
      | Lt =>
          match l with
          | Leaf => Ok (splay_done lc rc Leaf k v r)                         (* 418-421 *)
          | Node ll kl vl lr =>
              let* o2 := comparator key kl in
              if is_lt o2 then                                               (* 423-434 rotate right *)
                match ll with
                | Leaf => Ok (splay_done lc rc Leaf kl vl (Node lr k v r))   (* 432 *)
                | Node _ _ _ _ => splay_loop key ll lc ((Node lr k v r, kl, vl) :: rc)
                end
              else splay_loop key l lc ((r, k, v) :: rc)                     (* 436-438 *)
          end
      | Gt =>
          match r with
          | Leaf => Ok (splay_done lc rc l k v Leaf)                         (* 444-447 *)
          | Node rl kr vr rr =>
              let* o2 := comparator key kr in
              if is_gt o2 then                                               (* 449-459 rotate left *)
                match rr with
                | Leaf => Ok (splay_done lc rc (Node l k v rl) kr vr Leaf)   (* 457 *)
                | Node _ _ _ _ => splay_loop key rr ((Node l k v rl, kr, vr) :: lc) rc
                end
              else splay_loop key r ((l, k, v) :: lc) rc                     (* 460-462 *)
          end
      end
  end.

(** tree.rs:398-473. *)
Definition splay (key : K) (node : tree) : res tree := splay_loop key node [] [].

(** tree.rs:8-15. The comparator is a parameter of the section. *)
Record splay_tree : Type := mkTree { root : tree; size : nat }.

(** tree.rs:21-27. *)
Definition st_new : splay_tree := mkTree Leaf 0.
(** tree.rs:28-30. *)
Definition st_len (s : splay_tree) : nat := size s.
(** tree.rs:32-34. *)
Definition st_is_empty (s : splay_tree) : bool := Nat.eqb (st_len s) 0.
(** tree.rs:36-39. *)
Definition st_clear (s : splay_tree) : splay_tree := mkTree Leaf 0.

(** tree.rs:76-89; returns the rewritten tree and the stored entry. [get]
    (45-58) and [find_key] (76-89) are the same code returning the value resp.
    the key. *)
Definition st_find (s : splay_tree) (key : K) : res (splay_tree * option (K * V)) :=
  match root s with
  | Leaf => Ok (s, None)
  | Node _ _ _ _ =>
      let* t := splay key (root s) in
      match t with
      | Leaf => Panic "unreachable"
      | Node _ k v _ =>
          let* o := comparator key k in
          Ok (mkTree t (size s), if is_eq o then Some (k, v) else None)
      end
  end.

(** tree.rs:45-58. *)
Definition st_get (s : splay_tree) (key : K) : res (splay_tree * option V) :=
  let* (s', o) := st_find s key in Ok (s', option_map snd o).
(** tree.rs:76-89. *)
Definition st_find_key (s : splay_tree) (key : K) : res (splay_tree * option K) :=
  let* (s', o) := st_find s key in Ok (s', option_map fst o).
(** tree.rs:41-43. *)
Definition st_contains (s : splay_tree) (key : K) : res (splay_tree * bool) :=
  let* (s', o) := st_find_key s key in
  Ok (s', match o with Some _ => true | None => false end).

(** tree.rs:61-74 [get_mut], used to overwrite the value [v] by [f v]; returns
    the value found. *)
Definition st_get_mut (s : splay_tree) (key : K) (f : V -> V) : res (splay_tree * option V) :=
  match root s with
  | Leaf => Ok (s, None)
  | Node _ _ _ _ =>
      let* t := splay key (root s) in
      match t with
      | Leaf => Panic "unreachable"
      | Node l k v r =>
          let* o := comparator key k in
          if is_eq o then Ok (mkTree (Node l k (f v) r) (size s), Some v)
          else Ok (mkTree t (size s), None)
      end
  end.

(** tree.rs:103-117, the descent of [next]. *)
Fixpoint next_loop (key : K) (node : tree) (successor : option (K * V)) : res (option (K * V)) :=
  match node with
  | Leaf => Ok successor
  | Node l k v r =>
      let* o := comparator key k in
      match o with
      | Lt => next_loop key l (Some (k, v))
      | Eq | Gt => next_loop key r successor
      end
  end.

(** tree.rs:91-120. *)
Definition st_next (s : splay_tree) (key : K) : res (splay_tree * option (K * V)) :=
  match root s with
  | Leaf => Ok (s, None)
  | Node _ _ _ _ =>
      let* t := splay key (root s) in
      let* o := next_loop key t None in
      Ok (mkTree t (size s), o)
  end.

(** tree.rs:134-148, the descent of [prev]. *)
Fixpoint prev_loop (key : K) (node : tree) (predecessor : option (K * V)) : res (option (K * V)) :=
  match node with
  | Leaf => Ok predecessor
  | Node l k v r =>
      let* o := comparator key k in
      match o with
      | Eq | Lt => prev_loop key l predecessor
      | Gt => prev_loop key r (Some (k, v))
      end
  end.

(** tree.rs:122-151. *)
Definition st_prev (s : splay_tree) (key : K) : res (splay_tree * option (K * V)) :=
  match root s with
  | Leaf => Ok (s, None)
  | Node _ _ _ _ =>
      let* t := splay key (root s) in
      let* o := prev_loop key t None in
      Ok (mkTree t (size s), o)
  end.

(** tree.rs:153-183. *)
Definition st_insert (s : splay_tree) (key : K) (value : V) : res (splay_tree * option V) :=
  match root s with
  | Leaf => Ok (mkTree (Node Leaf key value Leaf) (S (size s)), None)
  | Node _ _ _ _ =>
      let* t := splay key (root s) in
      match t with
      | Leaf => Panic "unreachable"
      | Node l k v r =>
          let* o := comparator key k in
          match o with
          | Eq => Ok (mkTree (Node l k value r) (size s), Some v)
          | Lt => Ok (mkTree (Node l key value (Node Leaf k v r)) (S (size s)), None)
          | Gt => Ok (mkTree (Node (Node l k v Leaf) key value r) (S (size s)), None)
          end
      end
  end.

(** [usize] subtraction: panics on underflow (debug) . *)
Definition usize_dec (n : nat) : res nat :=
  match n with 0 => Panic "usize underflow" | S m => Ok m end.

(** tree.rs:185-211. [node.right = right] (line 204) overwrites whatever the
    right child was. *)
Definition st_remove (s : splay_tree) (key : K) : res (splay_tree * option V) :=
  match root s with
  | Leaf => Ok (s, None)
  | Node _ _ _ _ =>
      let* t := splay key (root s) in
      match t with
      | Leaf => Panic "unreachable"
      | Node lft k value rgt =>
          let* o := comparator key k in
          if is_eq o then
            let* nroot :=
              match lft with
              | Leaf => Ok rgt
              | Node _ _ _ _ =>
                  let* t2 := splay key lft in
                  match t2 with
                  | Leaf => Panic "unreachable"
                  | Node l2 k2 v2 _ => Ok (Node l2 k2 v2 rgt)
                  end
              end in
            let* n := usize_dec (size s) in
            Ok (mkTree nroot n, Some value)
          else Ok (mkTree t (size s), None)
      end
  end.

(** tree.rs:221-233. *)
Fixpoint min_node (t : tree) : option (K * V) :=
  match t with
  | Leaf => None
  | Node Leaf k v _ => Some (k, v)
  | Node l _ _ _ => min_node l
  end.
(** tree.rs:235-247. *)
Fixpoint max_node (t : tree) : option (K * V) :=
  match t with
  | Leaf => None
  | Node _ k v Leaf => Some (k, v)
  | Node _ _ _ r => max_node r
  end.
(** tree.rs:213-215. *)
Definition st_min (s : splay_tree) : option K := option_map fst (min_node (root s)).
(** tree.rs:217-219. *)
Definition st_max (s : splay_tree) : option K := option_map fst (max_node (root s)).

(** tree.rs:266-268 [Index::index]. *)
Definition st_index (s : splay_tree) (key : K) : res (splay_tree * V) :=
  let* (s', o) := st_get s key in
  let* v := expect o "tree.rs:267 key not present in SplayMap" in
  Ok (s', v).
(** tree.rs:274-276 [IndexMut::index_mut], used to overwrite the value. *)
Definition st_index_mut (s : splay_tree) (key : K) (f : V -> V) : res (splay_tree * V) :=
  let* (s', o) := st_get_mut s key f in
  let* v := expect o "tree.rs:275 key not present in SplayMap" in
  Ok (s', v).

(** tree.rs:283-287 [Extend::extend]. *)
Definition st_extend (s : splay_tree) (items : list (K * V)) : res splay_tree :=
  fold_res (fun s kv => let* (s', _) := st_insert s (fst kv) (snd kv) in Ok s') s items.

(** tree.rs:325-328. *)
Record into_iter : Type := mkIter { cur : tree; remaining : nat }.

(** tree.rs:297-302. *)
Definition st_into_iter (s : splay_tree) : into_iter := mkIter (root s) (size s).

(** tree.rs:337-355: rotate right until there is no left child. The current
    node is [Node l k v r]. *)
Fixpoint iter_next_loop (l : tree) (k : K) (v : V) (r : tree) : (K * V) * tree :=
  match l with
  | Leaf => ((k, v), r)
  | Node ll kl vl lr => iter_next_loop ll kl vl (Node lr k v r)
  end.

(** tree.rs:332-356. *)
Definition iter_next (it : into_iter) : res (into_iter * option (K * V)) :=
  match cur it with
  | Leaf => Ok (it, None)
  | Node l k v r =>
      let '(e, t) := iter_next_loop l k v r in
      let* n := usize_dec (remaining it) in
      Ok (mkIter t n, Some e)
  end.

(** tree.rs:369-387. *)
Fixpoint iter_back_loop (l : tree) (k : K) (v : V) (r : tree) : (K * V) * tree :=
  match r with
  | Leaf => ((k, v), l)
  | Node rl kr vr rr => iter_back_loop (Node l k v rl) kr vr rr
  end.

(** tree.rs:364-388. *)
Definition iter_next_back (it : into_iter) : res (into_iter * option (K * V)) :=
  match cur it with
  | Leaf => Ok (it, None)
  | Node l k v r =>
      let '(e, t) := iter_back_loop l k v r in
      let* n := usize_dec (remaining it) in
      Ok (mkIter t n, Some e)
  end.

(** tree.rs:358-360. *)
Definition iter_size_hint (it : into_iter) : nat * option nat := (remaining it, Some (remaining it)).

End Splay.

Arguments tree : clear implicits.
Arguments splay_tree : clear implicits.
Arguments into_iter : clear implicits.
Arguments pending : clear implicits.

(** set.rs: [SplaySet<T,C>] wraps [SplayTree<T,(),C>]. *)
Section SplaySet.
Context {T : Type}.
Variable comparator : T -> T -> res comparison.

(** set.rs:5-11. *)
Definition splay_set : Type := splay_tree T unit.
(** set.rs:17-21. *)
Definition ss_new : splay_set := st_new.
(** set.rs:23-25. *)
Definition ss_len (s : splay_set) : nat := st_len s.
(** set.rs:26-28. *)
Definition ss_is_empty (s : splay_set) : bool := Nat.eqb (ss_len s) 0.
(** set.rs:29-31. *)
Definition ss_clear (s : splay_set) : splay_set := st_clear s.
(** set.rs:33-35. *)
Definition ss_contains (s : splay_set) (t : T) := st_contains comparator s t.
(** set.rs:37-39. *)
Definition ss_find (s : splay_set) (t : T) := st_find_key comparator s t.
(** set.rs:41-43. *)
Definition ss_next (s : splay_set) (t : T) : res (splay_set * option T) :=
  let* (s', o) := st_next comparator s t in Ok (s', option_map fst o).
(** set.rs:45-47. *)
Definition ss_prev (s : splay_set) (t : T) : res (splay_set * option T) :=
  let* (s', o) := st_prev comparator s t in Ok (s', option_map fst o).
(** set.rs:49-51. *)
Definition ss_insert (s : splay_set) (t : T) : res (splay_set * bool) :=
  let* (s', o) := st_insert comparator s t tt in
  Ok (s', match o with None => true | Some _ => false end).
(** set.rs:53-55. *)
Definition ss_remove (s : splay_set) (t : T) : res (splay_set * bool) :=
  let* (s', o) := st_remove comparator s t in
  Ok (s', match o with None => false | Some _ => true end).
(** set.rs:57-59. *)
Definition ss_min (s : splay_set) : option T := st_min s.
(** set.rs:61-63. *)
Definition ss_max (s : splay_set) : option T := st_max s.
(** set.rs:73-77. *)
Definition ss_into_iter (s : splay_set) : into_iter T unit := st_into_iter s.
(** set.rs:86-88. *)
Definition ss_iter_next (it : into_iter T unit) : res (into_iter T unit * option T) :=
  let* (it', o) := iter_next it in Ok (it', option_map fst o).
(** set.rs:95-97. *)
Definition ss_iter_next_back (it : into_iter T unit) : res (into_iter T unit * option T) :=
  let* (it', o) := iter_next_back it in Ok (it', option_map fst o).
(** set.rs:104-108. *)
Definition ss_extend (s : splay_set) (items : list T) : res splay_set :=
  fold_res (fun s t => let* (s', _) := ss_insert s t in Ok s') s items.
End SplaySet.

(** A driver: the calls of a history executed on the model (no Rust
    counterpart; it only sequences the operations above). *)
From Verif Require Import S_Map.
Section Driver.
Context {K V : Type}.
Variable comparator : K -> K -> res comparison.

Definition st_step (s : splay_tree K V) (op : map_op) : res (splay_tree K V * @map_ans K V) :=
  match op with
  | OInsert k v => let* (s', o) := st_insert comparator s k v in Ok (s', AVal o)
  | ORemove k => let* (s', o) := st_remove comparator s k in Ok (s', AVal o)
  | OGet k => let* (s', o) := st_get comparator s k in Ok (s', AVal o)
  | OGetMut k f => let* (s', o) := st_get_mut comparator s k f in Ok (s', AVal o)
  | OContains k => let* (s', b) := st_contains comparator s k in Ok (s', ABool b)
  | OFindKey k => let* (s', o) := st_find_key comparator s k in Ok (s', AKey o)
  | ONext k => let* (s', o) := st_next comparator s k in Ok (s', AEntry o)
  | OPrev k => let* (s', o) := st_prev comparator s k in Ok (s', AEntry o)
  | OMin => Ok (s, AKey (st_min s))
  | OMax => Ok (s, AKey (st_max s))
  | OLen => Ok (s, ANat (st_len s))
  | OIsEmpty => Ok (s, ABool (st_is_empty s))
  | OExtend items => let* s' := st_extend comparator s items in Ok (s', AUnit)
  | OClear => Ok (st_clear s, AUnit)
  end.

Fixpoint st_run (s : splay_tree K V) (ops : list map_op) : res (splay_tree K V * list (@map_ans K V)) :=
  match ops with
  | [] => Ok (s, [])
  | op :: ops' =>
      let* (s1, a) := st_step s op in
      let* (s2, r) := st_run s1 ops' in
      Ok (s2, a :: r)
  end.
End Driver.

(** Draining an iterator with [next] until it returns [None] (the [for] loop /
    [collect] of Rust; the fuel [S remaining] is shown to suffice). *)
Section Collect.
Context {K V : Type}.
Fixpoint iter_collect (fuel : nat) (it : into_iter K V) : res (list (K * V)) :=
  match fuel with
  | 0 => NoFuel
  | S fuel' =>
      let* (it', o) := iter_next it in
      match o with
      | None => Ok []
      | Some e => let* l := iter_collect fuel' it' in Ok (e :: l)
      end
  end.
Definition st_collect (s : splay_tree K V) : res (list (K * V)) :=
  iter_collect (S (size s)) (st_into_iter s).

(** A mixed sequence of [next] ([true]) and [next_back] ([false]) calls; each
    answer is paired with the size_hint before the call. *)
Fixpoint iter_run (it : into_iter K V) (calls : list bool)
  : res (list (option (K * V) * (nat * option nat))) :=
  match calls with
  | [] => Ok []
  | front :: calls' =>
      let* (it', o) := if front then iter_next it else iter_next_back it in
      let* r := iter_run it' calls' in
      Ok ((o, iter_size_hint it) :: r)
  end.
End Collect.

(** Driver for histories of set calls. *)
Section SetDriver.
Context {T : Type}.
Variable comparator : T -> T -> res comparison.

Definition ss_step (s : @splay_set T) (op : set_op) : res (@splay_set T * @set_ans T) :=
  match op with
  | SInsert t => let* (s', b) := ss_insert comparator s t in Ok (s', SBool b)
  | SRemove t => let* (s', b) := ss_remove comparator s t in Ok (s', SBool b)
  | SContains t => let* (s', b) := ss_contains comparator s t in Ok (s', SBool b)
  | SFind t => let* (s', o) := ss_find comparator s t in Ok (s', SElem o)
  | SNext t => let* (s', o) := ss_next comparator s t in Ok (s', SElem o)
  | SPrev t => let* (s', o) := ss_prev comparator s t in Ok (s', SElem o)
  | SMin => Ok (s, SElem (ss_min s))
  | SMax => Ok (s, SElem (ss_max s))
  | SLen => Ok (s, SNat (ss_len s))
  | SIsEmpty => Ok (s, SBool (ss_is_empty s))
  | SExtend items => let* s' := ss_extend comparator s items in Ok (s', SUnit)
  | SClear => Ok (ss_clear s, SUnit)
  end.

Fixpoint ss_run (s : @splay_set T) (ops : list set_op) : res (@splay_set T * list (@set_ans T)) :=
  match ops with
  | [] => Ok (s, [])
  | op :: ops' =>
      let* (s1, a) := ss_step s op in
      let* (s2, r) := ss_run s1 ops' in
      Ok (s2, a :: r)
  end.

(** Draining [set.rs] [IntoIter] with [next] (set.rs:86-88) / [next_back]
    (95-97). *)
Fixpoint ss_iter_run (it : into_iter T unit) (calls : list bool)
  : res (list (option T * (nat * option nat))) :=
  match calls with
  | [] => Ok []
  | front :: calls' =>
      let* (it', o) := if front then ss_iter_next it else ss_iter_next_back it in
      let* r := ss_iter_run it' calls' in
      Ok ((o, iter_size_hint it) :: r)
  end.
End SetDriver.
