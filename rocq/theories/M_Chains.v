(** Model of src/monotone/segment.rs:227-288 and src/monotone/chains.rs on exact
    scalars.  Logging is dropped. *)
Require Import List String Bool Arith.
From Verif Require Import Base Scalar M_Events M_Geo M_LineOrPoint M_Slab M_MonoPoly M_Rings M_Op M_MonoSweep.
Import ListNotations.
Local Open Scope string_scope.
Local Open Scope list_scope.

(** segment.rs:230-235.  [c_coords] is the vector [coords] read from its end. *)
Record mchain : Type := mkMchain { c_int : winding; c_other : nat; c_coords : list pt; c_done : bool }.
(** segment.rs:244-252, with the coordinates in order. *)
Definition mchain_new (interior : winding) (other : nat) (coords : list pt) : res mchain :=
  let* _ := check (1 <? List.length coords)%nat "segment.rs:245 assert" in
  Ok (mkMchain interior other (rev coords) false).
(** segment.rs:253-255. *)
Definition c_next (c : mchain) : res pt :=
  match c_coords c with p :: _ => Ok p | [] => Panic "segment.rs:254 unwrap on None" end.
(** segment.rs:256-258. *)
Definition c_curr (c : mchain) : res pt :=
  match c_coords c with _ :: p :: _ => Ok p | _ => Panic "segment.rs:257 index out of bounds" end.
(** segment.rs:260-262. *)
Definition c_pop (c : mchain) : res (mchain * pt) :=
  match c_coords c with
  | p :: l => Ok (mkMchain (c_int c) (c_other c) l (c_done c), p)
  | [] => Panic "segment.rs:261 unwrap on None"
  end.
(** segment.rs:264-266. *)
Definition c_advance (p : pt) (c : mchain) : mchain := mkMchain (c_int c) (c_other c) (p :: c_coords c) (c_done c).
(** segment.rs:267-270. *)
Definition c_finish (c : mchain) : res mchain :=
  let* _ := check (negb (c_done c)) "segment.rs:268 debug_assert" in
  Ok (mkMchain (c_int c) (c_other c) (c_coords c) true).
(** segment.rs:237-241. *)
Definition c_line_string (c : mchain) : list pt := rev (c_coords c).

(** [chains[i]]. *)
Definition mchain_at (cs : list mchain) (i : nat) : res mchain := expect (nth_error cs i) "chains.rs: index out of bounds".

(** The positions, from [i] on, of the chains with a property. *)
Fixpoint positions (f : mchain -> res bool) (i : nat) (cs : list mchain) : res (list nat) :=
  match cs with
  | [] => Ok []
  | c :: cs' =>
      let* b := f c in
      let* r := positions f (S i) cs' in
      Ok (if b : bool then i :: r else r)
  end.
(** The position of the first chain with a property, chains.rs:86-92. *)
Fixpoint find_position (f : mchain -> res bool) (i : nat) (cs : list mchain) : res (option nat) :=
  match cs with
  | [] => Ok None
  | c :: cs' =>
      let* b := f c in
      if b : bool then Ok (Some i) else find_position f (S i) cs'
  end.
(** chains.rs:102-104, 225 and, negated, 225-226. *)
Definition looks_at (p : pt) (c : mchain) : res bool :=
  if c_done c then Ok false else let* n := c_next c in Ok (peqb n p).
(** chains.rs:135. *)
Definition stands_at (p : pt) (c : mchain) : res bool :=
  if c_done c then Ok false else let* n := c_curr c in Ok (peqb n p).
(** chains.rs:89-91. *)
Definition on_edge (prev curr : pt) (c : mchain) : res bool :=
  let* b := looks_at curr c in
  if b : bool then let* q := c_curr c in Ok (peqb q prev) else Ok false.

(** chains.rs:105-119, for one chain. *)
Definition merge_chain (ty : vertex_type) (next : pt) (limbs : option (pt * pt)) (c : mchain) : res mchain :=
  let c1 := c_advance next c in
  match ty with
  | VSplit =>
      let* (top, bot) := expect limbs "chains.rs:110 unwrap on None" in
      Ok (c_advance (match c_int c with Cw => bot | Ccw => top end) c1)
  | _ => Ok c1
  end.
(** chains.rs:99-120: the chains and the number of those that were moved. *)
Fixpoint merge_chains (ty : vertex_type) (prev next : pt) (limbs : option (pt * pt)) (cs : list mchain) : res (list mchain * nat) :=
  match cs with
  | [] => Ok ([], 0%nat)
  | c :: cs' =>
      let* b := looks_at prev c in
      let* c' := (if b : bool then merge_chain ty next limbs c else Ok c) in
      let* (r, n) := merge_chains ty prev next limbs cs' in
      Ok (c' :: r, if b : bool then S n else n)
  end.
(** chains.rs:131-169: which chain is split. *)
Definition split_position (prev next : pt) (cs : list mchain) : res nat :=
  let* prevs := positions (stands_at prev) 0 cs in
  match prevs with
  | [i] => Ok i
  | [i; j] =>
      let* ci := mchain_at cs i in
      let* cj := mchain_at cs j in
      let* (ccw, cw) :=
        (if winding_eqb (c_int ci) Ccw then Ok (i, j)
         else
           let* _ := check (winding_eqb (c_int cj) Ccw) "chains.rs:151 debug_assert_eq" in
           Ok (j, i)) in
      let* c := mchain_at cs ccw in
      let* n := c_next c in
      Ok (match orient2d next prev n with CounterClockwise => ccw | _ => cw end)
  | _ => Panic "chains.rs:168 too many chains with curr == prev at split event"
  end.

(** chains.rs:58-220, one link: the chains and [curr_idx]. *)
Definition apply_link (p : pt) (ty : vertex_type) (a : list mchain * option nat) (l : mlink) : res (list mchain * option nat) :=
  let '(cs, cur) := a in
  match l with
  | LStart root top bot =>
      let* _ := check (peqb root p) "chains.rs:61 debug_assert_eq" in
      let tdx := List.length cs in
      let bdx := S tdx in
      let* ct := mchain_new Cw bdx [root; top] in
      let* cb := mchain_new Ccw tdx [root; bot] in
      Ok (cs ++ [ct; cb], cur)
  | LContinue prev curr next _ =>
      let* _ := check (peqb curr p) "chains.rs:84 debug_assert_eq" in
      let* o := find_position (on_edge prev curr) 0 cs in
      let* idx := expect o "chains.rs:92 chain for continue" in
      let* c := mchain_at cs idx in
      Ok (list_set idx (c_advance next c) cs, Some idx)
  | LMerge prev next limbs =>
      let* _ := check (peqb next p) "chains.rs:98 debug_assert_eq" in
      let* (cs', num) := merge_chains ty prev next limbs cs in
      let* _ := check (num =? 2)%nat "chains.rs:122 debug_assert_eq" in
      Ok (cs', cur)
  | LSplit prev next top bot =>
      let* _ := check (peqb next p) "chains.rs:130 debug_assert_eq" in
      let* idx := split_position prev next cs in
      let* c := mchain_at cs idx in
      let* (c1, old_next) := c_pop c in
      let '(limb, other) := match c_int c with Cw => (bot, top) | Ccw => (top, bot) end in
      let cs1 := list_set idx (c_advance limb (c_advance next c1)) cs in
      let tdx := List.length cs1 in
      let bdx := S tdx in
      let* ch1 := mchain_new (c_int c) bdx [prev; old_next] in
      let* ch2 := mchain_new (winding_inverse (c_int c)) tdx [prev; next; other] in
      Ok (cs1 ++ [ch1; ch2], cur)
  | LEnd _ _ sink =>
      let* _ := check (peqb sink p) "chains.rs:218 debug_assert_eq" in
      Ok (cs, cur)
  end.

(** chains.rs:36-48: only the assertion. *)
Definition finalize_pair (c1 c2 : mchain) : res unit :=
  check (negb (winding_eqb (c_int c1) (c_int c2))) "chains.rs:37 debug_assert_ne".
(** Finishing chains number [i] and [j], chains.rs:250-252 and 269-271. *)
Definition finish_both (i j : nat) (cs : list mchain) : res (list mchain) :=
  let* ci := mchain_at cs i in
  let* ci' := c_finish ci in
  let cs1 := list_set i ci' cs in
  let* cj := mchain_at cs1 j in
  let* cj' := c_finish cj in
  let cs2 := list_set j cj' cs1 in
  let* a := mchain_at cs2 i in
  let* b := mchain_at cs2 j in
  let* _ := finalize_pair a b in
  Ok cs2.
(** chains.rs:259-273, the loop body. *)
Definition close_look (cs : list mchain) (idx : nat) : res (list mchain) :=
  let* ch1 := mchain_at cs idx in
  let jdx := c_other ch1 in
  let* ch2 := mchain_at cs jdx in
  let* _ := check (eqb (c_done ch1) (c_done ch2)) "chains.rs:263 debug_assert_eq" in
  if c_done ch1 then Ok cs
  else
    let* n1 := c_next ch1 in
    let* n2 := c_next ch2 in
    if peqb n1 n2 then finish_both idx jdx cs else Ok cs.
(** chains.rs:222-276. *)
Definition reduce_point (p : pt) (cs : list mchain) (cur : option nat) : res (list mchain) :=
  let* looks := positions (looks_at p) 0 cs in
  let* _ := check (List.length looks mod 2 =? 0)%nat "chains.rs:233 debug_assert_eq" in
  match cur, looks with
  | _, [] => Ok cs
  | Some cur, l0 :: l1 :: rest =>
      let* _ := check (match rest with [] => true | _ => false end) "chains.rs:237 debug_assert_eq" in
      let* c0 := mchain_at cs l0 in
      let* c1 := mchain_at cs l1 in
      let* (pr, other) :=
        (if (c_other c0 =? cur)%nat then Ok (l0, l1)
         else if (c_other c1 =? cur)%nat then Ok (l1, l0)
         else Panic "chains.rs:243 no merge idx matches curr.other!") in
      let* cc := mchain_at cs cur in
      let* (cc', new_next) := c_pop cc in
      let cs1 := list_set cur cc' cs in
      let* n1 := c_next cc' in
      let* cp := mchain_at cs1 pr in
      let* n2 := c_next cp in
      let* _ := check (peqb n1 n2) "chains.rs:247 debug_assert_eq" in
      let* cs2 := finish_both cur pr cs1 in
      let* co := mchain_at cs2 other in
      Ok (list_set other (c_advance new_next co) cs2)
  | Some _, [_] => Panic "chains.rs:237 debug_assert_eq"
  | None, _ => fold_res close_look cs looks
  end.
(** chains.rs:51-277, one event. *)
Definition chain_event (cs : list mchain) (e : sweep_event) : res (list mchain) :=
  let* (cs1, cur) := fold_res (apply_link (se_pt e) (se_ty e)) (cs, None) (se_links e) in
  reduce_point (se_pt e) cs1 cur.

(** chains.rs:279-291: the pairs. *)
Fixpoint chain_pairs (i : nat) (cs : list mchain) : res (list (nat * nat)) :=
  match cs with
  | [] => Ok []
  | c :: cs' =>
      let* _ := check (c_done c) "chains.rs:284 debug_assert" in
      let* r := chain_pairs (S i) cs' in
      Ok (match c_int c with Cw => (i, c_other c) :: r | Ccw => r end)
  end.
(** [std::mem::replace(&mut lines[i], LineString(vec![]))]. *)
Definition take_line (i : nat) (lines : list (list pt)) : res (list (list pt) * list pt) :=
  let* l := expect (nth_error lines i) "chains.rs: index out of bounds" in
  Ok (list_set i [] lines, l).
(** chains.rs:293-300. *)
Fixpoint take_pairs (pairs : list (nat * nat)) (lines : list (list pt)) : res (list mono_poly) :=
  match pairs with
  | [] => Ok []
  | (t, b) :: pairs' =>
      let* (lines1, top) := take_line t lines in
      let* (lines2, bot) := take_line b lines1 in
      let* m := mp_new top bot in
      let* r := take_pairs pairs' lines2 in
      Ok (m :: r)
  end.
(** chains.rs:279-300. *)
Definition chains_out (cs : list mchain) : res (list mono_poly) :=
  let* pairs := chain_pairs 0 cs in
  let lines := map c_line_string cs in
  let* _ := check (List.length pairs * 2 =? List.length lines)%nat "chains.rs:292 debug_assert_eq" in
  take_pairs pairs lines.

Section Chains.
Variable presort : list event -> list event.
Variable pick : list nat -> nat -> nat -> nat.
(** chains.rs:51-277.  [n] bounds the number of events. *)
Fixpoint chains_loop (n : nat) (s : msweep) (cs : list mchain) : res (list mchain) :=
  match n with
  | O => NoFuel
  | S n' =>
      let* (s', o) := process_event pick s in
      match o with
      | None => Ok cs
      | Some e => let* cs' := chain_event cs e in chains_loop n' s' cs'
      end
  end.
(** chains.rs:33-301.  An event of the sweep uses up two of its line events, so
    the loop ends before the bound is reached. *)
Definition monotone_chains (p : polygon) : res (list mono_poly) :=
  let* s := from_polygon presort p in
  let* cs := chains_loop (S (List.length (ms_events s))) s [] in
  chains_out cs.
End Chains.
