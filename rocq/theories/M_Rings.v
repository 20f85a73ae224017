(** Model of src/bops/rings.rs on exact scalars.  Logging is dropped; with it
    goes the [Debug] output.  A [BTreeMap] is an association list that is only
    accessed by key; its order is not used by the code. *)
Require Import List String Bool Arith.
From Verif Require Import Base Scalar M_Events M_Geo M_LineOrPoint M_Slab M_MonoPoly.
Import ListNotations.
Local Open Scope string_scope.
Local Open Scope list_scope.

(** geo::winding_order::WindingOrder. *)
Inductive winding : Type := Cw | Ccw.
Definition winding_eqb (a b : winding) : bool :=
  match a, b with Cw, Cw | Ccw, Ccw => true | _, _ => false end.
(** utils.rs:11-16. *)
Definition winding_inverse (w : winding) : winding := match w with Cw => Ccw | Ccw => Cw end.

(** BTreeMap::{get, insert, remove}. *)
Fixpoint map_get {V} (m : list (pt * V)) (p : pt) : option V :=
  match m with
  | [] => None
  | (q, v) :: m' => if peqb p q then Some v else map_get m' p
  end.
Definition map_del {V} (m : list (pt * V)) (p : pt) : list (pt * V) :=
  filter (fun qv => negb (peqb p (fst qv))) m.
Definition map_insert {V} (m : list (pt * V)) (p : pt) (v : V) : list (pt * V) := (p, v) :: map_del m p.
(** [remove(..).unwrap()]. *)
Definition map_remove {V} (m : list (pt * V)) (p : pt) (msg : string) : res (list (pt * V)) :=
  let* _ := expect (map_get m p) msg in Ok (map_del m p).

(** rings.rs:254-258. *)
Record link : Type := mkLink { k_idx : nat; k_front : bool }.
(** rings.rs:216-222. *)
Record chain : Type := mkChain { ch_winding : winding; ch_items : list pt; ch_nf : option link; ch_nb : option link }.
(** rings.rs:8-12. *)
Record rings : Type := mkRings { rg_chains : list chain; rg_ends : list (pt * link) }.
(** rings.rs:14-21. *)
Definition rings_default : rings := mkRings [] [].

(** rings.rs:225-235. *)
Definition chain_new (start en : pt) (w : winding) : chain := mkChain w [start; en] None None.
Definition is_none {X} (o : option X) : bool := match o with None => true | _ => false end.
(** rings.rs:236-239. *)
Definition push_front (c : chain) (p : pt) : res chain :=
  let* _ := check (is_none (ch_nf c)) "rings.rs:237 debug_assert" in
  Ok (mkChain (ch_winding c) (p :: ch_items c) (ch_nf c) (ch_nb c)).
(** rings.rs:240-243. *)
Definition push_back (c : chain) (p : pt) : res chain :=
  let* _ := check (is_none (ch_nb c)) "rings.rs:241 debug_assert" in
  Ok (mkChain (ch_winding c) (ch_items c ++ [p]) (ch_nf c) (ch_nb c)).
(** rings.rs:244-247. *)
Definition link_front (c : chain) (k : link) : res chain :=
  let* _ := check (is_none (ch_nf c)) "rings.rs:245 debug_assert" in
  Ok (mkChain (ch_winding c) (ch_items c) (Some k) (ch_nb c)).
(** rings.rs:248-251. *)
Definition link_back (c : chain) (k : link) : res chain :=
  let* _ := check (is_none (ch_nb c)) "rings.rs:249 debug_assert" in
  Ok (mkChain (ch_winding c) (ch_items c) (ch_nf c) (Some k)).

Definition chain_at (cs : list chain) (i : nat) : res chain := expect (nth_error cs i) "rings.rs: index out of bounds".

(** rings.rs:151-159. *)
Definition push_link (cs : list chain) (l : link) (p : pt) (w : winding) : res (list chain) :=
  let* c := chain_at cs (k_idx l) in
  if k_front l then
    let* c' := push_front c p in
    let* _ := check (winding_eqb (ch_winding c') (winding_inverse w)) "rings.rs:154 debug_assert_eq" in
    Ok (list_set (k_idx l) c' cs)
  else
    let* c' := push_back c p in
    let* _ := check (winding_eqb (ch_winding c') w) "rings.rs:157 debug_assert_eq" in
    Ok (list_set (k_idx l) c' cs).

(** rings.rs:161-176. *)
Definition link_chains (cs : list chain) (i j : link) (w : winding) : res (list chain) :=
  let* c := chain_at cs (k_idx i) in
  let* cs1 :=
    (if k_front i then
       let* c' := link_front c j in
       let* _ := check (winding_eqb (ch_winding c') (winding_inverse w)) "rings.rs:164 debug_assert_eq" in
       Ok (list_set (k_idx i) c' cs)
     else
       let* c' := link_back c j in
       let* _ := check (winding_eqb (ch_winding c') w) "rings.rs:167 debug_assert_eq" in
       Ok (list_set (k_idx i) c' cs)) in
  let* d := chain_at cs1 (k_idx j) in
  if k_front j then
    let* d' := link_front d i in
    let* _ := check (winding_eqb (ch_winding d') w) "rings.rs:171 debug_assert_eq" in
    Ok (list_set (k_idx j) d' cs1)
  else
    let* d' := link_back d i in
    let* _ := check (winding_eqb (ch_winding d') (winding_inverse w)) "rings.rs:174 debug_assert_eq" in
    Ok (list_set (k_idx j) d' cs1).

(** rings.rs:93-149. *)
Definition add_edge (r : rings) (geom : lop) (w : winding) : res rings :=
  let left := lop_first geom in
  let right := lop_second geom in
  match map_get (rg_ends r) left, map_get (rg_ends r) right with
  | None, None =>
      let idx := List.length (rg_chains r) in
      let cs := rg_chains r ++ [chain_new left right w] in
      let e := map_insert (rg_ends r) left (mkLink idx true) in
      Ok (mkRings cs (map_insert e right (mkLink idx false)))
  | None, Some i =>
      let* cs := push_link (rg_chains r) i left (winding_inverse w) in
      let* e := map_remove (rg_ends r) right "rings.rs:127 unwrap on None" in
      Ok (mkRings cs (map_insert e left i))
  | Some i, None =>
      let* cs := push_link (rg_chains r) i right w in
      let* e := map_remove (rg_ends r) left "rings.rs:134 unwrap on None" in
      Ok (mkRings cs (map_insert e right i))
  | Some i, Some j =>
      let* cs := link_chains (rg_chains r) i j w in
      let* e := map_remove (rg_ends r) left "rings.rs:144 unwrap on None" in
      let* e' := map_remove e right "rings.rs:145 unwrap on None" in
      Ok (mkRings cs e')
  end.

(** rings.rs:179-183. *)
Record ring : Type := mkRing { r_coords : list pt; r_hole : bool }.

(** geo's LineString::winding_order.  [least_index] is the position of the
    lexicographically least coordinate, the first one if there are several; then
    the neighbours of that coordinate along the ring, skipping equal
    coordinates, decide. *)
Fixpoint least_index_from (best : nat) (b : pt) (i : nat) (l : list pt) : nat :=
  match l with
  | [] => best
  | p :: l' => if pltb p b then least_index_from i p (S i) l' else least_index_from best b (S i) l'
  end.
Definition least_index (l : list pt) : nat :=
  match l with [] => 0%nat | p :: l' => least_index_from 0 p 1 l' end.
(** The first coordinate different from [p]. *)
Definition first_other (p : pt) (l : list pt) : option pt := find (fun q => negb (peqb q p)) l.
Definition ls_winding_order (l : list pt) : option winding :=
  if (List.length l <? 4)%nat || negb (ls_is_closed l) then None
  else
    let i := least_index l in
    match nth_error l i with
    | None => None
    | Some p =>
        match first_other p (skipn (S i) l ++ firstn i l), first_other p (rev (firstn i l) ++ rev (skipn (S i) l)) with
        | Some next, Some prev =>
            match orient2d prev p next with
            | CounterClockwise => Some Ccw
            | Clockwise => Some Cw
            | Collinear => None
            end
        | _, _ => None
        end
    end.

(** rings.rs:187-198. *)
Definition from_coords (coords : list pt) (w : winding) : res ring :=
  let ls := ls_close coords in
  let* wn := expect (ls_winding_order ls) "rings.rs:193 ring must have a winding order" in
  Ok (mkRing ls (negb (winding_eqb wn w))).

(** The variables of the inner loop of [finish]: [ls], [history], [output]. *)
Record walk : Type := mkWalk { wk_ls : list pt; wk_hist : list (pt * nat); wk_out : list ring }.
(** rings.rs:61-66, removing the drained points from the history. *)
Definition forget (hist : list (pt * nat)) (drained : list pt) : res (list (pt * nat)) :=
  fold_res (fun h p => map_remove h p "rings.rs:64 unwrap on None") hist drained.
(** rings.rs:56-72, the body of the loop over the points of a chain. *)
Definition visit (w : winding) (k : walk) (p : pt) : res walk :=
  let* k1 :=
    match map_get (wk_hist k) p with
    | Some idx =>
        let* _ := check (idx <=? List.length (wk_ls k))%nat "rings.rs:62 drain out of range" in
        let drained := skipn idx (wk_ls k) in
        let* h := forget (wk_hist k) drained in
        let* r := from_coords drained w in
        Ok (mkWalk (firstn idx (wk_ls k)) h (wk_out k ++ [r]))
    | None => Ok k
    end in
  Ok (mkWalk (wk_ls k1 ++ [p]) (map_insert (wk_hist k1) p (List.length (wk_ls k1))) (wk_out k1)).

(** rings.rs:45-85, the inner loop. *)
Fixpoint follow (fuel : nat) (w : winding) (start : nat) (cs : list chain) (l : link) (k : walk)
  : res (list chain * walk) :=
  match fuel with
  | O => NoFuel
  | S fuel' =>
      let* c := chain_at cs (k_idx l) in
      let* k' := fold_res (visit w) k (if k_front l then ch_items c else rev (ch_items c)) in
      let cs' := list_set (k_idx l) (mkChain (ch_winding c) [] (ch_nf c) (ch_nb c)) cs in
      let* l' :=
        (if k_front l then expect (ch_nb c) "rings.rs:76 unwrap on None"
         else expect (ch_nf c) "rings.rs:78 unwrap on None") in
      if Nat.eqb (k_idx l') start then
        let* _ := check (k_front l') "rings.rs:82 debug_assert" in
        Ok (cs', k')
      else follow fuel' w start cs' l' k'
  end.

(** rings.rs:29-89: [curr] counts down from the number of chains. *)
Fixpoint finish_loop (curr : nat) (cs : list chain) (out : list ring) : res (list ring) :=
  match curr with
  | O => Ok out
  | S i =>
      let* c := chain_at cs i in
      match ch_items c with
      | [] => finish_loop i cs out
      | _ =>
          let* (cs', k) := follow (S (List.length cs)) (ch_winding c) i cs (mkLink i true) (mkWalk [] [] out) in
          let* r := from_coords (wk_ls k) (ch_winding c) in
          finish_loop i cs' (wk_out k ++ [r])
      end
  end.
(** rings.rs:23-91. *)
Definition finish (r : rings) : res (list ring) := finish_loop (List.length (rg_chains r)) (rg_chains r) [].
