(** Model of src/crossings.rs on exact scalars. *)
Require Import List String Bool Arith.
From Verif Require Import Base Scalar M_Events M_Geo M_LineOrPoint M_Splay M_Slab M_Active M_Sweep.
Import ListNotations.
Local Open Scope string_scope.

Section Crossings.
Context {C : Type} {ar : arith}.
Variable line_of : C -> line.
Variable tie : nat -> nat.

(** crossings.rs:136-142: [CrossingsIter] is the sweep and the vector
    [segments], which is [sw_out] of the sweep model. *)
Definition crossings_iter : Type := sweep C.

(** crossings.rs:169-178. *)
Definition ci_from_iter (input : list C) : res crossings_iter := sweep_new line_of input.

(** crossings.rs:155-157. *)
Definition ci_intersections (it : crossings_iter) : list (crossing C) := sw_out it.

(** [Option<SweepPoint>] equality. *)
Definition opt_peqb (a b : option pt) : bool :=
  match a, b with
  | Some p, Some q => peqb p q
  | None, None => true
  | _, _ => false
  end.

(** crossings.rs:194-202. *)
Fixpoint ci_loop (fuel : nat) (it : crossings_iter) (last : option pt)
  : res (crossings_iter * option pt) :=
  if opt_peqb last (peek_point it) && match peek_point it with Some _ => true | None => false end
  then
    match fuel with
    | O => NoFuel
    | S fuel' =>
        let* (it', last') := next_event line_of tie it in
        ci_loop fuel' it' last'
    end
  else Ok (it, last).

(** crossings.rs:188-209. *)
Definition ci_next (fuel : nat) (it : crossings_iter) : res (crossings_iter * option pt) :=
  let it0 := set_out [] it in
  let* (it1, last) := ci_loop fuel it0 (peek_point it0) in
  match sw_out it1 with
  | [] => Ok (it1, None)
  | _ => Ok (it1, last)
  end.

(** What a user sees who iterates to the end and reads [intersections()] after
    each step. *)
Fixpoint ci_drain (n fuel : nat) (it : crossings_iter) : res (list (pt * list (crossing C))) :=
  match n with
  | O => NoFuel
  | S n' =>
      let* (it', o) := ci_next fuel it in
      match o with
      | None => Ok []
      | Some p =>
          let* rest := ci_drain n' fuel it' in
          Ok ((p, ci_intersections it') :: rest)
      end
  end.
Definition ci_collect (fuel : nat) (input : list C) : res (list (pt * list (crossing C))) :=
  let* it := ci_from_iter input in
  ci_drain fuel fuel it.

(** crossings.rs:246-252. *)
Record intersections : Type := mkInts {
  in_inner : crossings_iter;
  in_idx : nat;
  in_jdx : nat;
  in_ovl : bool;
  in_pt : option pt
}.
(** crossings.rs:259-267. *)
Definition in_from_iter (input : list C) : res intersections :=
  let* it := ci_from_iter input in
  Ok (mkInts it 0 0 false None).

(** [v[i]], panics when out of bounds. *)
Definition index {X} (v : list X) (i : nat) : res X := expect (nth_error v i) "index out of bounds".

(** crossings.rs:275-301. *)
Definition in_intersection (s : intersections) : res (option (C * C * line_intersection_result)) :=
  let v := ci_intersections (in_inner s) in
  let* si := index v (in_idx s) in
  let* sj := index v (in_jdx s) in
  let* go :=
    (if in_ovl s then
       let* _ := check (Bool.eqb (cr_left si) (cr_left sj)) "crossings.rs:284 debug_assert_eq" in
       Ok (cr_left si && (cr_first si || cr_first sj))
     else Ok ((negb (cr_left si) || cr_first si) && (negb (cr_left sj) || cr_first sj))) in
  if go : bool then
    let* i := expect (common (line_of (cr_cross si)) (line_of (cr_cross sj)))
                "crossings.rs:295 line_intersection returned `None` disagreeing with `CrossingsIter`" in
    Ok (Some (cr_cross si, cr_cross sj, i))
  else Ok None.

(** crossings.rs:312-320: advance to a point with more than one segment. *)
Fixpoint in_advance (fuel inner_fuel : nat) (it : crossings_iter) : res (crossings_iter * option pt) :=
  match fuel with
  | O => NoFuel
  | S fuel' =>
      let* (it', o) := ci_next inner_fuel it in
      match o with
      | None => Ok (it', None)
      | Some p =>
          if (1 <? List.length (ci_intersections it'))%nat then Ok (it', Some p)
          else in_advance fuel' inner_fuel it'
      end
  end.

(** crossings.rs:303-327. *)
Definition in_step (fuel : nat) (s : intersections) : res (intersections * bool) :=
  let v := ci_intersections (in_inner s) in
  let n := List.length v in
  if (1 + in_jdx s <? n)%nat then
    let* o := (if in_ovl s then let* c := index v (in_jdx s) in Ok (cr_overlap c) else Ok false) in
    Ok (mkInts (in_inner s) (in_idx s) (S (in_jdx s)) o (in_pt s), true)
  else
    let idx := S (in_idx s) in
    if (n <=? 1 + idx)%nat then
      let* (it', p) := in_advance fuel fuel (in_inner s) in
      match p with
      | None => Ok (mkInts it' idx (in_jdx s) (in_ovl s) None, false)
      | Some _ =>
          let* c := index (ci_intersections it') 0 in
          Ok (mkInts it' 0 1 (cr_overlap c) p, true)
      end
    else
      let* c := index v idx in
      Ok (mkInts (in_inner s) idx (S idx) (cr_overlap c) (in_pt s), true).

(** crossings.rs:337-347. *)
Fixpoint in_next (fuel : nat) (s : intersections) : res (intersections * option (C * C * line_intersection_result)) :=
  match fuel with
  | O => NoFuel
  | S fuel' =>
      let* (s1, go) := in_step fuel s in
      if go : bool then
        let* o := in_intersection s1 in
        match o with
        | Some r => Ok (s1, Some r)
        | None => in_next fuel' s1
        end
      else Ok (s1, None)
  end.

(** What a user sees who iterates to the end. *)
Fixpoint in_drain (n fuel : nat) (s : intersections) : res (list (C * C * line_intersection_result)) :=
  match n with
  | O => NoFuel
  | S n' =>
      let* (s', o) := in_next fuel s in
      match o with
      | None => Ok []
      | Some r => let* rest := in_drain n' fuel s' in Ok (r :: rest)
      end
  end.
Definition in_collect (fuel : nat) (input : list C) : res (list (C * C * line_intersection_result)) :=
  let* s := in_from_iter input in
  in_drain fuel fuel s.
End Crossings.
