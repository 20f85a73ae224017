(** Model of src/monotone.rs (Trip, Trapz) and src/monotone/mono_poly.rs on
    exact scalars.  A [LineString] is the list of its coordinates.  [eprintln!]
    and the [Debug] output are dropped; the [transmute] of mono_poly.rs:141 only
    changes a lifetime. *)
Require Import List String Bool Arith.
From Verif Require Import Base Scalar M_Events M_Geo.
Import ListNotations.
Local Open Scope string_scope.
Local Open Scope list_scope.
Local Open Scope Qc_scope.

(** monotone.rs:24-29. *)
Record trip : Type := mkTrip { t_x : Qc; t_top : Qc; t_bot : Qc }.
(** monotone.rs:31-44. *)
Record trapz : Type := mkTrapz { z_left : trip; z_right : trip }.

(** monotone.rs:46-59. *)
Definition trapz_area (z : trapz) : res Qc :=
  let t1 := z_left z in
  let t2 := z_right z in
  let a := t_top t1 - t_bot t1 in
  let b := t_top t2 - t_bot t2 in
  let* _ := check (qleb 0 a && qleb 0 b) "monotone.rs:54 debug_assert" in
  let h := t_x t2 - t_x t1 in
  let two := 1 + 1 in
  Ok ((a + b) / two * h).

(** mono_poly.rs:11-15. *)
Record mono_poly : Type := mkMono { mp_top : list pt; mp_bot : list pt }.

Definition opt_pt_eqb (a b : option pt) : bool :=
  match a, b with
  | Some p, Some q => peqb p q
  | None, None => true
  | _, _ => false
  end.
(** slice::first, slice::last. *)
Definition first {X} (l : list X) : option X := nth_error l 0.
Definition last_opt {X} (l : list X) : option X := nth_error l (List.length l - 1).
(** mono_poly.rs:59-64: every window of two coordinates is increasing. *)
Fixpoint windows_increase (l : list pt) : bool :=
  match l with
  | a :: (b :: _) as l' => pltb a b && windows_increase l'
  | _ => true
  end.
(** mono_poly.rs:54-66. *)
Definition mp_new (top bot : list pt) : res mono_poly :=
  let* _ := check (opt_pt_eqb (first top) (first bot)) "mono_poly.rs:55 assert_eq" in
  let* _ := check (opt_pt_eqb (last_opt top) (last_opt bot)) "mono_poly.rs:56 assert_eq" in
  let* _ := check (negb (opt_pt_eqb (first top) (last_opt top))) "mono_poly.rs:57 assert_ne" in
  let* _ := check (windows_increase top && windows_increase bot) "mono_poly.rs:63 assert" in
  Ok (mkMono top bot).
(** mono_poly.rs:80-82. *)
Definition mp_into_ls_pair (m : mono_poly) : list pt * list pt := (mp_top m, mp_bot m).

(** geo::Polygon, with geo's Polygon::new, which closes the exterior if it is
    not closed.  [ls_is_closed] is LineString::is_closed. *)
Record polygon : Type := mkPolygon { pg_exterior : list pt; pg_interiors : list (list pt) }.
Definition ls_is_closed (l : list pt) : bool := opt_pt_eqb (first l) (last_opt l).
Definition ls_close (l : list pt) : list pt :=
  if ls_is_closed l then l else match l with [] => l | p :: _ => l ++ [p] end.
Definition polygon_new (ext : list pt) (ints : list (list pt)) : polygon :=
  mkPolygon (ls_close ext) (map ls_close ints).

(** mono_poly.rs:84-96.  [down.drain(1..)] panics on an empty vector. *)
Definition mp_into_polygon (m : mono_poly) : res polygon :=
  let down := rev (mp_bot m) in
  let top := mp_top m in
  let* _ := check (opt_pt_eqb (first down) (last_opt top)) "mono_poly.rs:89 assert_eq" in
  let* rest := match down with [] => Panic "mono_poly.rs:90 drain out of range" | _ :: r => Ok r end in
  let geom := top ++ rest in
  let* _ := check (ls_is_closed geom) "mono_poly.rs:93 debug_assert" in
  Ok (polygon_new geom []).

(** mono_poly.rs:25-29 and 31-35, the loop bodies. *)
Definition up_y (y : Qc) (c : pt) : Qc := if qltb y (cy c) then cy c else y.
Definition down_y (y : Qc) (c : pt) : Qc := if qltb (cy c) y then cy c else y.
(** mono_poly.rs:17-40. *)
Definition mp_bounding_rect (m : mono_poly) : res rect :=
  let* f := expect (first (mp_top m)) "mono_poly.rs:21 index out of bounds" in
  let* l := expect (last_opt (mp_top m)) "mono_poly.rs:22 unwrap on None" in
  let min_x := cx f in
  let max_x := cx l in
  let max_y := fold_left up_y (mp_top m) (cy f) in
  let min_y := fold_left down_y (mp_bot m) max_y in
  let* _ := check (qltb min_x max_x) "mono_poly.rs:36 assert" in
  let* _ := check (qltb min_y max_y) "mono_poly.rs:37 assert" in
  Ok (mkRect (mkC min_x min_y) (mkC max_x max_y)).

(** mono_poly.rs:108-113. *)
Record scanner : Type := mkScan { sc_poly : mono_poly; sc_curr : trip; sc_top : nat; sc_bot : nat }.
(** mono_poly.rs:116-131. *)
Definition sc_new (m : mono_poly) : res scanner :=
  let* top := expect (nth_error (mp_top m) 0) "mono_poly.rs:117 index out of bounds" in
  let* bot := expect (nth_error (mp_bot m) 0) "mono_poly.rs:118 index out of bounds" in
  let* _ := check (peqb top bot) "mono_poly.rs:119 debug_assert_eq" in
  Ok (mkScan m (mkTrip (cx top) (cy top) (cy bot)) 0 0).

(** mono_poly.rs:219-234, the closure [interpolate]. *)
Definition interpolate (p1 p2 : pt) (x : Qc) : res Qc :=
  let* _ := check (qleb (cx p1) x && qleb x (cx p2)) "mono_poly.rs:220 debug_assert" in
  if qeqb (cx p2) (cx p1) then Ok (cy p2)
  else
    let frac := (x - cx p1) / (cx p2 - cx p1) in
    let y := frac * (cy p2 - cy p1) + cy p1 in
    let '(min_y, max_y) := if qltb (cy p2) (cy p1) then (cy p2, cy p1) else (cy p1, cy p2) in
    Ok (qmin (qmax y min_y) max_y).

(** mono_poly.rs:203-294. *)
Definition sc_peek_next (s : scanner) (until : Qc) : res (option (option comparison * trip)) :=
  let top := mp_top (sc_poly s) in
  let bot := mp_bot (sc_poly s) in
  let top_val := if (List.length top <=? sc_top s + 1)%nat then None else nth_error top (sc_top s + 1) in
  let bot_val := if (List.length bot <=? sc_bot s + 1)%nat then None else nth_error bot (sc_bot s + 1) in
  let* pos :=
    match top_val, bot_val with
    | None, None => Ok None
    | Some new_top, Some new_bot =>
        let ord := cx new_top ?= cx new_bot in
        let new_x := match ord with Lt => cx new_top | _ => cx new_bot end in
        Ok (Some (new_top, new_bot, ord, new_x))
    | None, Some new_bot =>
        let* _ := check (qeqb (cx new_bot) (t_x (sc_curr s))) "mono_poly.rs:249 debug_assert_eq" in
        let* tp := expect (nth_error top (sc_top s)) "mono_poly.rs:250 index out of bounds" in
        Ok (Some (tp, new_bot, Gt, t_x (sc_curr s)))
    | Some new_top, None =>
        let* _ := check (qeqb (cx new_top) (t_x (sc_curr s))) "mono_poly.rs:253 debug_assert_eq" in
        let* bt := expect (nth_error bot (sc_bot s)) "mono_poly.rs:254 index out of bounds" in
        Ok (Some (new_top, bt, Lt, t_x (sc_curr s)))
    end in
  match pos with
  | None => Ok None
  | Some (new_top, new_bot, ord, new_x) =>
      let* tp := expect (nth_error top (sc_top s)) "mono_poly.rs index out of bounds" in
      let* bt := expect (nth_error bot (sc_bot s)) "mono_poly.rs index out of bounds" in
      if qltb until new_x then
        let* yt := interpolate tp new_top until in
        let* yb := interpolate bt new_bot until in
        Ok (Some (None, mkTrip until yt yb))
      else
        match ord with
        | Lt =>
            let* yb := interpolate bt new_bot (cx new_top) in
            Ok (Some (Some ord, mkTrip (cx new_top) (cy new_top) yb))
        | Eq => Ok (Some (Some ord, mkTrip (cx new_top) (cy new_top) (cy new_bot)))
        | Gt =>
            let* yt := interpolate tp new_top (cx new_bot) in
            Ok (Some (Some ord, mkTrip (cx new_bot) yt (cy new_bot)))
        end
  end.

(** mono_poly.rs:166-201. *)
Definition sc_advance_next (s : scanner) (until : Qc) : res (scanner * option (option trapz)) :=
  let* _ := check (qltb (t_x (sc_curr s)) until) "mono_poly.rs:168 debug_assert" in
  let* e := sc_peek_next s until in
  match e with
  | None => Ok (s, None)
  | Some (ord, next) =>
      let result := if qltb (t_x (sc_curr s)) (t_x next) then Some (mkTrapz (sc_curr s) next) else None in
      let '(ti, bi) :=
        match ord with
        | None => (sc_top s, sc_bot s)
        | Some Lt => (S (sc_top s), sc_bot s)
        | Some Eq => (S (sc_top s), S (sc_bot s))
        | Some Gt => (sc_top s, S (sc_bot s))
        end in
      Ok (mkScan (sc_poly s) next ti bi, Some result)
  end.

(** mono_poly.rs:142-151: one call of [next()] on the iterator returned by
    [advance_to(until)]. *)
Fixpoint at_next (fuel : nat) (s : scanner) (until : Qc) : res (scanner * option trapz) :=
  match fuel with
  | O => NoFuel
  | S fuel' =>
      if qltb (t_x (sc_curr s)) until then
        let* (s', r) := sc_advance_next s until in
        match r with
        | Some (Some t) => Ok (s', Some t)
        | None => Ok (s', None)
        | Some None => at_next fuel' s' until
        end
      else Ok (s, None)
  end.
(** mono_poly.rs:133-152, consumed to the end, as by [for] or [count]. *)
Fixpoint sc_advance_to (n fuel : nat) (s : scanner) (until : Qc) : res (scanner * list trapz) :=
  match n with
  | O => NoFuel
  | S n' =>
      let* (s', o) := at_next fuel s until in
      match o with
      | None => Ok (s', [])
      | Some t => let* (s'', ts) := sc_advance_to n' fuel s' until in Ok (s'', t :: ts)
      end
  end.
(** mono_poly.rs:154-164; the closure [proc] is the list of its arguments. *)
Fixpoint sc_advance_upto (fuel : nat) (s : scanner) (until : Qc) : res (scanner * list trapz) :=
  match fuel with
  | O => NoFuel
  | S fuel' =>
      if qltb (t_x (sc_curr s)) until then
        let* (s', r) := sc_advance_next s until in
        match r with
        | Some result =>
            let* (s'', ts) := sc_advance_upto fuel' s' until in
            Ok (s'', match result with Some t => t :: ts | None => ts end)
        | None => Ok (s', [])
        end
      else Ok (s, [])
  end.
(** The number of steps a scan can take. *)
Definition scan_fuel (m : mono_poly) : nat := S (S (List.length (mp_top m) + List.length (mp_bot m))).
(** Any sufficient fuel gives the same result; this one is sufficient. *)
Definition advance_to (s : scanner) (until : Qc) : res (scanner * list trapz) :=
  sc_advance_to (scan_fuel (sc_poly s)) (scan_fuel (sc_poly s)) s until.
Definition advance_upto (s : scanner) (until : Qc) : res (scanner * list trapz) :=
  sc_advance_upto (scan_fuel (sc_poly s)) s until.
(** mono_poly.rs:99-106. *)
Definition mp_scan_lines (m : mono_poly) (left : Qc) : res scanner :=
  let* s := sc_new m in
  let* (s', _) := advance_to s left in
  Ok s'.
