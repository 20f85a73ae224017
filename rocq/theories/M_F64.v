(** IEEE binary64 arithmetic for the point of a proper crossing.

    The coordinates of the model are rational numbers; those that are values of
    finite [f64] are converted to the floats of Coq's standard library
    ([SpecFloat], the executable specification of IEEE 754 arithmetic), the
    formulas of geo 0.20 are evaluated there, rounding to nearest even after
    every operation, and the result is converted back. *)
Require Import List String Bool ZArith QArith Qcanon Floats.SpecFloat.
From Verif Require Import Base Scalar M_Events M_Geo M_LineOrPoint M_Round.
Local Open Scope Z_scope.

Definition f64_add : spec_float -> spec_float -> spec_float := SFadd 53 1024.
Definition f64_sub : spec_float -> spec_float -> spec_float := SFsub 53 1024.
Definition f64_mul : spec_float -> spec_float -> spec_float := SFmul 53 1024.
Definition f64_div : spec_float -> spec_float -> spec_float := SFdiv 53 1024.

(** The [f64] with a given value (the nearest one, for other numbers whose
    numerator and denominator are values of [f64]). *)
Definition to_f64 (x : Qc) : spec_float :=
  f64_div (binary_normalize 53 1024 (Qnum (this x)) 0 false) (binary_normalize 53 1024 (Zpos (Qden (this x))) 0 false).
(** The value of a finite float. *)
Definition of_f64 (f : spec_float) : option Qc :=
  match f with
  | S754_zero _ => Some 0%Qc
  | S754_finite s m e =>
      let m' := if s then Zneg m else Zpos m in
      Some (Q2Qc (match e with
                  | Z0 => inject_Z m'
                  | Zpos k => inject_Z (m' * Zpos (2 ^ k))
                  | Zneg k => Qmake m' (2 ^ k)
                  end))
  | _ => None
  end.

Definition f64_min (a b : spec_float) : spec_float := if SFltb a b then a else b.
Definition f64_max (a b : spec_float) : spec_float := if SFltb a b then b else a.

(** line_intersection.rs, raw_line_intersection: homogeneous coordinates,
    relative to the middle of the common part of the bounding boxes. *)
Definition f64_raw (p q : line) : option pt :=
  let p1x := to_f64 (cx (l_start p)) in let p1y := to_f64 (cy (l_start p)) in
  let p2x := to_f64 (cx (l_end p)) in let p2y := to_f64 (cy (l_end p)) in
  let q1x := to_f64 (cx (l_start q)) in let q1y := to_f64 (cy (l_start q)) in
  let q2x := to_f64 (cx (l_end q)) in let q2y := to_f64 (cy (l_end q)) in
  let int_min_x := f64_max (f64_min p1x p2x) (f64_min q1x q2x) in
  let int_max_x := f64_min (f64_max p1x p2x) (f64_max q1x q2x) in
  let int_min_y := f64_max (f64_min p1y p2y) (f64_min q1y q2y) in
  let int_max_y := f64_min (f64_max p1y p2y) (f64_max q1y q2y) in
  let two := binary_normalize 53 1024 2 0 false in
  let mid_x := f64_div (f64_add int_min_x int_max_x) two in
  let mid_y := f64_div (f64_add int_min_y int_max_y) two in
  let p1x := f64_sub p1x mid_x in let p1y := f64_sub p1y mid_y in
  let p2x := f64_sub p2x mid_x in let p2y := f64_sub p2y mid_y in
  let q1x := f64_sub q1x mid_x in let q1y := f64_sub q1y mid_y in
  let q2x := f64_sub q2x mid_x in let q2y := f64_sub q2y mid_y in
  let px := f64_sub p1y p2y in
  let py := f64_sub p2x p1x in
  let pw := f64_sub (f64_mul p1x p2y) (f64_mul p2x p1y) in
  let qx := f64_sub q1y q2y in
  let qy := f64_sub q2x q1x in
  let qw := f64_sub (f64_mul q1x q2y) (f64_mul q2x q1y) in
  let xw := f64_sub (f64_mul py qw) (f64_mul qy pw) in
  let yw := f64_sub (f64_mul qx pw) (f64_mul px qw) in
  let w := f64_sub (f64_mul px qy) (f64_mul qx py) in
  match of_f64 (f64_div xw w), of_f64 (f64_div yw w) with
  | Some _, Some _ =>
      match of_f64 (f64_add (f64_div xw w) mid_x), of_f64 (f64_add (f64_div yw w) mid_y) with
      | Some x, Some y => Some (mkC x y)
      | _, _ => None
      end
  | _, _ => None
  end.
(** line_intersection.rs, proper_intersection.  [nearest] stands for
    nearest_endpoint, the end of one line with the least distance to the other
    one: how these distances are computed is left open. *)
Definition f64_proper (nearest : line -> line -> pt) (p q : line) : pt :=
  match f64_raw p q with
  | Some r => if rect_has (line_bounding_rect p) r && rect_has (line_bounding_rect q) r then r else nearest p q
  | None => nearest p q
  end.
(** float_next_after, next_after towards infinity, on a finite value. *)
Definition f64_next_up (x : Qc) : Qc :=
  match of_f64 (SFsucc 53 1024 (to_f64 x)) with Some y => y | None => x end.
Definition f64 (nearest : line -> line -> pt) : arith := rounded (f64_proper nearest) f64_next_up.
