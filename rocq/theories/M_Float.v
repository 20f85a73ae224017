(** Model of IEEE-754 binary64 as far as the crate observes it: comparison and
    the successor function of the crate float_next_after.  Both work on the bit
    pattern; the model keeps the sign bit and the 63 remaining bits read as an
    integer. *)
Require Import List String Bool ZArith.
From Verif Require Import Base M_Events.
Local Open Scope string_scope.
Local Open Scope Z_scope.

(** f64::to_bits, sign bit and magnitude bits. *)
Record f64 : Type := mkF { f_neg : bool; f_mag : Z }.

(** Bits of infinity: exponent all ones, fraction zero. *)
Definition inf_mag : Z := 9218868437227405312.
Definition f_infinity : f64 := mkF false inf_mag.
(** A bit pattern that fits 64 bits. *)
Definition f_wf (a : f64) : Prop := 0 <= f_mag a < 9223372036854775808.
Definition is_nan (a : f64) : bool := inf_mag <? f_mag a.
(** For non-NaN patterns the order of the values is the order of the magnitude
    bits with the sign applied (so that both zeros are equal). *)
Definition f_key (a : f64) : Z := if f_neg a then - f_mag a else f_mag a.
(** f64::partial_cmp. *)
Definition f_cmp (a b : f64) : option comparison :=
  if is_nan a || is_nan b then None else Some (f_key a ?= f_key b).
Definition f_ltb (a b : f64) : bool := match f_cmp a b with Some Lt => true | _ => false end.
Definition f_eqb (a b : f64) : bool := match f_cmp a b with Some Eq => true | _ => false end.
Definition f_geb (a b : f64) : bool := match f_cmp a b with Some Gt | Some Eq => true | _ => false end.

(** float_next_after 0.1, NextAfter for f64, with target [T::infinity()]:
    equal -> the target; zero -> the smallest positive number; otherwise one
    step of the bit pattern away from or towards zero. *)
Definition next_after_infinity (x : f64) : f64 :=
  if is_nan x then x
  else if f_eqb x f_infinity then f_infinity
  else if f_key x =? 0 then mkF false 1
  else if f_neg x then mkF true (f_mag x - 1)
  else mkF false (f_mag x + 1).

(** events.rs:68-96 on floats. *)
Definition fsp_cmp (a b : coord f64) : res comparison := sp_cmp f_cmp a b.
Definition fsp_geb (a b : coord f64) : bool :=
  match sp_partial_cmp f_cmp a b with Some Gt | Some Eq => true | _ => false end.

(** line_or_point.rs:116-173 for a point result [r] of [intersect_line]: the
    nudge of lines 145-152 and the debug assertions of lines 154 and 162.
    [self_first], [other_first] are the first ends of the two geometries. *)
Definition nudge (self_first r : coord f64) : coord f64 :=
  if f_eqb (cx r) (cx self_first) && f_ltb (cy r) (cy self_first)
  then mkC (next_after_infinity (cx r)) (cy r)
  else r.
Definition ordered_point (self_first other_first r : coord f64) : res (coord f64) :=
  let r' := nudge self_first r in
  let* _ := check (fsp_geb r' self_first) "line_or_point.rs:154" in
  let* _ := check (fsp_geb r' other_first) "line_or_point.rs:162" in
  Ok r'.
