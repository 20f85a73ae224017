(** Specification: expressions built from boolean operations. *)
Require Import List Bool.
From Verif Require Import Base Scalar M_Events M_Geo M_MonoPoly M_Op S_Op.
Import ListNotations.

(** Operands, and operations on results of operations. *)
Inductive expression : Type :=
| Operand (mp : list polygon)
| Apply (ty : op_type) (l r : expression).
(** The operands of an expression. *)
Fixpoint operands (e : expression) : list (list polygon) :=
  match e with Operand mp => [mp] | Apply _ l r => operands l ++ operands r end.
(** The points of the plane it stands for. *)
Fixpoint meaning (e : expression) (q : pt) : bool :=
  match e with Operand mp => inside mp q | Apply ty l r => result ty (meaning l q) (meaning r q) end.
