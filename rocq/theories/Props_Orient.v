(** The rings of the results of boolean operations are not oriented (C89). *)
Require Import List String Bool Arith Lia ZArith QArith Qcanon.
From Verif Require Import Base Scalar M_Events M_Geo M_LineOrPoint M_Sweep M_Crossings M_MonoPoly M_Rings M_Op M_Laminar.
From Verif Require Import S_Geo S_Mono P_Round P_Ties P_TiesOp Props_Bugs.
Import Datatypes.
Import ListNotations.
Local Open Scope string_scope.
Local Open Scope nat_scope.

(** Which way a closed ring runs: the sign of the area of the shoelace formula. *)
Definition counter_clockwise (r : list pt) : Prop := (0 < shoelace r)%Qc.
Definition clockwise (r : list pt) : Prop := (shoelace r < 0)%Qc.
Definition triangle (a b c d e f : Z) : polygon := mkPolygon [P a b; P c d; P e f; P a b] [].

(** ** C89 *)
(** Two triangles, both written counter-clockwise.  Their union with nothing is
    written clockwise for the one and counter-clockwise for the other, and a hole
    may run the same way as the ring around it.  This does not depend on the
    order in which equal events are popped. *)
Definition steep : polygon := triangle 0 0 2 1 1 3.
Definition flat : polygon := triangle 0 0 1 (-3) 2 (-1).
Definition signs (mp : list polygon) : list (comparison * list comparison) :=
  map (fun p => (Qccompare (shoelace (pg_exterior p)) 0, map (fun r => Qccompare (shoelace r) 0) (pg_interiors p))) mp.
Lemma sign_lt : forall r, Qccompare (shoelace r) 0 = Lt -> clockwise r.
Proof. intros r E. apply Qclt_alt. exact E. Qed.
Lemma sign_gt : forall r, Qccompare (shoelace r) 0 = Gt -> counter_clockwise r.
Proof. intros r E. apply Qcgt_alt. exact E. Qed.
Theorem C89_exteriors_run_either_way : forall tie tie',
  counter_clockwise (pg_exterior steep) /\ counter_clockwise (pg_exterior flat) /\
  (exists p, boolean_op tie (fun l => l) 100 tie' 100 Union [steep] [] = Ok [p] /\ pg_interiors p = [] /\ clockwise (pg_exterior p)) /\
  (exists p, boolean_op tie (fun l => l) 100 tie' 100 Union [flat] [] = Ok [p] /\ pg_interiors p = [] /\ counter_clockwise (pg_exterior p)).
Proof.
  intros tie tie'. split; [apply sign_gt; vm_compute; reflexivity|]. split; [apply sign_gt; vm_compute; reflexivity|]. split.
  - pose proof (ties_boolean [0; 4] [0; 4] tie (fun l => l) 100 tie' 100 Union [steep] []) as T. revert T. cbn [map].
    generalize (tie 0) (tie 4) (tie' 0) (tie' 4). intros v0 v4 w0 w4 T. destruct v0, v4, w0, w4.
    all: match type of T with forall r, ?a = r -> _ => run a signs r E V end.
    all: destruct r as [|p [|p' r]]; try discriminate V; cbn [signs map] in V; injection V as V W; exists p.
    all: split; [exact (T _ E (not_given_up _))|]; split; [destruct (pg_interiors p); [reflexivity|discriminate W]|apply sign_lt; exact V].
  - pose proof (ties_boolean [0; 4] [0; 4] tie (fun l => l) 100 tie' 100 Union [flat] []) as T. revert T. cbn [map].
    generalize (tie 0) (tie 4) (tie' 0) (tie' 4). intros v0 v4 w0 w4 T. destruct v0, v4, w0, w4.
    all: match type of T with forall r, ?a = r -> _ => run a signs r E V end.
    all: destruct r as [|p [|p' r]]; try discriminate V; cbn [signs map] in V; injection V as V W; exists p.
    all: split; [exact (T _ E (not_given_up _))|]; split; [destruct (pg_interiors p); [reflexivity|discriminate W]|apply sign_gt; exact V].
Qed.
Theorem C89_holes_may_run_like_the_exterior : forall tie tie', exists p h,
  boolean_op tie (fun l => l) 100 tie' 100 Difference [triangle 0 0 12 1 6 12] [triangle 4 2 8 3 6 6] = Ok [p] /\ pg_interiors p = [h] /\
  clockwise (pg_exterior p) /\ clockwise h.
Proof.
  intros tie tie'. pose proof (ties_boolean [0; 2; 8; 10] [0; 2; 8; 10] tie (fun l => l) 100 tie' 100 Difference [triangle 0 0 12 1 6 12] [triangle 4 2 8 3 6 6]) as T. revert T. cbn [map].
  generalize (tie 0) (tie 2) (tie 8) (tie 10) (tie' 0) (tie' 2) (tie' 8) (tie' 10). intros v0 v2 v8 v10 w0 w2 w8 w10 T. destruct v0, v2, v8, v10, w0, w2, w8, w10.
  all: match type of T with forall r, ?a = r -> _ => run a signs r E V end.
  all: destruct r as [|p [|p' r]]; try discriminate V; cbn [signs map] in V; injection V as V W.
  all: destruct (pg_interiors p) as [|h [|h' hs]] eqn:H; try discriminate W; cbn [map] in W; injection W as W; exists p, h.
  all: split; [exact (T _ E (not_given_up _))|]; split; [exact H|]; split; apply sign_lt; assumption.
Qed.

Print Assumptions C89_exteriors_run_either_way.
Print Assumptions C89_holes_may_run_like_the_exterior.
