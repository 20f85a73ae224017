(** What holds whatever the rounding (C88). *)
Require Import List String Bool Arith Lia ZArith QArith Qcanon.
From Verif Require Import Base Scalar M_Events M_Geo M_LineOrPoint M_Round M_F64 M_Sweep M_Crossings.
From Verif Require Import S_Geo S_Sweep S_Round S_Owned P_Geo P_LineOrPoint P_LineInt P_Round P_Owned Props_Round Props_Bugs Props_F64.
Import Datatypes.
Import ListNotations.
Local Open Scope string_scope.
Local Open Scope nat_scope.

Module Impl.
Lemma with_right : forall proper l m i, line_intersection_with proper l m = Some i -> right_up_to_rounding proper l m i.
Proof.
  intros proper l m i E. destruct (proper_pair l m) eqn:PP.
  - destruct (Props_Round.Impl3.proper_pair_spec _ _ PP) as (r & X). unfold proper_pair, line_intersection, line_intersection_with in PP. unfold line_intersection_with in E. cbv zeta in *.
    repeat match type of E with context [if ?b then _ else _] => destruct b; try discriminate end.
    all: try (injection E as <-; cbn; eauto; fail).
    rewrite E in PP. destruct i as [q [|]|]; try discriminate. unfold collinear_intersection in E. cbv zeta in E.
    repeat match type of E with context [if ?b then _ else _] => destruct b; try discriminate end.
  - rewrite li_with in E by exact PP. pose proof (line_intersection_all l m) as X. rewrite E in X.
    unfold proper_pair in PP. rewrite E in PP. destruct i as [q [|]|s]; [discriminate|exact X|exact X].
Qed.
End Impl.
Import Impl.

(** ** C88 *)
(** [CrossingsIter] in any arithmetic: every crossing it reports, in any number of
    calls, belongs to one of the given inputs. *)
Theorem C88_crossings_of_the_input : forall (ar : arith) {C} (line_of : C -> line) tie fuel k (input : list C) it ys,
  ci_from_iter line_of input = Ok it -> calls (ar := ar) line_of tie fuel k it = Ok ys ->
  forall p o x, In (p, o) ys -> In x o -> In (cr_cross x) input.
Proof.
  intros ar C line_of tie fuel k input it ys E1 E2. pose proof (new_sweep_post line_of (fun c => In c input) input (fun c J => J) it E1) as H.
  exact (calls_post line_of tie (fun c => In c input) fuel k it H ys E2).
Qed.
(** [Intersections], when proper crossings are computed with any error: every pair
    it reports, in any number of calls, is a pair of given inputs whose lines do
    meet, and apart from the point of a proper crossing the intersection is
    exact. *)
Theorem C88_intersections_never_wrong : forall proper next_up {C} (line_of : C -> line) tie (input : list C),
  (forall fuel k s rs, in_from_iter line_of input = Ok s -> in_calls (ar := rounded proper next_up) line_of tie fuel k s = Ok rs ->
    forall c c' i, In (Some (c, c', i)) rs -> In c input /\ In c' input /\ right_up_to_rounding proper (line_of c) (line_of c') i) /\
  (forall fuel rs, in_collect (ar := rounded proper next_up) line_of tie fuel input = Ok rs ->
    forall c c' i, In (c, c', i) rs -> In c input /\ In c' input /\ right_up_to_rounding proper (line_of c) (line_of c') i).
Proof.
  intros proper next_up C line_of tie input.
  assert (H : forall s, in_from_iter line_of input = Ok s -> isok (fun c => In c input) s).
  { intros s E. unfold in_from_iter, ci_from_iter in E. destruct (sweep_new line_of input) as [it| |] eqn:Ei; try discriminate. injection E as <-.
    apply (new_sweep_post line_of (fun c => In c input) input (fun c J => J) it Ei). }
  split.
  - intros fuel k s rs E1 E2 c c' i J.
    destruct (in_calls_post (ar := rounded proper next_up) line_of tie (fun c => In c input) fuel k s (H s E1) rs E2 _ J) as (A & B & D). cbn in A, B, D.
    split; [exact A|]. split; [exact B|]. apply with_right. exact D.
  - intros fuel rs E c c' i J. unfold in_collect in E. destruct (in_from_iter line_of input) as [s| |] eqn:Es; try discriminate. cbn [bind] in E.
    destruct (in_drain_post (ar := rounded proper next_up) line_of tie (fun c => In c input) fuel fuel s (H s eq_refl) rs E _ J) as (A & B & D). cbn in A, B, D.
    split; [exact A|]. split; [exact B|]. apply with_right. exact D.
Qed.
(** A reported pair has a point in common. *)
Theorem C88_reported_pairs_meet : forall proper l m i, right_up_to_rounding proper l m i -> exists r, on_line l r /\ on_line m r.
Proof.
  intros proper l m i. assert (S : forall s, on_line s (l_start s)) by (intros [a b]; apply on_seg_start).
  destruct i as [q [|]|s]; cbn; intros H.
  - destruct H as (_ & r & X & _). exists r. apply X. reflexivity.
  - exists q. apply H. reflexivity.
  - exists (l_start s). apply H. apply S.
Qed.

(** The hypotheses are met also where [f64] makes [Intersections] miss a pair
    (C87). *)
Example C88_example : exists rs,
  in_collect (ar := f64 (fun _ _ => P 0 0)) geom_of (fun _ => O) 100 c87_touch = Ok rs /\ pairs rs = [(1, 2)] /\
  forall c c' i, In (c, c', i) rs -> In c c87_touch /\ In c' c87_touch.
Proof.
  run (in_collect (ar := f64 (fun _ _ => P 0 0)) geom_of (fun _ => O) 100 c87_touch) pairs r E V. exists r. split; [exact E|]. split; [exact V|].
  intros c c' i J. destruct (proj2 (C88_intersections_never_wrong _ _ geom_of (fun _ => O) c87_touch) 100 r E c c' i J) as (A & B & _). auto.
Qed.
(** Nothing more holds for arbitrary errors: with a computed point that is far off,
    a pair may be reported several times, and a line with itself. *)
Example C88_example_nonsense : exists rs,
  in_collect (ar := rounded (fun _ _ => P 100 100) (fun x => x)) geom_of (fun _ => O) 100 [ln 1 0 0 2 2; ln 2 0 2 2 0] = Ok rs /\ pairs rs = [(1, 2); (1, 2); (1, 2); (1, 2); (2, 2)].
Proof.
  run (in_collect (ar := rounded (fun _ _ => P 100 100) (fun x => x)) geom_of (fun _ => O) 100 [ln 1 0 0 2 2; ln 2 0 2 2 0]) pairs r E V. exists r. split; [exact E|exact V].
Qed.

Print Assumptions C88_crossings_of_the_input.
Print Assumptions C88_intersections_never_wrong.
Print Assumptions C88_reported_pairs_meet.
