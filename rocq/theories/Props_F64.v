(** What rounding to [f64] breaks, and what it does not (C87). *)
Require Import List String Bool Arith Lia ZArith QArith Qcanon.
From Verif Require Import Base Scalar M_Events M_Geo M_LineOrPoint M_Round M_F64 M_Sweep M_Crossings M_MonoPoly M_Rings M_Op M_Laminar.
From Verif Require Import S_Geo S_Sweep S_Round S_F64 P_Geo P_LineOrPoint P_Round P_Ties P_F64 Props_Round Props_Bugs.
Import Datatypes.
Import ListNotations.
Local Open Scope string_scope.
Local Open Scope nat_scope.
Local Open Scope Qc_scope.

(** ** C87 *)
(** Inputs are lines with a name ([ln] of Props_Bugs.v).  [tie] is the order in
    which equal events are popped, [nearest] the computation of the nearest end. *)

(** A touch that is missed.  Line 3 ends at (2,3), in the middle of line 2.  Line 1
    crosses line 2 to the left of that point, at a point whose coordinates are not
    floats, and what is left of line 2 no longer runs through (2,3).
    [Intersections] reports the crossing only; it would report both if the
    arithmetic were exact. *)
Definition c87_touch : list named := [ln 1 0 5 1 2; ln 2 0 4 6 1; ln 3 8 7 2 3].
Theorem C87_touch_missed : forall tie nearest,
  only_common (geom_of (ln 2 0 4 6 1)) (geom_of (ln 3 8 7 2 3)) (P 2 3) /\
  (exists r, in_collect (ar := f64 nearest) geom_of tie 100 c87_touch = Ok r /\ pairs r = [(1, 2)%nat]) /\
  (exists r, in_collect (ar := exact) geom_of tie 100 c87_touch = Ok r /\ In (2, 3)%nat (pairs r)).
Proof.
  intros tie nearest. split; [|split].
  - pose proof (P_LineInt.line_intersection_all (geom_of (ln 2 0 4 6 1)) (geom_of (ln 3 8 7 2 3))) as X.
    assert (E : line_intersection (geom_of (ln 2 0 4 6 1)) (geom_of (ln 3 8 7 2 3)) = Some (SinglePoint (P 2 3) false)) by (vm_compute; reflexivity).
    rewrite E in X. exact X.
  - pose proof (ties_intersections [2; 4; 6; 9]%nat (ar := f64 nearest) geom_of tie 100 c87_touch) as T. revert T. cbn [map].
    generalize (tie 2%nat) (tie 4%nat) (tie 6%nat) (tie 9%nat). intros v2 v4 v6 v9 T.
    destruct v2 as [|v2], v4 as [|v4], v6 as [|v6], v9 as [|v9].
    all: match type of T with forall r, ?a = r -> _ => run a pairs r E V end.
    all: exists r; split; [exact (T _ E (not_given_up _))|exact V].
  - pose proof (ties_intersections [2; 4; 6; 11; 12]%nat (ar := exact) geom_of tie 100 c87_touch) as T. revert T. cbn [map].
    generalize (tie 2%nat) (tie 4%nat) (tie 6%nat) (tie 11%nat) (tie 12%nat). intros v2 v4 v6 v11 v12 T.
    destruct v2 as [|v2], v4 as [|v4], v6 as [|v6], v11 as [|[|v11]], v12 as [|v12].
    all: match type of T with forall r, ?a = r -> _ => run a pairs r E V end.
    all: exists r; split; [exact (T _ E (not_given_up _))|rewrite V; simpl; auto].
Qed.

(** An assertion that fails, also in release builds: a segment is not found where
    it should be in the set of active segments.  The ends of the lines have
    coordinates 0 to 5; equal events are popped last in, first out. *)
Definition c87_six : list named := [ln 1 0 1 5 3; ln 2 2 0 0 1; ln 3 4 5 5 3; ln 4 4 5 5 3; ln 5 4 5 0 1; ln 6 5 5 2 2].
Theorem C87_assertion_fails : forall nearest,
  ci_collect (ar := f64 nearest) geom_of (fun _ => O) 200 c87_six = Panic "active.rs:170 assert remove" /\
  in_collect (ar := f64 nearest) geom_of (fun _ => O) 200 c87_six = Panic "active.rs:170 assert remove" /\
  exists r, in_collect (ar := exact) geom_of (fun _ => O) 200 c87_six = Ok r.
Proof.
  intros nearest. split; [vm_compute; reflexivity|]. split; [vm_compute; reflexivity|].
  run (in_collect (ar := exact) geom_of (fun _ => O) 200 c87_six) pairs r E V. eauto.
Qed.

(** Two lines suffice for the assertion of line_or_point.rs:154 (in debug builds),
    whatever the order of equal events, and whichever end is taken for the
    nearest one as long as no end is nearer by more than a factor of four. *)
Definition c87_up : line := geom_of (ln 1 0 0 (2 ^ 54) (2 ^ 60)).
Definition c87_down : line := geom_of (ln 2 (-1) 8 (2 ^ 54) (2 ^ 59)).
Definition c87_two : list named := [(1%nat, c87_up); (2%nat, c87_down)].
Definition before_first : string := "line_or_point.rs:154 intersection not in total-order with first line".
Module Impl.
Lemma fallback : forall nearest, nearly_nearest nearest -> f64_proper nearest c87_up c87_down = P (-1) 8.
Proof.
  intros nearest H. transitivity (nearest c87_up c87_down); [vm_compute; reflexivity|].
  destruct (H c87_up c87_down) as (l & I & N).
  specialize (N (P (-1) 8) c87_up (foot (P (-1) 8) c87_up) (or_intror (conj (or_introl eq_refl) eq_refl)) (foot_on _ _)) as (y & O & L).
  assert (D : sq_dist (P (-1) 8) (foot (P (-1) 8) c87_up) <= Q2Qc 2) by (apply qleb_iff; vm_compute; reflexivity).
  assert (L' : sq_dist (nearest c87_up c87_down) y <= Q2Qc 32).
  { eapply Qcle_trans; [exact L|]. revert D. generalize (sq_dist (P (-1) 8) (foot (P (-1) 8) c87_up)). clear. intros d D. qcl. }
  clear L D. destruct I as [[[I|I] I']|[[I|I] I']]; rewrite I in *; subst l; [exfalso|exfalso|reflexivity|exfalso]; unfold on_line in O.
  - apply (beyond _ _ (l_start c87_up)) in O; [|apply qleb_iff; vm_compute; reflexivity].
    pose proof (Qcle_trans _ _ _ O L') as K. apply qleb_iff in K. vm_compute in K. discriminate K.
  - apply P_Geo.on_seg_sym in O. apply (beyond _ _ (l_end c87_up)) in O; [|apply qleb_iff; vm_compute; reflexivity].
    pose proof (Qcle_trans _ _ _ O L') as K. apply qleb_iff in K. vm_compute in K. discriminate K.
  - apply (across _ _ (l_end c87_down)) in O.
    assert (K : cross (l_start c87_up) (l_end c87_up) (l_end c87_down) * cross (l_start c87_up) (l_end c87_up) (l_end c87_down) <= Q2Qc 32 * sq_dist (l_start c87_up) (l_end c87_up)).
    { eapply Qcle_trans; [exact O|]. apply Qcmult_le_compat_r; [exact L'|]. apply qleb_iff. vm_compute. reflexivity. }
    apply qleb_iff in K. vm_compute in K. discriminate K.
Qed.
(** All that is asked is where these two lines meet. *)
Definition only_these : arith :=
  mkArith (fun g h => match g, h with
                      | Line p q, Line r s => if peqb p (l_start c87_up) && peqb q (l_end c87_up) && peqb r (l_start c87_down) && peqb s (l_end c87_down) then Panic before_first else Panic "proper"
                      | _, _ => Panic "proper"
                      end) line_intersection.
Lemma these : forall nearest, nearly_nearest nearest -> below only_these (f64 nearest).
Proof.
  intros nearest H g h. unfold below, only_these. cbn [M_LineOrPoint.meet]. destruct g as [p|p q]; [right; left; reflexivity|]. destruct h as [r|r s]; [right; left; reflexivity|].
  match goal with |- context [if ?b then _ else _] => destruct b eqn:E end; [|right; left; reflexivity]. left.
  apply andb_true_iff in E as [E E4]. apply andb_true_iff in E as [E E3]. apply andb_true_iff in E as [E1 E2].
  apply peqb_iff in E1, E2, E3, E4. subst p q r s. unfold f64, rounded. cbn [M_LineOrPoint.meet]. unfold intersect_line_ordered_with, intersect_line_with. cbn [lop_line is_line check bind lop_first].
  change (mkLine (l_start c87_up) (l_end c87_up)) with c87_up. change (mkLine (l_start c87_down) (l_end c87_down)) with c87_down.
  assert (L : line_intersection_with (f64_proper nearest) c87_up c87_down = Some (SinglePoint (f64_proper nearest c87_up c87_down) true)).
  { assert (X : forall proper, line_intersection_with proper c87_up c87_down = Some (SinglePoint (proper c87_up c87_down) true)) by (intros proper; vm_compute; reflexivity). apply X. }
  rewrite L, (fallback nearest H). vm_compute. reflexivity.
Qed.
End Impl.
Import Impl.
Theorem C87_two_lines_fail : forall tie nearest fuel, nearly_nearest nearest ->
  ci_collect (ar := f64 nearest) geom_of tie (10 + fuel) c87_two = Panic before_first.
Proof.
  intros tie nearest fuel H. transitivity (ci_collect (ar := only_these) geom_of tie (10 + fuel) c87_two); [|vm_compute; reflexivity].
  assert (E : ci_collect (ar := only_these) geom_of tie (10 + fuel) c87_two = Panic before_first) by (vm_compute; reflexivity).
  apply le_same; [apply ci_collect_le; [apply these; exact H|reflexivity]|]. rewrite E. intros [X|X]; discriminate X.
Qed.
Example C87_example_nearest : nearly_nearest nearest_end /\
  ci_collect (ar := f64 nearest_end) geom_of (fun _ => O) 100 c87_two = Panic before_first /\
  exists r, ci_collect (ar := exact) geom_of (fun _ => O) 100 c87_two = Ok r.
Proof.
  split; [apply nearest_end_ok|]. split; [apply (C87_two_lines_fail (fun _ => O) nearest_end 90 nearest_end_ok)|].
  run (ci_collect (ar := exact) geom_of (fun _ => O) 100 c87_two) view r E V. eauto.
Qed.

(** What is enough for these two assertions: the computed point of a proper
    crossing lies in the bounding boxes of both lines, and the next number is
    larger.  The first point of [other] must not come after that of [self]: so it is
    when the sweep starts a segment and looks at an active one. *)
Theorem C87_boxes_suffice : forall proper next_up self other,
  (forall l m r, cross_properly l m r -> rect_has (line_bounding_rect l) (proper l m) = true /\ rect_has (line_bounding_rect m) (proper l m) = true) ->
  (forall x, x < next_up x) -> valid self -> valid other -> is_line other = true -> lex_le (lop_first other) (lop_first self) ->
  exists o, intersect_line_ordered_with proper (fun x => Ok (next_up x)) self other = Ok o /\
  forall p, o = Some (Point p) -> lex_le (lop_first self) p /\ lex_le (lop_first other) p.
Proof.
  intros proper next_up self other B N V W I Le.
  destruct (match self, other with Line p q, Line r s => proper_pair (mkLine p q) (mkLine r s) | _, _ => false end) eqn:PP.
  - destruct self as [p|p q]; [discriminate|]. destruct other as [r|r s]; [discriminate|].
    destruct (Impl3.proper_pair_spec _ _ PP) as (z & Z). destruct (B _ _ _ Z) as [B1 B2].
    unfold intersect_line_ordered_with, intersect_line_with. cbn [lop_line is_line check bind lop_first] in *.
    assert (L : line_intersection_with proper (mkLine p q) (mkLine r s) = Some (SinglePoint (proper (mkLine p q) (mkLine r s)) true)).
    { clear B B1 B2. revert PP. unfold proper_pair, line_intersection, line_intersection_with. cbv zeta.
      repeat match goal with |- context [if ?b then _ else _] => destruct b; try discriminate end; try reflexivity.
      unfold collinear_intersection. cbv zeta. repeat match goal with |- context [if ?b then _ else _] => destruct b; try discriminate end. }
    rewrite L. cbn [option_map]. set (c := proper _ _) in *. clearbody c.
    apply rect_has_true in B1, B2. cbn [l_start l_end] in *. destruct B1 as [B1 _], B2 as [B2 _].
    assert (X1 : cx p <= cx c). { cbn in V. unfold lex_lt in V. destruct (qmin_spec (cx p) (cx q)) as [[E _]|[E F]]; rewrite E in B1; [exact B1|]. exfalso. destruct V as [V|[V _]]; [|rewrite V in F]; clear - V F; qcl. }
    destruct (qeqb (cx c) (cx p) && qltb (cy c) (cy p)) eqn:D.
    + apply andb_true_iff in D as [D _]. apply qeqb_iff in D. specialize (N (cx c)). set (x := next_up _) in *. clearbody x. cbn [bind].
      assert (L1 : lex_le p (mkC x (cy c))) by (left; left; cbn [cx]; rewrite <- D; exact N).
      assert (L2 : lex_le r (mkC x (cy c))) by (eapply lex_le_trans; eauto).
      pose proof (proj2 (pleb_iff _ _) L1) as M1. pose proof (proj2 (pleb_iff _ _) L2) as M2. rewrite M1, M2. eexists. split; [reflexivity|]. intros y [= <-]. auto.
    + cbn [bind]. assert (L1 : lex_le p (mkC (cx c) (cy c))).
      { destruct (Qcle_lt_or_eq _ _ X1) as [K|K]; [left; left; exact K|]. assert (Y : cy p <= cy c).
        { apply Qcnot_lt_le. intros Y. apply andb_false_iff in D as [D|D]; [apply (not_true_iff_false _) in D; apply D; apply qeqb_iff; auto|apply (not_true_iff_false _) in D; apply D; apply qltb_iff; auto]. }
        destruct (Qcle_lt_or_eq _ _ Y) as [J|J]; [left; right; auto|right; destruct p; cbn in *; subst; reflexivity]. }
      assert (L2 : lex_le r (mkC (cx c) (cy c))) by (eapply lex_le_trans; eauto).
      pose proof (proj2 (pleb_iff _ _) L1) as M1. pose proof (proj2 (pleb_iff _ _) L2) as M2. rewrite M1, M2. eexists. split; [reflexivity|]. intros y [= <-]. auto.
  - assert (LE : le (intersect_line_ordered self other) (intersect_line_ordered_with proper (fun x => Ok (next_up x)) self other)).
    { apply ilo_with. intros p q r s -> ->. exact PP. }
    destruct (intersect_line_ordered_exact self other V W) as [E F]. pose proof (intersect_line_exact self other V W) as X. rewrite <- E in X.
    destruct (intersect_line_ordered self other) as [o| |] eqn:R; [|congruence|destruct X].
    exists o. split; [exact (le_ok LE eq_refl)|]. intros p ->. exact (F _ eq_refl).
Qed.

(** Two triangles with small integer coordinates for which every operation panics
    with [f64] and returns with exact arithmetic; for two of them the panic is an
    [unwrap] of nothing, also in release builds.  Equal events are popped last in,
    first out. *)
Definition c87_triangle (a b c d e f : Z) : list polygon := [mkPolygon [P a b; P c d; P e f; P a b] []].
Theorem C87_operations_fail : forall nearest ty,
  let A := c87_triangle 7 0 2 5 0 6 in let B := c87_triangle 0 4 6 7 5 6 in
  (exists m, boolean_op (ar := f64 nearest) (fun _ => O) (fun l => l) 1000 (fun _ => O) 1000 ty A B = Panic m /\
     (ty = Intersection \/ ty = Difference -> m = "rings.rs:76 unwrap on None")) /\
  exists mp, boolean_op (ar := exact) (fun _ => O) (fun l => l) 1000 (fun _ => O) 1000 ty A B = Ok mp.
Proof.
  intros nearest ty A B. split.
  - assert (E : exists m, boolean_op (ar := f64 nearest) (fun _ => O) (fun l => l) 1000 (fun _ => O) 1000 ty A B = Panic m /\
      m = match ty with Intersection | Difference => "rings.rs:76 unwrap on None" | Union => "rings.rs:154 debug_assert_eq" | Xor => "rings.rs:174 debug_assert_eq" end)
      by (destruct ty; eexists; split; [vm_compute; reflexivity|reflexivity|vm_compute; reflexivity|reflexivity|vm_compute; reflexivity|reflexivity|vm_compute; reflexivity|reflexivity]).
    destruct E as (m & E & ->). eexists. split; [exact E|]. intros [-> | ->]; reflexivity.
  - destruct ty.
    all: match goal with |- exists mp, ?a = Ok mp => run a (@List.length polygon) mp E V end; exists mp; exact E.
Qed.
