(** Moving the input of the sweep or of a boolean operation moves the output. *)
Require Import List Bool Arith ZArith QArith String.
From Verif Require Import Base Scalar M_Events M_Geo M_LineOrPoint M_MonoPoly M_Sweep M_Crossings M_Rings M_Op M_Laminar S_Geo S_Op S_Move.
From Verif Require Import P_Geo P_MoveGeo P_Move P_MoveOp P_Ties P_TiesOp Props_Bugs Props_Op1 Props_Laminar2.
Import ListNotations.
Local Open Scope list_scope.
Local Open Scope Qc_scope.

Lemma keeps : forall f, affine f -> keeps_order f ->
  (forall a b, pcmp (f a) (f b) = pcmp a b) /\ (forall a b c, orient2d (f a) (f b) (f c) = orient2d a b c) /\
  (forall l m, line_intersection (moved_line f l) (moved_line f m) = option_map (moved_intersection f) (line_intersection l m)) /\
  (forall a b, qeqb (cx (f a)) (cx (f b)) && qltb (cy (f a)) (cy (f b)) = qeqb (cx a) (cx b) && qltb (cy a) (cy b)).
Proof.
  intros f A K. destruct (affine_form f A K) as (a & c & d & e & h & Ha & He & F).
  assert (E : forall p, f p = sh a c d e h p) by exact F.
  split; [intros; rewrite !E; apply sh_cmp; auto|]. split; [intros; rewrite !E; apply sh_orient; auto|]. split; [|intros; rewrite !E; apply sh_nudge; auto].
  intros l m. assert (L : forall l, moved_line f l = moved_line (sh a c d e h) l) by (intros; unfold moved_line; rewrite !E; reflexivity).
  rewrite !L, (sh_line_intersection a c d e h Ha He). destruct (line_intersection l m) as [[p b|s]|]; cbn [option_map moved_intersection]; auto; [rewrite E|rewrite L]; reflexivity.
Qed.

(** ** C75: crossings and intersections *)
(** [f] is affine and keeps the order of the sweep: a translation, a scaling of each
    axis by a positive factor, a shear along the vertical, or a composition of
    these.  [h] moves the inputs: their lines are the moved lines.  The crossings of
    the moved inputs are the moved crossings, at the moved points, in the same
    order and with the same flags; or the run ends with the same panic. *)
Theorem C75_crossings : forall {C D} (h : C -> D) (line_of : C -> line) (line_of' : D -> line) tie fuel input f,
  affine f -> keeps_order f -> (forall c, In c input -> line_of' (h c) = moved_line f (line_of c)) ->
  ci_collect line_of' tie fuel (map h input) = moved_result (map (moved_point f h)) (ci_collect line_of tie fuel input).
Proof.
  intros C D h lC lD tie fuel input f A K H. destruct (keeps f A K) as (Gc & Go & Gl & Gx). exact (collect_mv f Gc Go Gl Gx h lC lD tie fuel input H).
Qed.
Theorem C75_intersections : forall {C D} (h : C -> D) (line_of : C -> line) (line_of' : D -> line) tie fuel input f,
  affine f -> keeps_order f -> (forall c, line_of' (h c) = moved_line f (line_of c)) ->
  in_collect line_of' tie fuel (map h input) = moved_result (map (moved_pair f h)) (in_collect line_of tie fuel input).
Proof.
  intros C D h lC lD tie fuel input f A K H. destruct (keeps f A K) as (Gc & Go & Gl & Gx). exact (in_collect_mv f Gc Go Gl Gx h lC lD tie H fuel input).
Qed.
Theorem C75_line_intersection : forall f l m, affine f -> keeps_order f ->
  line_intersection (moved_line f l) (moved_line f m) = option_map (moved_intersection f) (line_intersection l m).
Proof. intros f l m A K. apply keeps; auto. Qed.

(** ** C76: boolean operations *)
(** The sort of the second run leaves equal crossings in the same order as that of
    the first. *)
Theorem C76_boolean_operations : forall tie presort presort' fuel tie' fuel' ty A B f,
  affine f -> keeps_order f -> (forall l, presort' (map (moved_crossing f (fun i => i)) l) = map (moved_crossing f (fun i => i)) (presort l)) ->
  boolean_op tie presort' fuel tie' fuel' ty (map (moved_polygon f) A) (map (moved_polygon f) B) =
  moved_result (map (moved_polygon f)) (boolean_op tie presort fuel tie' fuel' ty A B).
Proof.
  intros tie presort presort' fuel tie' fuel' ty A B f Af K Hp. destruct (keeps f Af K) as (Gc & Go & Gl & Gx). exact (boolean_op_mv f Gc Go Gl Gx tie presort presort' fuel tie' fuel' ty A B Hp).
Qed.

(** ** Examples *)
Definition slant (p : pt) : pt := mkC (Q2Qc (2#1) * cx p + 0 * cy p + Q2Qc (5#1)) (Q2Qc (-3#1) * cx p + Q2Qc (1#2) * cy p + Q2Qc (7#3)).
Lemma slant_ok : affine slant /\ keeps_order slant.
Proof.
  split; [repeat eexists; intros; reflexivity|]. intros u v [L|[E L]]; unfold lex_lt, slant; cbn [cx cy].
  - left. qcl.
  - right. rewrite E. split; [ring|]. qcl.
Qed.
Definition pq (x y : Z) : pt := mkC (Q2Qc (inject_Z x)) (Q2Qc (inject_Z y)).
Definition three_lines : list line := [mkLine (pq 0 0) (pq 9 9); mkLine (pq 0 8) (pq 8 0); mkLine (pq 4 (-1)) (pq 4 10)].
(** Three lines through a point: the crossings of the slanted lines. *)
Example C75_example :
  match ci_collect (fun l => l) (fun _ => O) 100 (map (moved_line slant) three_lines) with
  | Ok ys => map (fun y => (this (cx (fst y)), this (cy (fst y)), List.length (snd y))) ys
  | _ => []
  end = [(5, 7#3, 1%nat); (5, 19#3, 1%nat); (13, -61#6, 1%nat); (13, -23#3, 6%nat); (13, -14#3, 1%nat); (21, -65#3, 1%nat); (23, -121#6, 1%nat)]%Q /\
  exists ys, ci_collect (fun l => l) (fun _ => O) 100 three_lines = Ok ys /\ List.length ys = 7%nat /\
    ci_collect (fun l => l) (fun _ => O) 100 (map (moved_line slant) three_lines) = Ok (map (moved_point slant (moved_line slant)) ys).
Proof.
  split; [vm_compute; reflexivity|]. destruct (ci_collect (fun l => l) (fun _ => O) 100 three_lines) as [ys|s|] eqn:E; [exists ys|exfalso|exfalso]; [|revert E; vm_compute; discriminate|revert E; vm_compute; discriminate].
  split; [reflexivity|]. destruct slant_ok as [A K]. split; [|rewrite (C75_crossings (moved_line slant) (fun l => l) (fun l => l) _ _ _ slant A K), E by reflexivity; reflexivity].
  assert (B : match ci_collect (fun l => l) (fun _ => O) 100 three_lines with Ok ys => List.length ys | _ => O end = 7%nat) by (vm_compute; reflexivity). rewrite E in B. exact B.
Qed.
(** The difference of two squares (see [C58_example]), slanted. *)
Example C76_example : exists e h,
  boolean_op (fun _ => O) (fun l => l) 3000 (fun _ => O) 3000 Difference frame_a frame_b = Ok [mkPolygon e [h]] /\
  boolean_op (fun _ => O) (fun l => l) 3000 (fun _ => O) 3000 Difference (map (moved_polygon slant) frame_a) (map (moved_polygon slant) frame_b) = Ok [mkPolygon (map slant e) [map slant h]].
Proof.
  destruct C58_example as (_ & _ & _ & _ & _ & _ & e & h & E & _). exists e, h. split; auto. destruct slant_ok as [A K].
  rewrite (C76_boolean_operations _ (fun l => l)), E; auto.
Qed.
(** Turning the plane does not keep the order of the sweep, and it matters: the
    union of [C53_union_of_touching_triangles_panics] succeeds when both operands
    are turned by ninety degrees. *)
Definition turned (p : pt) : pt := mkC (0 * cx p + (- (1)) * cy p + 0) (1 * cx p + 0 * cy p + 0).
Definition turned_low : list polygon := map (moved_polygon turned) [low_tri].
Definition turned_high : list polygon := map (moved_polygon turned) [high_tri].
Lemma turned_returns : forall tie tie', exists mp, boolean_op tie (fun l => l) 100 tie' 100 Union turned_low turned_high = Ok mp.
Proof.
  intros tie tie'.
  pose proof (ties_boolean [0; 4; 6; 10]%nat [0; 4; 6; 10]%nat tie (fun l => l) 100 tie' 100 Union turned_low turned_high) as T. revert T. cbn [map].
  generalize (tie 0%nat) (tie 4%nat) (tie 6%nat) (tie 10%nat) (tie' 0%nat) (tie' 4%nat) (tie' 6%nat) (tie' 10%nat). intros v0 v4 v6 v10 w0 w4 w6 w10 T.
  destruct v0, v4, v6, v10, w0, w4, w6, w10.
  all: match type of T with forall r, ?a = r -> _ => run a (@List.length polygon) r E V end.
  all: exists r; exact (T _ E (not_given_up _)).
Qed.
Lemma operate_panics : forall tie presort fuel tie' fuel' ty A B m, operate tie presort fuel ty A B = Panic m -> boolean_op tie presort fuel tie' fuel' ty A B = Panic m.
Proof.
  intros tie presort fuel tie' fuel' ty A B m E. unfold operate in E. unfold boolean_op. destruct (op_input ty A B) as [o|m'|]; [|injection E as ->; reflexivity|discriminate E].
  cbn [bind] in *. destruct (op_sweep _ _ _ _) as [rs|m'|]; [discriminate E|injection E as ->; reflexivity|discriminate E].
Qed.
Theorem C76_rotation_refuted : exists A B ty m, affine turned /\ all_closed A /\ all_closed B /\
  forall tie tie', boolean_op tie (fun l => l) 100 tie' 100 ty A B = Panic m /\
  exists mp, boolean_op tie (fun l => l) 100 tie' 100 ty (map (moved_polygon turned) A) (map (moved_polygon turned) B) = Ok mp.
Proof.
  exists [low_tri], [high_tri], Union, "rings.rs:154 debug_assert_eq"%string. split; [repeat eexists; intros; reflexivity|]. split; [intros r [<-|[]]; apply closed_tri|]. split; [intros r [<-|[]]; apply closed_tri|].
  intros tie tie'. split.
  - apply operate_panics. apply C53_union_of_touching_triangles_panics.
  - exact (turned_returns tie tie').
Qed.

Print Assumptions C75_crossings.
Print Assumptions C75_intersections.
Print Assumptions C75_line_intersection.
Print Assumptions C76_boolean_operations.
Print Assumptions C76_rotation_refuted.
