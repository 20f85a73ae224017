(** Empty results, and results of boolean operations as operands of others. *)
Require Import List String Bool Arith Lia Permutation ZArith QArith.
From Verif Require Import Base Scalar M_Events M_Geo M_LineOrPoint M_Sweep M_Crossings M_Rings M_Op M_Laminar.
From Verif Require Import S_Geo P_Geo P_LineOrPoint P_Run P_Master S_Boundary P_Boundary.
From Verif Require Import M_MonoPoly S_Mono P_Mono S_Rings Props_Rings S_Op Props_Op1 P_OpLab P_OpPoint P_OpPoly Props_Op2 Props_Op3 S_Laminar Props_Laminar P_LamSpec Props_Laminar2.
From Verif Require Import M_MonoSweep M_Chains S_Chains P_MonoTotal Props_Chains Props_Decomp Props_Area S_Cells P_Cells P_CellPieces Props_Cells S_Multi Props_Valid Props_OpArea S_Expr.
Import Datatypes.
Import ListNotations.
Local Open Scope list_scope.
Local Open Scope nat_scope.

(** [mp] is what a boolean operation returns, with any order of equal events and with
    enough fuel. *)
Definition computes (ty : op_type) (A B mp : list polygon) : Prop :=
  exists tie presort fuel tie' fuel', sort_ok presort A B /\ steps_bound (List.length (edges_of A B)) < fuel /\ enough ty A B fuel' /\
    boolean_op tie presort fuel tie' fuel' ty A B = Ok mp.

(** ** C78 *)
(** A region without points has no boundary. *)
Lemma no_boundary : forall E inr out, (forall a b, In (a, b) E -> a <> b) -> (forall q, inr q = false) -> boundary E inr out -> out = [].
Proof.
  intros E inr out N Z Bd. destruct out as [|[g w] out]; auto. exfalso. destruct (bd_piece _ _ _ Bd g w (or_introl eq_refl)) as (x & y & -> & Pc).
  destruct (piece_inner E x y Pc) as (m & M).
  destruct (C48_both_sides_are_seen E x y m N Pc M) as (q & q' & V & L1 & V' & L2).
  pose proof (bd_left _ _ _ Bd x y w m q (or_introl eq_refl) M V L1) as [_ H1]. pose proof (bd_right _ _ _ Bd x y w m q' (or_introl eq_refl) M V' L2) as [_ H2]. rewrite Z in H1, H2. destruct w; [discriminate (H2 eq_refl)|discriminate (H1 eq_refl)].
Qed.
(** If no point is in the result, the operation returns the empty list. *)
Theorem C78_nothing_left : forall tie presort fuel tie' fuel' ty A B, all_closed A -> all_closed B -> sort_ok presort A B ->
  steps_bound (List.length (edges_of A B)) < fuel -> 0 < fuel' -> (forall q, in_result ty A B q = false) ->
  boolean_op tie presort fuel tie' fuel' ty A B = Ok [].
Proof.
  intros tie presort fuel tie' fuel' ty A B CA CB So Fu Fu' Z. destruct (C48_operation_assembles_the_boundary tie presort fuel ty A B CA CB So Fu) as (out & Bd & R).
  rewrite (no_boundary _ _ _ (edges_of_neq A B) Z Bd) in R. unfold boolean_op, operate in *. destruct (op_input ty A B) as [o| |]; cbn [bind] in *; try discriminate. rewrite R. destruct fuel' as [|f]; [lia|]. reflexivity.
Qed.
(** And only then. *)
Theorem C78_empty_result : forall ty A B mp, all_closed A -> all_closed B -> computes ty A B mp -> (mp = [] <-> forall q, in_result ty A B q = false).
Proof.
  intros ty A B mp CA CB (tie & ps & fuel & tie' & fuel' & So & Fu & Fu' & R). split.
  - intros -> q. rewrite <- (C58_returned_polygons_are_the_result tie ps fuel tie' fuel' ty A B [] q CA CB So Fu Fu' R). reflexivity.
  - intros Z. destruct (C48_operation_assembles_the_boundary tie ps fuel ty A B CA CB So Fu) as (out & Bd & _). specialize (Fu' out Bd).
    rewrite (C78_nothing_left tie ps fuel tie' fuel' ty A B) in R by (auto; lia). congruence.
Qed.
(** Operands with the same points: nothing is left of the one when the other is taken
    away. *)
Theorem C78_same_points : forall tie presort fuel tie' fuel' A B, all_closed A -> all_closed B -> sort_ok presort A B ->
  steps_bound (List.length (edges_of A B)) < fuel -> 0 < fuel' -> (forall q, inside A q = inside B q) ->
  boolean_op tie presort fuel tie' fuel' Difference A B = Ok [] /\ boolean_op tie presort fuel tie' fuel' Xor A B = Ok [].
Proof.
  intros tie presort fuel tie' fuel' A B CA CB So Fu Fu' E. split; apply C78_nothing_left; auto; intros q; unfold in_result; rewrite E; destruct (inside B q); reflexivity.
Qed.
(** Operands on different sides of a vertical or horizontal line, which they may touch,
    have no intersection. *)
Definition vertex (mp : list polygon) (v : pt) : Prop := exists a b, In (a, b) (all_edges mp) /\ (v = a \/ v = b).
Definition separated (A B : list polygon) : Prop := exists c,
  (forall v, vertex A v -> cx v <= c)%Qc /\ (forall v, vertex B v -> c <= cx v)%Qc \/ (forall v, vertex A v -> cy v <= c)%Qc /\ (forall v, vertex B v -> c <= cy v)%Qc.
Lemma mul_nonneg : forall a b : Qc, (0 <= a -> 0 <= b -> 0 <= a * b)%Qc.
Proof. intros a b A B. qc. Qed.
Lemma separated_points : forall A B, all_closed A -> separated A B -> forall q, inside A q && inside B q = false.
Proof.
  intros A B CA (c & S).
  intros q. apply andb_false_iff. assert (V : forall mp a b, In (a, b) (all_edges mp) -> vertex mp a /\ vertex mp b) by (intros mp a b I; split; exists a, b; auto). destruct S as [[HA HB]|[HA HB]].
    - destruct (qleb_spec c (cx q)) as [Q|Q].
      + left. unfold inside. apply odd_none. intros [a b] I. destruct (V _ _ _ I) as [Va Vb]. pose proof (HA _ Va). pose proof (HA _ Vb). unfold ray_crosses.
        destruct (qltb_spec (cx q) (cx b)) as [Q1|Q1]; [exfalso; qcl|]. destruct (qltb_spec (cx q) (cx a)) as [Q2|Q2]; [exfalso; qcl|]. rewrite !andb_false_r. reflexivity.
      + apply Qcnot_le_lt in Q. right. apply C48_far_points_are_outside. intros a b I. destruct (V _ _ _ I) as [Va Vb]. pose proof (HB _ Va). pose proof (HB _ Vb). split; qcl.
    - destruct (qleb_spec (cy q) c) as [Q|Q].
      + right. unfold inside. apply odd_none. intros [a b] I. destruct (V _ _ _ I) as [Va Vb]. pose proof (HB _ Va). pose proof (HB _ Vb). unfold ray_crosses.
        assert (K : forall u w, (cx u <= cx q)%Qc -> (cx q < cx w)%Qc -> (c <= cy u)%Qc -> (c <= cy w)%Qc -> qltb 0 (cross u w q) = false).
        { intros u w L1 L2 L3 L4. destruct (qltb_spec 0 (cross u w q)) as [L|L]; auto. exfalso. unfold cross in L.
          assert (0 <= (cx w - cx q) * (cy u - cy q))%Qc by (apply mul_nonneg; qcl). assert (0 <= (cx q - cx u) * (cy w - cy q))%Qc by (apply mul_nonneg; qcl). qcl. }
        destruct (qleb_spec (cx a) (cx q)), (qltb_spec (cx q) (cx b)); cbn [andb]; auto; destruct (qleb_spec (cx b) (cx q)), (qltb_spec (cx q) (cx a)); cbn [andb]; auto.
      + apply Qcnot_le_lt in Q. left. destruct (box_around (q :: flat_map (fun e => [fst e; snd e]) (all_edges A))) as (x0 & x1 & y0 & y1 & _ & _ & H). set (q' := mkC (x0 - 1)%Qc (cy q)).
        rewrite (C48_inside_is_constant_off_the_edges A q q' CA).
        * apply C48_far_points_are_outside. intros a b I. assert (Ia : In a (q :: flat_map (fun e => [fst e; snd e]) (all_edges A)) /\ In b (q :: flat_map (fun e => [fst e; snd e]) (all_edges A))) by (split; right; apply in_flat_map; exists (a, b); cbn; auto).
          destruct Ia as [Ia Ib]. apply H in Ia as (Ia & _). apply H in Ib as (Ib & _). unfold q'. cbn [cx]. split; qcl.
        * intros r a b O I O'. destruct (V _ _ _ I) as [Va Vb]. apply HA in Va, Vb. assert (cy r = cy q). { destruct O as (t & T0 & T1 & _ & ->). unfold q'. cbn [cx cy]. ring. }
          assert (cy r <= c)%Qc. { destruct O' as (t & T0 & T1 & _ & ->). assert (0 <= t * (c - cy b))%Qc by (apply mul_nonneg; qcl). assert (0 <= (1 - t) * (c - cy a))%Qc by (apply mul_nonneg; qcl). qcl. }
          qcl.
Qed.
Theorem C78_separated : forall tie presort fuel tie' fuel' A B, all_closed A -> all_closed B -> sort_ok presort A B ->
  steps_bound (List.length (edges_of A B)) < fuel -> 0 < fuel' -> separated A B \/ separated B A ->
  boolean_op tie presort fuel tie' fuel' Intersection A B = Ok [].
Proof.
  intros tie presort fuel tie' fuel' A B CA CB So Fu Fu' [S|S]; apply C78_nothing_left; auto; intros q; unfold in_result; cbn [result]; [|rewrite andb_comm]; apply separated_points; auto.
Qed.

(** ** C79 *)
(** An expression is computed from the inside out. *)
Inductive runs : expression -> list polygon -> Prop :=
| run_operand : forall mp, runs (Operand mp) mp
| run_apply : forall ty l r ml mr mp, runs l ml -> runs r mr -> computes ty ml mr mp -> runs (Apply ty l r) mp.
(** However deep operations are nested, the polygons that come out have the points that
    the expression stands for. *)
Theorem C79_expressions : forall e mp, (forall o, In o (operands e) -> all_closed o) -> runs e mp -> all_closed mp /\ forall q, inside mp q = meaning e q.
Proof.
  intros e mp C R. induction R as [mp|ty l r ml mr mp _ IHl _ IHr K]; cbn [operands meaning] in *; [split; [apply C; left; auto|auto]|].
  destruct IHl as [Cl Il]; [intros o I; apply C, in_or_app; auto|]. destruct IHr as [Cr Ir]; [intros o I; apply C, in_or_app; auto|].
  destruct K as (tie & ps & fuel & tie' & fuel' & So & Fu & Fu' & R). split; [apply (C58_returned_rings_are_the_boundary tie ps fuel tie' fuel' ty ml mr mp Cl Cr So Fu Fu' R)|].
  intros q. rewrite <- Il, <- Ir. apply (C58_returned_polygons_are_the_result tie ps fuel tie' fuel' ty ml mr mp q Cl Cr So Fu Fu' R).
Qed.
(** It does not matter how a set is written: two expressions for the same set give the
    same points, and results without overlaps have the same area, in the plane and in every
    rectangle. *)
Theorem C79_same_set : forall e e' mp mp', (forall o, In o (operands e ++ operands e') -> all_closed o) -> runs e mp -> runs e' mp' ->
  (forall q, meaning e q = meaning e' q) ->
  (forall q, inside mp q = inside mp' q) /\
  (tiles mp -> tiles mp' -> multi_area mp = multi_area mp' /\ forall a b c d, (a < b)%Qc -> (c < d)%Qc -> cells mp a b c d = cells mp' a b c d).
Proof.
  intros e e' mp mp' C R R' E. destruct (C79_expressions e mp) as [_ I]; auto; [intros o J; apply C, in_or_app; auto|]. destruct (C79_expressions e' mp') as [_ I']; auto; [intros o J; apply C, in_or_app; auto|].
  assert (S : forall q, inside mp q = inside mp' q) by (intros q; rewrite I, I'; auto). split; auto. intros T T'.
  assert (Co : forall q, cover mp q = cover mp' q) by (intros q; rewrite !cover_once, S by auto; reflexivity).
  split; [apply equal_areas; auto; apply ti_each; auto|]. intros a b c d L1 L2. apply balance; auto; apply ti_each; auto.
Qed.
(** A smaller set has no larger area. *)
Theorem C79_smaller_set : forall e e' mp mp', (forall o, In o (operands e ++ operands e') -> all_closed o) -> runs e mp -> runs e' mp' ->
  (forall q, meaning e q = true -> meaning e' q = true) ->
  (forall q, inside mp q = true -> inside mp' q = true) /\ (tiles mp -> tiles mp' -> multi_area mp <= multi_area mp')%Qc.
Proof.
  intros e e' mp mp' C R R' E. destruct (C79_expressions e mp) as [_ I]; auto; [intros o J; apply C, in_or_app; auto|]. destruct (C79_expressions e' mp') as [_ I']; auto; [intros o J; apply C, in_or_app; auto|].
  assert (S : forall q, inside mp q = true -> inside mp' q = true) by (intros q; rewrite I, I'; auto). split; auto. intros T T'.
  apply smaller_area; [apply ti_each; auto|apply ti_each; auto|]. intros q. rewrite !cover_once by auto. specialize (S q). destruct (inside mp q), (inside mp' q); cbn [b2q]; [left; ring|discriminate S; auto|right; ring|left; ring].
Qed.
(** Results of an operation at simple vertices are such results without overlaps. *)
Theorem C79_results_are_tiles : forall ty A B mp, all_closed A -> all_closed B -> returns ty A B mp -> computes ty A B mp /\ tiles mp.
Proof.
  intros ty A B mp CA CB R. split; [|apply (result_cover ty A B mp (mkC 0%Qc 0%Qc) CA CB R)]. destruct R as (tie & ps & fuel & tie' & fuel' & So & Fu & Fu' & _ & R). exists tie, ps, fuel, tie', fuel'. auto.
Qed.
(** Expressions for the same set: the laws of sets. *)
Theorem C79_laws : forall a b c q,
  meaning (Apply Union a b) q = meaning (Apply Union b a) q /\
  meaning (Apply Union a (Apply Union b c)) q = meaning (Apply Union (Apply Union a b) c) q /\
  meaning (Apply Intersection a (Apply Intersection b c)) q = meaning (Apply Intersection (Apply Intersection a b) c) q /\
  meaning (Apply Intersection a (Apply Union b c)) q = meaning (Apply Union (Apply Intersection a b) (Apply Intersection a c)) q /\
  meaning (Apply Difference a (Apply Union b c)) q = meaning (Apply Intersection (Apply Difference a b) (Apply Difference a c)) q /\
  meaning (Apply Difference a (Apply Difference a b)) q = meaning (Apply Intersection a b) q /\
  meaning (Apply Xor a b) q = meaning (Apply Difference (Apply Union a b) (Apply Intersection a b)) q /\
  meaning (Apply Xor (Apply Xor a b) b) q = meaning a q /\
  meaning (Apply Union (Apply Difference a b) (Apply Intersection a b)) q = meaning a q.
Proof. intros a b c q. cbn [meaning]. destruct (meaning a q), (meaning b q), (meaning c q); repeat split; reflexivity. Qed.

(** ** Examples *)
Example C78_example : all_closed low_square /\ sort_ok (fun l => l) low_square low_square /\
  boolean_op (fun _ => O) (fun l => l) 5000 (fun _ => O) 1 Difference low_square low_square = Ok [].
Proof. split; [intros r [<- |[]]; vm_compute; reflexivity|]. split; [left; auto|vm_compute; reflexivity]. Qed.
Definition next_square : list polygon := [mkPolygon (ringz [(6, 3); (9, 3); (9, 9); (6, 9); (6, 3)]%Z) []].
Example C78_example_separated : separated low_square next_square /\
  boolean_op (fun _ => O) (fun l => l) 5000 (fun _ => O) 1 Intersection low_square next_square = Ok [].
Proof.
  split; [|vm_compute; reflexivity]. exists (Q2Qc 6). left. split; intros v (a & b & I & E); cbn in I; repeat destruct I as [I|I]; try contradiction; injection I as <- <-; destruct E as [-> | ->]; vm_compute; discriminate.
Qed.
(** A square cut along another one and put together again. *)
Definition value (r : res (list polygon)) : list polygon := match r with Ok mp => mp | _ => [] end.
Definition simply (ty : op_type) (A B : list polygon) : res (list polygon) := boolean_op (fun _ => O) (fun l => l) 5000 (fun _ => O) 5000 ty A B.
Definition cut_off : list polygon := Eval vm_compute in value (simply Difference low_square high_square).
Definition cut_out : list polygon := Eval vm_compute in value (simply Intersection low_square high_square).
Definition glued : list polygon := Eval vm_compute in value (simply Union cut_off cut_out).
Lemma cut_off_returned : returns Difference low_square high_square cut_off.
Proof. apply (returns_check _ _ _ _ 5000); [intros r [<- |[]]; vm_compute; reflexivity|intros r [<- |[]]; vm_compute; reflexivity|vm_compute; reflexivity|vm_compute; reflexivity|vm_compute; reflexivity]. Qed.
Lemma cut_out_returned : returns Intersection low_square high_square cut_out.
Proof. apply (returns_check _ _ _ _ 5000); [intros r [<- |[]]; vm_compute; reflexivity|intros r [<- |[]]; vm_compute; reflexivity|vm_compute; reflexivity|vm_compute; reflexivity|vm_compute; reflexivity]. Qed.
Lemma glued_returned : returns Union cut_off cut_out glued.
Proof. apply (returns_check _ _ _ _ 5000); [intros r [<- |[]]; vm_compute; reflexivity|intros r [<- |[]]; vm_compute; reflexivity|vm_compute; reflexivity|vm_compute; reflexivity|vm_compute; reflexivity]. Qed.
Definition cut_and_glued : expression :=
  Apply Union (Apply Difference (Operand low_square) (Operand high_square)) (Apply Intersection (Operand low_square) (Operand high_square)).
Example C79_example : runs cut_and_glued glued /\ tiles glued /\ multi_area glued = multi_area low_square /\ List.length glued = 1.
Proof.
  assert (C1 : all_closed low_square) by (intros r [<- |[]]; vm_compute; reflexivity). assert (C2 : all_closed high_square) by (intros r [<- |[]]; vm_compute; reflexivity).
  destruct (C79_results_are_tiles _ _ _ _ C1 C2 cut_off_returned) as [KD TD]. destruct (C79_results_are_tiles _ _ _ _ C1 C2 cut_out_returned) as [KI TI].
  destruct (C79_results_are_tiles _ _ _ _ (tiles_closed _ TD) (tiles_closed _ TI) glued_returned) as [KU TU].
  assert (R : runs cut_and_glued glued).
  { eapply run_apply; [eapply run_apply; [constructor|constructor|exact KD]|eapply run_apply; [constructor|constructor|exact KI]|exact KU]. }
  split; [exact R|]. split; [exact TU|]. split; [|reflexivity].
  assert (TL : tiles low_square) by (apply square_valid; vm_compute; reflexivity).
  assert (Co : forall o, In o (operands cut_and_glued ++ operands (Operand low_square)) -> all_closed o).
  { cbn [operands cut_and_glued app]. intros o [<- |[<- |[<- |[<- |[<- |[]]]]]]; assumption. }
  destruct (C79_same_set cut_and_glued (Operand low_square) glued low_square Co R (run_operand low_square)) as [_ S].
  { intros q. apply (C79_laws (Operand low_square) (Operand high_square) (Operand low_square) q). }
  destruct (S TU TL) as [E _]. exact E.
Qed.
