(** C85: valid multi-polygons, and so the results of boolean operations, are returned
    as they are by operations that do not change the region. *)
Require Import List String Bool Arith Lia Permutation.
From Verif Require Import Base Scalar M_Events M_Geo M_LineOrPoint M_Sweep M_Crossings M_Rings M_Op M_Laminar.
From Verif Require Import S_Geo P_Geo P_LineOrPoint P_Run P_Master S_Boundary P_Boundary.
From Verif Require Import M_MonoPoly S_Mono S_Rings P_RingWalk P_Rings Props_Rings S_Op Props_Op1 P_OpPoint P_OpPoly Props_Op2 Props_Op3 S_Laminar P_Laminar Props_Laminar P_LamRun P_LamGeo P_LamSpec P_LamCount P_LamSimple Props_Laminar2.
From Verif Require Import M_MonoSweep M_Chains S_Chains P_MonoTotal Props_Chains Props_Decomp Props_Area S_Cells P_Cells P_CellPieces S_Multi Props_Valid Props_OpArea Props_Expr S_Written P_Cycles P_Layout Props_Written P_Kept.
Import Datatypes.
Import ListNotations.
Local Open Scope list_scope.
Local Open Scope nat_scope.

Lemma nil_closed : all_closed []. Proof. intros r []. Qed.
Lemma union_nil : forall A q, in_result Union A [] q = inside A q.
Proof. intros A q. unfold in_result. cbn [result]. apply orb_false_r. Qed.
Lemma boundary_ext : forall E inr inr' out, (forall q, inr q = inr' q) -> boundary E inr out -> boundary E inr' out.
Proof. intros E inr inr' out H. apply boundary_sides; auto; intros a b I; auto. Qed.
(** The layout of a valid multi-polygon is that of the boundary of its region. *)
Lemma valid_laid_out : forall A, valid_multi A -> exists out, boundary (edges_of A []) (in_result Union A []) out /\ (forall p, List.length (S_Rings.turns p out) <= 2) /\ laid_out out A.
Proof.
  intros A VA. pose proof (m_closed A VA) as CA. set (fuel := S (steps_bound (List.length (edges_of A [])))). assert (Fu : steps_bound (List.length (edges_of A [])) < fuel) by (unfold fuel; lia). clearbody fuel.
  assert (So : sort_ok (fun l => l) A []) by (left; auto).
  destruct (C48_sweep_emits_the_boundary (fun _ => O) (fun l => l) fuel Union A [] CA nil_closed So Fu) as (out & Bd & _).
  assert (HE : forall e, In e (edges_of A []) <-> In e (all_edges A)) by (intros e; unfold edges_of; cbn; rewrite app_nil_r; apply m_proper_edges; auto).
  pose proof (boundary_ext _ _ _ _ (union_nil A) Bd) as Bd'. pose proof (k_turns A VA (edges_of A []) HE out Bd') as T. exists out. split; auto. split; auto.
  assert (Si : simple_vertices Union A []) by (exists out; auto).
  set (fuel' := S (steps_bound (List.length out))).
  assert (Fu' : enough Union A [] fuel').
  { intros o Bo. assert (P : Permutation o out) by (apply (C49_boundary_is_unique (edges_of A []) (edges_of A []) (in_result Union A [])); auto; [apply edges_of_neq|tauto]). rewrite (Permutation_length P). unfold fuel'. lia. }
  clearbody fuel'.
  destruct (C59_simple_vertices_return (fun _ => O) (fun l => l) fuel (fun _ => O) fuel' Union A [] CA nil_closed So Fu Fu' Si) as (mp & R & _).
  destruct (run_laid_out (fun _ => O) (fun l => l) fuel (fun _ => O) fuel' Union A [] CA nil_closed So Fu Fu' Si mp R) as (out' & Bo & La & NM & Ne).
  assert (P : Permutation out' out) by (apply (C49_boundary_is_unique (edges_of A []) (edges_of A []) (in_result Union A [])); auto; [apply edges_of_neq|tauto]).
  apply (k_laid_out A VA (edges_of A []) HE out Bd' mp); auto.
  - apply (C68_results_are_valid (fun _ => O) (fun l => l) fuel (fun _ => O) fuel' Union A [] mp CA nil_closed So Fu Fu' Si R).
  - intros q. rewrite (C58_returned_polygons_are_the_result (fun _ => O) (fun l => l) fuel (fun _ => O) fuel' Union A [] mp q CA nil_closed So Fu Fu' R). apply union_nil.
  - apply (laid_perm out' out); auto.
Qed.

(** An operation on operands with the edges of [A] whose result is the region of [A]. *)
Theorem C85_kept : forall ty X Y A, valid_multi A -> all_closed X -> all_closed Y ->
  same_sides (edges_of X Y) (all_edges A) -> same_sides (all_edges A) (edges_of X Y) -> (forall q, in_result ty X Y q = inside A q) ->
  forall tie presort fuel tie' fuel', sort_ok presort X Y -> steps_bound (List.length (edges_of X Y)) < fuel -> enough ty X Y fuel' ->
    exists mp, boolean_op tie presort fuel tie' fuel' ty X Y = Ok mp /\ same_polygons A mp.
Proof.
  intros ty X Y A VA CX CY S1 S2 HI tie presort fuel tie' fuel' So Fu Fu'. destruct (valid_laid_out A VA) as (out & Bd & T & La).
  assert (HE : forall e, In e (edges_of A []) <-> In e (all_edges A)) by (intros e; unfold edges_of; cbn; rewrite app_nil_r; apply m_proper_edges; auto).
  apply (returned_laid Union ty A [] X Y) with out; auto using nil_closed.
  - intros a b I. apply S2, HE, I.
  - intros a b I. destruct (S1 a b I) as [J|J]; [left|right]; apply HE; auto.
  - intros q. rewrite HI. apply union_nil.
Qed.
Lemma sides_incl : forall E F : list (pt * pt), incl E F -> same_sides E F.
Proof. intros E F H a b I. left. apply H; auto. Qed.
(** Nothing added, nothing taken away. *)
Theorem C85_with_nothing : forall ty A, ty <> Intersection -> valid_multi A ->
  forall tie presort fuel tie' fuel', sort_ok presort A [] -> steps_bound (List.length (edges_of A [])) < fuel -> enough ty A [] fuel' ->
    exists mp, boolean_op tie presort fuel tie' fuel' ty A [] = Ok mp /\ same_polygons A mp.
Proof.
  intros ty A N VA tie presort fuel tie' fuel' So Fu Fu'. assert (HE : forall e, In e (edges_of A []) <-> In e (all_edges A)) by (intros e; unfold edges_of; cbn; rewrite app_nil_r; apply m_proper_edges; auto).
  apply (C85_kept ty A [] A); auto using nil_closed; [apply m_closed; auto|apply sides_incl; intros e; apply HE|apply sides_incl; intros e; apply HE|].
  intros q. unfold in_result. change (inside [] q) with false. destruct ty; [contradiction| | |]; cbn [result negb]; destruct (inside A q); reflexivity.
Qed.
(** Union and intersection with itself. *)
Theorem C85_with_itself : forall ty A, ty = Union \/ ty = Intersection -> valid_multi A ->
  forall tie presort fuel tie' fuel', sort_ok presort A A -> steps_bound (List.length (edges_of A A)) < fuel -> enough ty A A fuel' ->
    exists mp, boolean_op tie presort fuel tie' fuel' ty A A = Ok mp /\ same_polygons A mp.
Proof.
  intros ty A D VA tie presort fuel tie' fuel' So Fu Fu'. assert (HE : forall e, In e (edges_of A A) <-> In e (all_edges A)) by (intros e; unfold edges_of; rewrite in_app_iff, m_proper_edges; tauto).
  apply (C85_kept ty A A A); auto; [apply m_closed; auto|apply m_closed; auto|apply sides_incl; intros e; apply HE|apply sides_incl; intros e; apply HE|].
  intros q. unfold in_result. destruct D as [-> | ->]; cbn [result]; destruct (inside A q); reflexivity.
Qed.
(** Results of operations are not changed by further ones. *)
Theorem C85_results_stay : forall ty A B mp, all_closed A -> all_closed B -> returns ty A B mp ->
  valid_multi mp /\ (forall mp', returns Union mp [] mp' -> same_polygons mp mp') /\ (forall mp', returns Union mp mp mp' -> same_polygons mp mp') /\ (forall mp', returns Intersection mp mp mp' -> same_polygons mp mp').
Proof.
  intros ty A B mp CA CB (t & p & f & t' & f' & So & Fu & Fu' & Si & R). pose proof (C68_results_are_valid t p f t' f' ty A B mp CA CB So Fu Fu' Si R) as VM. split; auto. clear - VM.
  split; [|split]; intros mp' (t & p & f & t' & f' & So & Fu & Fu' & _ & R).
  - destruct (C85_with_nothing Union mp) with t p f t' f' as (m & Q & S); auto; [discriminate|]. rewrite R in Q. injection Q as ->. auto.
  - destruct (C85_with_itself Union mp) with t p f t' f' as (m & Q & S); auto. rewrite R in Q. injection Q as ->. auto.
  - destruct (C85_with_itself Intersection mp) with t p f t' f' as (m & Q & S); auto. rewrite R in Q. injection Q as ->. auto.
Qed.

(** A triangle with a hole. *)
Definition frame : list polygon := [mkPolygon (ringz [(0, 0); (20, 0); (0, 20); (0, 0)]%Z) [ringz [(2, 3); (9, 4); (3, 8); (2, 3)]%Z]].
Ltac closed_check := let r := fresh in let H := fresh in intros r H; cbn in H; repeat (destruct H as [<-|H]; [vm_compute; reflexivity|]); destruct H.
Definition returned (ty : op_type) (A B : list polygon) : list polygon :=
  match boolean_op (fun _ => O) (fun l => l) 9000 (fun _ => O) 9000 ty A B with Ok mp => mp | _ => [] end.
Example C85_example : exists mp mp', returns Union frame [] mp /\ map (fun p => List.length (pg_interiors p)) mp = [1] /\ valid_multi mp /\
  returns Union mp mp mp' /\ same_polygons mp mp'.
Proof.
  set (mp := returned Union frame []). set (mp' := returned Union mp mp). exists mp, mp'.
  assert (R : returns Union frame [] mp) by (apply (returns_check _ _ _ _ 9000); [closed_check|apply nil_closed|vm_compute; reflexivity|vm_compute; reflexivity|vm_compute; reflexivity]).
  assert (R' : returns Union mp mp mp').
  { apply (returns_check _ _ _ _ 9000); [| |vm_compute; reflexivity|vm_compute; reflexivity|vm_compute; reflexivity]; apply m_closed; eapply C85_results_stay; try exact R; [closed_check|apply nil_closed|closed_check|apply nil_closed]. }
  destruct (C85_results_stay Union frame [] mp) as (V & _ & U & _); [closed_check|apply nil_closed|exact R|].
  split; [exact R|]. split; [vm_compute; reflexivity|]. split; [exact V|]. split; [exact R'|]. apply U. exact R'.
Qed.
