(** The theorems of Props_Sweep.v at work: a run with a proper crossing, three
    lines and a point through one point, an overlap and a duplicate, together
    with geometric facts that meet the hypotheses of the theorems. *)
Require Import List String Bool Arith ZArith Sorted.
From Verif Require Import Base Scalar M_Events M_Geo M_LineOrPoint M_Sweep M_Crossings S_Geo S_Sweep P_Geo P_LineOrPoint Props_Bugs Props_Sweep S_Ints Props_Ints.
Import ListNotations.
Local Open Scope Z_scope.

Definition ex : list named :=
  [ln 0 0 0 2 2; ln 1 0 2 2 0; ln 2 1 1 3 3; ln 3 1 1 1 1; ln 1 0 2 2 0; ln 4 1 0 1 2].

Lemma ex_end : is_end_of (geom_of (ln 2 1 1 3 3)) (P 1 1).
Proof. left. reflexivity. Qed.
Lemma ex_common : only_common (geom_of (ln 0 0 0 2 2)) (geom_of (ln 1 0 2 2 0)) (P 1 1).
Proof.
  assert (I : on_line (geom_of (ln 0 0 0 2 2)) (P 1 1) /\ on_line (geom_of (ln 1 0 2 2 0)) (P 1 1)).
  { split; exists (Q2Qc (1 # 2)); repeat split; try (apply Qc_is_canon; reflexivity); vm_compute; discriminate. }
  intros r. split; [|intros ->; exact I]. intros [A B]. destruct I as [I1 I2].
  assert (N : cross (P 0 0) (P 2 2) (P 0 2) <> cross (P 0 0) (P 2 2) (P 2 0)).
  { intros K. apply (f_equal this) in K. vm_compute in K. discriminate. }
  apply (common_unique _ _ _ _ N); apply on_seg_cross; assumption.
Qed.
Lemma ex_stretch : common_stretch (geom_of (ln 0 0 0 2 2)) (geom_of (ln 2 1 1 3 3)) (P 1 1) (P 2 2).
Proof.
  split; [left; vm_compute; reflexivity|]. intros r. unfold on_line. simpl l_start; simpl l_end.
  assert (L01 : lex_lt (P 0 0) (P 1 1)) by (left; vm_compute; reflexivity).
  assert (L12 : lex_lt (P 1 1) (P 2 2)) by (left; vm_compute; reflexivity).
  assert (L23 : lex_lt (P 2 2) (P 3 3)) by (left; vm_compute; reflexivity).
  assert (L02 : lex_lt (P 0 0) (P 2 2)) by lord. assert (L13 : lex_lt (P 1 1) (P 3 3)) by lord.
  rewrite !on_seg_iff by assumption.
  assert (C : forall a b, lex_lt (P a a) (P b b) -> (cross (P a a) (P b b) r = 0 <-> cy r = cx r)%Qc).
  { intros a b K. unfold cross. simpl.
    assert (N : (Q2Qc (inject_Z b) - Q2Qc (inject_Z a) <> 0)%Qc).
    { intro Z. destruct K as [M|[M M']]; simpl in *; qcl. }
    split; [|intros ->; ring]. intros Z. apply (Qc_mul_cancel _ _ _ N). qcl. }
  rewrite !C by assumption.
  split.
  - intros ((A1 & A2 & A3) & A4 & A5 & A6). split; [auto|split; auto].
  - intros (A1 & A2 & A3). split; (split; [auto|split; lord]).
Qed.
Lemma ex_ends : ends (geom_of (ln 1 0 2 2 0)) (P 0 2) (P 2 0) /\ lex_lt (P 0 2) (P 2 0).
Proof. assert (L : lex_lt (P 0 2) (P 2 0)) by (left; vm_compute; reflexivity). split; [split; [left; auto|left; split; reflexivity]|auto]. Qed.

(** The run: at (1,1) all six inputs meet. *)
Definition sketch (ys : list (pt * list (crossing named))) : list ((Q * Q) * list (nat * bool * bool)) :=
  map (fun y => (xy (fst y), map (fun x => (fst (cr_cross x), cr_left x, cr_overlap x)) (snd y))) ys.
Example ex_run : exists ys, ci_collect geom_of (fun _ => O) 100 ex = Ok ys /\
  map fst (sketch ys) = map xy [P 0 0; P 0 2; P 1 0; P 1 1; P 1 2; P 2 0; P 2 2; P 3 3] /\
  (** at (1,1): the point, three ended pieces and their continuations, and the
      start of line 2 *)
  nth_error (map snd (sketch ys)) 3 =
  Some [(3, false, false); (4, false, false); (1, false, true); (1, false, false); (0, false, false);
        (4, true, false); (1, true, false); (1, true, false); (0, true, false); (2, true, false)]%nat.
Proof.
  run (ci_collect geom_of (fun _ => O) 100 ex) sketch ys E V.
  exists ys. split; [exact E|]. rewrite V. split; reflexivity.
Qed.
(** What the theorems then say about this input: positions 0 and 1 cross at
    (1,1), together with the inputs 4 and 5 through it. *)
Example ex_complete : forall tie fuel ys, ci_collect geom_of tie fuel ex = Ok ys ->
  exists ysn, traced ex ys ysn /\ exists o, In (P 1 1, o) ysn /\ meeting 0 o /\ meeting 1 o /\ meeting 2 o.
Proof.
  intros tie fuel ys E. destruct (C21_complete geom_of tie fuel ex ys E) as (ysn & T & _ & H & _). exists ysn. split; [exact T|].
  apply (H 0 (ln 0 0 0 2 2) 1 (ln 1 0 2 2 0) 2 (ln 2 1 1 3 3))%nat; try reflexivity; [exact ex_common|apply on_seg_start].
Qed.
(** [Intersections] on the same input: it reports positions 0 and 1, whose only
    common point (1,1) is the left end of neither, exactly once. *)
Example ex_ints_run : exists r, in_collect geom_of (fun _ => O) 100 ex = Ok r /\ (3 < List.length r)%nat.
Proof.
  run (in_collect geom_of (fun _ => O) 100 ex) (fun r : list (named * named * line_intersection_result) => List.length r) r E V.
  exists r. split; [exact E|]. rewrite V. repeat constructor.
Qed.
Example ex_ints : forall tie fuel r, in_collect geom_of tie fuel ex = Ok r ->
  exists rn, Forall2 (same_report ex) r rn /\ exists t, filter (is_pair 0 1) rn = [t].
Proof.
  intros tie fuel r E. destruct (C51_proper_crossings_once geom_of tie fuel ex r E) as (rn & F & H). exists rn. split; [exact F|].
  assert (NE : forall a z l, ends l a z -> lex_lt a z -> (l_start l) <> P 1 1 -> l_end l <> P 1 1 -> P 1 1 <> a).
  { intros a z l [_ [[-> ->]|[-> ->]]] _ N1 N2 K; congruence. }
  destruct (H 0 1 (ln 0 0 0 2 2) (ln 1 0 2 2 0) (P 1 1))%nat as (t & T & _); try reflexivity; try discriminate; [exact ex_common| | |exists t; exact T];
    intros a z A L; apply (NE a z _ A L); intros K; apply (f_equal (fun p => this (cx p))) in K; vm_compute in K; discriminate.
Qed.
