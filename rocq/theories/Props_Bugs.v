(** Properties C28, C30, C31: what the documentation promises and the code does
    not do.  Each theorem exhibits an input on which the (faithful, exact) model
    runs to completion and breaks the documented statement, in whichever order
    equal events are popped. *)
Require Import List String Bool Arith ZArith.
From Verif Require Import Base Scalar M_Events M_Geo M_LineOrPoint M_Sweep M_Crossings S_Geo P_Ties.
Import ListNotations.
Local Open Scope Z_scope.

(** Inputs are lines named by a number. *)
Definition P (x y : Z) : pt := mkC (Q2Qc (inject_Z x)) (Q2Qc (inject_Z y)).
Definition named : Type := nat * line.
Definition ln (n : nat) (x1 y1 x2 y2 : Z) : named := (n, mkLine (P x1 y1) (P x2 y2)).
Definition geom_of (c : named) : line := snd c.

(** What a run shows: per yielded point the coordinates and, per crossing, the
    name of the input, the start of the piece, [first_segment] and [at_left]. *)
Definition xy (p : pt) : Q * Q := (this (cx p), this (cy p)).
Definition view (o : list (pt * list (crossing named))) :=
  map (fun pc => (xy (fst pc), map (fun c => (fst (cr_cross c), xy (lop_first (cr_line c)), cr_first c, cr_left c)) (snd pc))) o.

Lemma by_view : forall {X Y} (r : res X) (f : X -> Y) (y : Y),
  (let* x := r in Ok (f x)) = Ok y -> exists x, r = Ok x /\ f x = y.
Proof. intros X Y [x| |] f y H; simpl in H; try discriminate. injection H as <-. eauto. Qed.
Ltac run r f x E V :=
  let v := eval vm_compute in (bind r (fun x => Ok (f x))) in
  match v with Ok ?y =>
    destruct (by_view r f y) as (x & E & V); [vm_cast_no_check (eq_refl (Ok y))|]
  end.

(** C28: the segment 2 starts at (2,0).  At that very point the iterator reports
    its first piece, starting at (2,0), with [first_segment = false]; no later
    report has the flag either. *)
Definition c28_input : list named := [ln 1 3 0 1 2; ln 2 2 0 2 2].
Definition flag_lost (n : nat) (a : Q * Q) o : Prop :=
  (exists cs c, In (a, cs) (view o) /\ In c cs /\ c = (n, a, false, true)) /\
  Forall (fun pc : (Q * Q) * list (nat * (Q * Q) * bool * bool) =>
            Forall (fun c => fst (fst (fst c)) = n -> snd (fst c) = false) (snd pc)) (view o).
Theorem C28_first_segment_flag_lost : forall tie,
  exists o, ci_collect geom_of tie 100 c28_input = Ok o /\
            flag_lost 2 ((2 # 1)%Q, (0 # 1)%Q) o.
Proof.
  intros tie. pose proof (ties_crossings [2; 4; 6; 8]%nat geom_of tie 100 c28_input) as T. revert T. cbn [map].
  generalize (tie 2%nat) (tie 4%nat) (tie 6%nat) (tie 8%nat). intros v2 v4 v6 v8 T.
  destruct v2 as [|v2], v4 as [|v4], v6 as [|v6], v8 as [|v8].
  all: match type of T with forall r, ?a = r -> _ => run a view o E V end.
  all: exists o; split; [exact (T _ E (not_given_up _))|]; clear E T.
  all: unfold flag_lost; rewrite V; split; [|repeat (apply Forall_cons || apply Forall_nil); simpl; intros; try discriminate; reflexivity].
  all: do 2 eexists; split; [right; left; reflexivity|]; split; [simpl; auto|reflexivity].
Qed.

(** The pairs of names that [Intersections] reports, smaller name first. *)
Definition pairs (r : list (named * named * line_intersection_result)) : list (nat * nat) :=
  map (fun t => let '(a, b, _) := t in (Nat.min (fst a) (fst b), Nat.max (fst a) (fst b))) r.
Definition meet (a b : named) : Prop := line_intersection (geom_of a) (geom_of b) <> None.

(** C30: lines 1 and 2 meet at (1,1), the end of 1 and start of 2, and
    [Intersections] does not report the pair. *)
Definition c30_input : list named := [ln 1 0 0 1 1; ln 2 1 1 3 1; ln 3 0 2 4 0].
Theorem C30_intersections_incomplete : forall tie,
  exists r, in_collect geom_of tie 100 c30_input = Ok r /\
    meet (ln 1 0 0 1 1) (ln 2 1 1 3 1) /\ ~ In (1, 2)%nat (pairs r).
Proof.
  intros tie. pose proof (ties_intersections [4; 6; 8; 10]%nat geom_of tie 100 c30_input) as T. revert T. cbn [map].
  generalize (tie 4%nat) (tie 6%nat) (tie 8%nat) (tie 10%nat). intros v4 v6 v8 v10 T.
  assert (M : meet (ln 1 0 0 1 1) (ln 2 1 1 3 1)).
  { unfold meet. intro K.
    assert (M : match line_intersection (geom_of (ln 1 0 0 1 1)) (geom_of (ln 2 1 1 3 1)) with Some _ => true | None => false end = true)
      by (vm_compute; reflexivity).
    rewrite K in M. discriminate. }
  destruct v4 as [|v4], v6 as [|v6], v8 as [|v8], v10 as [|v10].
  all: match type of T with forall r, ?a = r -> _ => run a pairs r E V end.
  all: exists r; split; [exact (T _ E (not_given_up _))|]; split; [exact M|]; rewrite V; simpl; intuition congruence.
Qed.

(** C31: lines 1 and 2 overlap between (2,3) and (3,3); the pair is reported
    twice. *)
Definition c31_input : list named := [ln 1 1 3 3 3; ln 2 2 3 3 3].
Theorem C31_intersections_duplicates : forall tie,
  exists r, in_collect geom_of tie 100 c31_input = Ok r /\ ~ NoDup (pairs r).
Proof.
  intros tie. pose proof (ties_intersections [2; 4; 5]%nat geom_of tie 100 c31_input) as T. revert T. cbn [map].
  generalize (tie 2%nat) (tie 4%nat) (tie 5%nat). intros v2 v4 v5 T.
  destruct v2 as [|v2], v4 as [|[|v4]], v5 as [|v5].
  all: match type of T with forall r, ?a = r -> _ => run a pairs r E V end.
  all: exists r; split; [exact (T _ E (not_given_up _))|]; rewrite V; intro N; inversion N; subst; simpl in *; tauto.
Qed.
Print Assumptions C28_first_segment_flag_lost.
Print Assumptions C30_intersections_incomplete.
Print Assumptions C31_intersections_duplicates.
