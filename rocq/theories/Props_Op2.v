(** Boolean operations: the sweep emits the boundary of the result (C48), and
    what follows for operands in other order and for empty results (C49). *)
Require Import List String Bool Arith Lia Permutation ZArith.
From Verif Require Import Base Scalar M_Events M_Geo M_LineOrPoint M_Sweep M_Crossings M_Rings M_Op.
From Verif Require Import S_Geo P_Geo P_LineOrPoint P_Tilt P_Run P_Master S_Boundary P_Boundary.
From Verif Require Import M_MonoPoly S_Mono S_Rings P_Rings S_Op Props_Op1 P_OpLab P_OpPoint P_OpPlane P_OpPoly P_OpBoundary.
Import Datatypes.
Import ListNotations.
Local Open Scope nat_scope.

(** The edges of both operands that have positive length. *)
Definition edges_of (A B : list polygon) : list (pt * pt) := proper_edges A ++ proper_edges B.
(** What is known about the sort: it leaves crossings that compare equal in the
    order in which they were reported, or no two edges run along each other.
    (Without it: C54.) *)
Definition sort_ok (presort : list (M_Sweep.crossing nat) -> list (M_Sweep.crossing nat)) (A B : list polygon) : Prop :=
  (forall l, presort l = l) \/ ((forall l, Permutation (presort l) l) /\ apart (edges_of A B)).
(** The sweep of the operation on two operands, handing the edges that it
    emits to [add]. *)
Definition emit {X} (tie : nat -> nat) (presort : list (M_Sweep.crossing nat) -> list (M_Sweep.crossing nat)) (fuel : nat) (add : X -> lop -> winding -> res X)
  (ty : op_type) (A B : list polygon) (s : X) : res X :=
  let* o := op_input ty A B in op_run tie presort add fuel o s.

Lemma proper_neq : forall mp a b, In (a, b) (proper_edges mp) -> a <> b.
Proof.
  intros mp a b I. apply in_flat_map in I as (r & _ & I). unfold ring_edges in I. destruct (List.length r <=? 3); [destruct I|].
  apply filter_In in I as [_ N]. cbn [fst snd] in N. intros ->. rewrite (proj2 (pt_eqb_iff b b) eq_refl) in N. discriminate.
Qed.
Lemma edges_of_neq : forall A B a b, In (a, b) (edges_of A B) -> a <> b.
Proof. intros A B a b I. apply in_app_iff in I as [I|I]; eapply proper_neq; eauto. Qed.

Lemma emit_boundary : forall tie presort fuel ty A B, all_closed A -> all_closed B -> sort_ok presort A B ->
  steps_bound (List.length (edges_of A B)) < fuel ->
  exists out, boundary (edges_of A B) (in_result ty A B) out /\
    forall X (add : X -> lop -> winding -> res X) s, emit tie presort fuel add ty A B s = fold_res (fun s p => add s (fst p) (snd p)) s out.
Proof.
  intros tie presort fuel ty A B CA CB So Fu. destruct (C44_edges_of_the_operands ty A B CA CB) as (es & Ei & F).
  assert (Le : List.length es = List.length (edges_of A B)) by exact (len_E ty A B es F).
  assert (Fu' : bound (List.length es) (cands (edge_line es) (List.length es)) < fuel).
  { rewrite <- Le in Fu. eapply Nat.le_lt_trans; [|exact Fu]. unfold bound, steps_bound. pose proof (cands_length (edge_line es) (List.length es)). nia. }
  destruct (emits_boundary tie presort ty A B fuel es CA CB F So Fu') as (out & R & Bd). exists out. split; [exact Bd|].
  intros X add s. unfold emit. rewrite Ei. cbn [bind]. exact (run_sim tie presort add fuel _ out R s).
Qed.

(** ** C48 *)
(** For every pair of operands with closed rings the sweep ends, and what it
    hands on, one after the other, to the ring builder (or whatever is in its
    place) is the boundary of the result. *)
Theorem C48_sweep_emits_the_boundary : forall tie presort fuel ty A B, all_closed A -> all_closed B -> sort_ok presort A B ->
  steps_bound (List.length (edges_of A B)) < fuel ->
  exists out, boundary (edges_of A B) (in_result ty A B) out /\
    forall X (add : X -> lop -> winding -> res X) s, emit tie presort fuel add ty A B s = fold_res (fun s p => add s (fst p) (snd p)) s out.
Proof. exact emit_boundary. Qed.
(** In particular the program is ring assembly on the boundary. *)
Theorem C48_operation_assembles_the_boundary : forall tie presort fuel ty A B, all_closed A -> all_closed B -> sort_ok presort A B ->
  steps_bound (List.length (edges_of A B)) < fuel ->
  exists out, boundary (edges_of A B) (in_result ty A B) out /\ operate tie presort fuel ty A B = rings_of out.
Proof.
  intros tie presort fuel ty A B CA CB So Fu. destruct (emit_boundary tie presort fuel ty A B CA CB So Fu) as (out & Bd & R). exists out. split; [exact Bd|].
  specialize (R _ add_edge rings_default). unfold operate, op_sweep, rings_of, emit in *. destruct (op_input ty A B) as [o| |]; cbn [bind] in *; [rewrite R; reflexivity| |];
  destruct (fold_res _ _ out); cbn [bind]; congruence.
Qed.
(** Pieces of the boundary meet in their ends only. *)
Theorem C48_pieces_meet_at_ends : forall E inr out x y w x' y' w' r, boundary E inr out -> In (Line x y, w) out -> In (Line x' y', w') out ->
  Line x y <> Line x' y' -> on_seg x y r -> on_seg x' y' r -> (r = x \/ r = y) /\ (r = x' \/ r = y').
Proof. intros. eapply (boundary_ends E inr out (Line x y) w (Line x' y') w'); eauto. Qed.
(** The definition of a boundary asks for points on both sides that can be seen
    from the piece: there are such points. *)
Theorem C48_both_sides_are_seen : forall E x y m, (forall a b, In (a, b) E -> a <> b) -> piece E x y -> strictly_inside x y m ->
  exists q q', visible E m q /\ (0 < cross x y q)%Qc /\ visible E m q' /\ (cross x y q' < 0)%Qc.
Proof.
  intros E x y m Pr P S. destruct (sides E Pr x y m P S) as (d & t & t' & _ & _ & V & V' & U & D & _). eauto 8.
Qed.
(** Membership does not change along a way that meets no edge: it does not
    matter which of the points seen from a piece is asked. *)
Theorem C48_inside_is_constant_off_the_edges : forall mp q q', all_closed mp ->
  (forall r a b, on_seg q q' r -> In (a, b) (all_edges mp) -> ~ on_seg a b r) -> inside mp q = inside mp q'.
Proof.
  assert (G : forall mp q q', all_closed mp -> lex_lt q q' -> (forall r a b, on_seg q q' r -> In (a, b) (proper_edges mp) -> ~ on_seg a b r) -> inside mp q = inside mp q').
  { intros mp q q' C L M. rewrite !inside_proper by auto. rewrite <- (xorb_false_r (odd (map (ray_crosses q) _))), <- (proper_balance (goR q q') mp C), <- odd_xor.
    apply odd_ext. intros [a b] I.
    assert (K : forall a b, lex_lt a b -> (forall r, on_seg q q' r -> ~ on_seg a b r) -> xorb (above a b q) (above a b q') = xorb (goR q q' a) (goR q q' b)).
    { clear - L. intros a b La N. destruct (tilt_list [a; b; q; q']) as (e & P & T). rewrite <- (jump_right e a b q q'); auto; [|apply T; auto; apply Qcle_refl|intros r O _ Z; apply (N r O Z)].
      f_equal. unfold seen, above. destruct (isact a b q) eqn:Ac; [|reflexivity]. cbn [andb]. destruct (qeqb (cross a b q) 0) eqn:Z; [|rewrite orb_false_r; reflexivity].
      exfalso. apply (N q); [apply on_seg_start|]. apply isact_iff in Ac as [A1 A2]. apply on_seg_iff; auto. apply qeqb_iff in Z. split; [auto|]. split; [auto|apply lex_lt_le; auto]. }
    pose proof (proper_neq _ _ _ I) as N. cbn [fst snd]. destruct (lex_total a b) as [[La|E]|La]; [|contradiction|].
    - destruct (above_ray a b q La) as [-> _]. destruct (above_ray a b q' La) as [-> _]. rewrite <- K by eauto.
      destruct (above a b q), (above a b q'); reflexivity.
    - destruct (above_ray b a q La) as [_ ->]. destruct (above_ray b a q' La) as [_ ->]. rewrite (xorb_comm (goR q q' a)), <- K; auto; [|intros r O Z; apply (M r a b O I); apply on_seg_sym; auto].
      destruct (above b a q), (above b a q'); reflexivity. }
  intros mp q q' C M. assert (M' : forall r a b, on_seg q q' r -> In (a, b) (proper_edges mp) -> ~ on_seg a b r).
  { intros r a b O I. apply M; auto. unfold proper_edges, all_edges in *. apply in_flat_map in I as (rg & Ir & I). apply in_flat_map. exists rg. split; [auto|].
    unfold ring_edges in I. destruct (List.length rg <=? 3); [destruct I|]. apply filter_In in I. apply I. }
  destruct (lex_total q q') as [[L|E]|L]; [apply G; auto|congruence|]. symmetry. apply G; auto. intros r a b O. apply M'. apply on_seg_sym; auto.
Qed.
Theorem C48_far_points_are_outside : forall mp q, (forall a b, In (a, b) (all_edges mp) -> (cx q < cx a)%Qc /\ (cx q < cx b)%Qc) -> inside mp q = false.
Proof.
  intros mp q L. unfold inside. apply odd_none. intros [a b] I. destruct (L a b I) as [A B]. unfold ray_crosses.
  destruct (qleb_spec (cx a) (cx q)) as [Q|Q]; [exfalso; clear - A Q; qcl|]. destruct (qleb_spec (cx b) (cx q)) as [Q'|Q']; [exfalso; clear - B Q'; qcl|]. reflexivity.
Qed.

(** ** C49 *)
(** A region has one boundary. *)
Theorem C49_boundary_is_unique : forall E E' inr out out', (forall a b, In (a, b) E -> a <> b) -> (forall e, In e E <-> In e E') ->
  boundary E inr out -> boundary E' inr out' -> Permutation out out'.
Proof.
  intros E E' inr out out' Pr EE B B'. assert (Pr' : forall a b, In (a, b) E' -> a <> b) by (intros a b I; apply Pr, EE; auto).
  assert (N : forall E inr out, boundary E inr out -> NoDup out) by (clear; intros E inr out B; eapply NoDup_map_inv; apply (bd_once _ _ _ B)).
  apply NoDup_Permutation; eauto. intros p. split; [apply (boundary_unique E E' inr)|apply (boundary_unique E' E inr)]; auto. intros e. symmetry. apply EE.
Qed.
(** Swapping the operands of union, intersection and xor: the same pieces, with
    the same orientation. *)
Theorem C49_operands_commute : forall tie presort tie' presort' fuel ty A B, ty <> Difference -> all_closed A -> all_closed B ->
  sort_ok presort A B -> sort_ok presort' B A -> steps_bound (List.length (edges_of A B)) < fuel ->
  exists out out', emit tie presort fuel ghost ty A B [] = Ok out /\ emit tie' presort' fuel ghost ty B A [] = Ok out' /\ Permutation out out'.
Proof.
  intros tie presort tie' presort' fuel ty A B Ty CA CB S S' Fu.
  assert (Gh : forall l s, fold_res (fun s p => ghost s (fst p) (snd p)) s l = Ok (s ++ l)).
  { induction l as [|[g w] l IH]; intros s; cbn [fold_res]; [rewrite app_nil_r; reflexivity|]. unfold ghost at 1. cbn [bind fst snd]. rewrite IH, <- app_assoc. reflexivity. }
  destruct (emit_boundary tie presort fuel ty A B CA CB S Fu) as (out & Bd & R).
  assert (Fu' : steps_bound (List.length (edges_of B A)) < fuel) by (unfold edges_of in *; rewrite app_length, Nat.add_comm, <- app_length; auto).
  destruct (emit_boundary tie' presort' fuel ty B A CB CA S' Fu') as (out' & Bd' & R'). exists out, out'.
  split; [rewrite R, Gh; reflexivity|]. split; [rewrite R', Gh; reflexivity|].
  apply (C49_boundary_is_unique (edges_of A B) (edges_of B A) (in_result ty A B)); auto.
  - apply edges_of_neq.
  - intros e. unfold edges_of. rewrite !in_app_iff. tauto.
  - assert (Eq : forall q, in_result ty A B q = in_result ty B A q).
    { intros q. unfold in_result. destruct ty; cbn; [apply andb_comm|apply orb_comm|contradiction|apply xorb_comm]. }
    destruct Bd' as [b1 b2 b3 b4 b5]. constructor; auto; intros; rewrite ?Eq in *; eauto.
Qed.
(** An operation with an empty result: nothing is emitted, and there are no
    rings. *)
Theorem C49_empty_result : forall tie presort fuel ty A B, all_closed A -> all_closed B -> sort_ok presort A B ->
  steps_bound (List.length (edges_of A B)) < fuel -> (forall q, in_result ty A B q = false) -> operate tie presort fuel ty A B = Ok [].
Proof.
  intros tie presort fuel ty A B CA CB So Fu Z. destruct (C48_operation_assembles_the_boundary tie presort fuel ty A B CA CB So Fu) as (out & Bd & ->).
  rewrite (boundary_empty _ _ _ (edges_of_neq A B) Bd Z). reflexivity.
Qed.
(** [A - A] and [A xor A] (with a sort that keeps equal crossings in order). *)
Theorem C49_difference_with_itself : forall tie fuel A, all_closed A -> steps_bound (List.length (edges_of A A)) < fuel ->
  operate tie (fun l => l) fuel Difference A A = Ok [] /\ operate tie (fun l => l) fuel Xor A A = Ok [].
Proof.
  intros tie fuel A C Fu. split; apply C49_empty_result; auto; try (left; auto; fail); intros q; unfold in_result; cbn; destruct (inside A q); reflexivity.
Qed.

(** ** Examples *)
Section Examples.
Local Open Scope Z_scope.
Definition square (a b k : Z) : polygon := mkPolygon (ringz [(a, b); (a + k, b); (a + k, b + k); (a, b + k); (a, b)]) [].
Lemma square_closed : forall a b k, closed (pg_exterior (square a b k)).
Proof. intros. reflexivity. Qed.
(** Two squares that cross twice and have a stretch of an edge in common. *)
Definition sqA : list polygon := [square 0 0 4].
Definition sqB : list polygon := [square 2 0 4; square 9 9 1].
Example C48_example : all_closed sqA /\ all_closed sqB /\ sort_ok (fun l => l) sqA sqB /\
  exists out, emit (fun _ => O) (fun l => l) 300 ghost Intersection sqA sqB [] = Ok out /\
    map (fun p => (map (fun p => (this (cx p), this (cy p))) [lop_first (fst p); lop_second (fst p)], match snd p with Ccw => true | Cw => false end)) out =
    [([(2, 0); (2, 4)], false); ([(2, 0); (4, 0)], true); ([(2, 4); (4, 4)], false); ([(4, 0); (4, 4)], true)]%Q.
Proof.
  split; [intros r [<-|[]]; apply square_closed|]. split; [intros r [<-|[<-|[]]]; apply square_closed|]. split; [left; auto|].
  eexists. split; [vm_compute; reflexivity|]. vm_compute. reflexivity.
Qed.
End Examples.
