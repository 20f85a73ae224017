(** Boolean operations: the boundary of the result is balanced (C55), ring
    assembly on it (C56), and the region that the rings enclose (C57). *)
Require Import List String Bool Arith Lia Permutation ZArith.
From Verif Require Import Base Scalar M_Events M_Geo M_LineOrPoint M_Sweep M_Crossings M_Rings M_Op.
From Verif Require Import S_Geo P_Geo P_LineOrPoint P_Tilt P_Run P_Master S_Boundary P_Boundary.
From Verif Require Import M_MonoPoly S_Mono P_Mono S_Rings P_Rings P_RingFinish Props_Rings S_Op Props_Op1 P_OpLab P_OpPoint P_OpPlane P_OpPoly P_OpBoundary P_OpCount P_OpTotal Props_Op2.
Import Datatypes.
Import ListNotations.
Local Open Scope nat_scope.

Lemma counted : forall tie presort fuel ty A B, all_closed A -> all_closed B -> sort_ok presort A B ->
  steps_bound (List.length (edges_of A B)) < fuel ->
  exists out, boundary (edges_of A B) (in_result ty A B) out /\ operate tie presort fuel ty A B = rings_of out /\
    (forall q, odd (map (fun pr => ray_crosses q (directed pr)) out) = in_result ty A B q) /\
    forall p, count_occ bool_dec (turns p out) true = count_occ bool_dec (turns p out) false.
Proof.
  intros tie presort fuel ty A B CA CB So Fu. destruct (C44_edges_of_the_operands ty A B CA CB) as (es & Ei & F).
  assert (Le : List.length es = List.length (edges_of A B)) by exact (len_E ty A B es F).
  assert (Fu' : bound (List.length es) (cands (edge_line es) (List.length es)) < fuel).
  { rewrite <- Le in Fu. eapply Nat.le_lt_trans; [|exact Fu]. unfold bound, steps_bound. pose proof (cands_length (edge_line es) (List.length es)). nia. }
  destruct (emits_counted tie presort ty A B fuel es CA CB F So Fu') as (out & R & Bd & Cq & Cp). exists out. split; [exact Bd|].
  assert (Ln : forall g w, In (g, w) out -> exists x y, g = Line x y) by (intros g w I; destruct (bd_piece _ _ _ Bd g w I) as (x & y & Q & _); eauto).
  split; [|split].
  - pose proof (run_sim tie presort add_edge fuel _ out R rings_default) as S. unfold operate, op_sweep, rings_of. rewrite Ei. cbn [bind].
    unfold feed in S. rewrite S. reflexivity.
  - intros q. rewrite <- (Zodd_zb (in_result ty A B q)), <- Cq, (total_odd _ _ Ln). apply odd_ext. intros [g w] I. destruct (bd_piece _ _ _ Bd g w I) as (x & y & -> & L & _).
    cbn [fst lop_first lop_second]. destruct (above_ray x y q L) as [R1 R2]. unfold directed. destruct w; cbn [fst snd lop_first lop_second]; auto.
  - intros p. pose proof (turns_total p out Ln) as T. specialize (Cp p). lia.
Qed.
Lemma turns_perm : forall p l l', Permutation l l' -> Permutation (turns p l) (turns p l').
Proof. intros p l l' P. apply Permutation_flat_map. exact P. Qed.
Lemma odd_perm : forall l l', Permutation l l' -> odd l = odd l'.
Proof. intros l l' P. unfold odd. induction P; cbn [fold_right]; auto; [rewrite IHP; auto|rewrite <- !xorb_assoc, (xorb_comm y); auto|congruence]. Qed.
Lemma ident_boundary : forall ty A B out, all_closed A -> all_closed B -> boundary (edges_of A B) (in_result ty A B) out ->
  exists out', Permutation out out' /\ (forall q, odd (map (fun pr => ray_crosses q (directed pr)) out') = in_result ty A B q) /\
    forall p, count_occ bool_dec (turns p out') true = count_occ bool_dec (turns p out') false.
Proof.
  intros ty A B out CA CB Bd. destruct (counted (fun _ => O) (fun l => l) (S (steps_bound (List.length (edges_of A B)))) ty A B CA CB) as (out' & Bd' & _ & C1 & C2); [left; auto|lia|].
  exists out'. split; [|auto]. apply (C49_boundary_is_unique (edges_of A B) (edges_of A B) (in_result ty A B)); auto; [apply edges_of_neq|tauto].
Qed.

(** ** C55 *)
(** At every vertex of the boundary of a result, as many pieces leave as
    arrive, when each is walked with the region on its left hand side. *)
Theorem C55_boundary_is_balanced : forall ty A B out, all_closed A -> all_closed B -> boundary (edges_of A B) (in_result ty A B) out ->
  forall p, count_occ bool_dec (turns p out) true = count_occ bool_dec (turns p out) false.
Proof.
  intros ty A B out CA CB Bd p. destruct (ident_boundary ty A B out CA CB Bd) as (out' & P & _ & C). specialize (C p).
  assert (K : forall b, count_occ bool_dec (turns p out) b = count_occ bool_dec (turns p out') b).
  { intros b. pose proof (turns_perm p out out' P) as T. apply (proj1 (Permutation_count_occ bool_dec _ _) T). }
  rewrite !K. exact C.
Qed.
(** The even-odd rule on the boundary gives the result, at every point. *)
Theorem C55_boundary_encloses_the_result : forall ty A B out q, all_closed A -> all_closed B -> boundary (edges_of A B) (in_result ty A B) out ->
  odd (map (fun pr => ray_crosses q (directed pr)) out) = in_result ty A B q.
Proof.
  intros ty A B out q CA CB Bd. destruct (ident_boundary ty A B out CA CB Bd) as (out' & P & C & _). rewrite <- C. apply odd_perm. apply Permutation_map. exact P.
Qed.

(** ** C56 *)
Lemma boundary_lines : forall E inr out, boundary E inr out -> forall e, In e out -> exists a b, fst e = Line a b /\ lex_lt a b.
Proof. intros E inr out Bd [g w] I. destruct (bd_piece _ _ _ Bd g w I) as (x & y & Q & L & _). exists x, y. auto. Qed.
Lemma boundary_touch : forall E inr out, boundary E inr out -> ForallOrdPairs touch_only (map directed out).
Proof.
  intros E inr out Bd. pose proof (bd_once _ _ _ Bd) as N.
  assert (G : forall l, incl l out -> NoDup (map fst l) -> ForallOrdPairs touch_only (map directed l)).
  { induction l as [|[g w] l IH]; intros I Nl; [constructor|]. cbn [map fst] in Nl. apply NoDup_cons_iff in Nl as [N1 N2]. cbn [map]. constructor; [|apply IH; auto; intros x Ix; apply I; right; auto].
    apply Forall_map, Forall_forall. intros [g' w'] I'. assert (J : In (g, w) out) by (apply I; left; auto). assert (J' : In (g', w') out) by (apply I; right; auto).
    assert (Ne : g <> g') by (intros ->; apply N1; apply (in_map fst) in I'; exact I').
    destruct (bd_piece _ _ _ Bd g w J) as (x & y & -> & Lx & _). destruct (bd_piece _ _ _ Bd g' w' J') as (x' & y' & -> & Lx' & _).
    assert (D : forall x y w r, on_seg (fst (directed (Line x y, w))) (snd (directed (Line x y, w))) r -> on_seg x y r).
    { intros u v [] r O; unfold directed in O; cbn in O; auto using on_seg_sym. }
    intros r r' R1 R2 R3 R4. apply D in R1, R2, R3, R4.
    destruct (C48_pieces_meet_at_ends E inr out x y w x' y' w' r Bd J J' Ne R1 R2) as [A1 A2]. destruct (C48_pieces_meet_at_ends E inr out x y w x' y' w' r' Bd J J' Ne R3 R4) as [B1 B2].
    destruct (pt_dec r r') as [Q|Q]; auto. exfalso. destruct A1 as [-> | ->], B1 as [-> | ->]; try congruence; destruct A2 as [-> | ->], B2 as [-> | ->]; try congruence; lord. }
  apply G; [apply incl_refl|exact N].
Qed.
Lemma even_counts : forall l, count_occ bool_dec l true = count_occ bool_dec l false -> Nat.even (List.length l) = true.
Proof.
  intros l E. assert (K : List.length l = count_occ bool_dec l true + count_occ bool_dec l false).
  { clear E. induction l as [|[] l IH]; [reflexivity| |]; cbn [List.length count_occ]; repeat match goal with |- context [bool_dec ?a ?b] => destruct (bool_dec a b); try congruence end; lia. }
  rewrite K, E. replace (count_occ bool_dec l false + count_occ bool_dec l false) with (2 * count_occ bool_dec l false) by lia. apply Nat.even_spec. exists (count_occ bool_dec l false). lia.
Qed.
(** If the operation gets through, its rings are closed, repeat no vertex, and
    their edges, walked with the region on the left hand side, are exactly the
    pieces of the boundary of the result. *)
Theorem C56_rings_are_the_boundary : forall tie presort fuel ty A B rs, all_closed A -> all_closed B -> sort_ok presort A B ->
  steps_bound (List.length (edges_of A B)) < fuel -> operate tie presort fuel ty A B = Ok rs ->
  exists out, boundary (edges_of A B) (in_result ty A B) out /\ Permutation (map directed out) (flat_map region_left rs) /\
    Forall (fun r => proper_ring (r_coords r)) rs.
Proof.
  intros tie presort fuel ty A B rs CA CB So Fu R. destruct (counted tie presort fuel ty A B CA CB So Fu) as (out & Bd & Op & _ & C). exists out. split; [exact Bd|].
  rewrite Op in R. assert (RI : ring_input out).
  { split; [apply (boundary_lines _ _ _ Bd)|]. split; [apply (boundary_touch _ _ _ Bd)|]. intros p. split; [apply even_counts, C|].
    apply (C52_assembly_needs_alternation out rs (boundary_lines _ _ _ Bd) R). }
  destruct (assembled out RI) as (rs' & Q & P & M). rewrite R in Q. injection Q as <-. auto.
Qed.
(** It does get through if no more than two pieces of the boundary meet at a
    vertex. (With four it may panic: C53.) *)
Theorem C56_simple_vertices_do_not_panic : forall tie presort fuel ty A B out, all_closed A -> all_closed B -> sort_ok presort A B ->
  steps_bound (List.length (edges_of A B)) < fuel -> boundary (edges_of A B) (in_result ty A B) out ->
  (forall p, List.length (turns p out) <= 2) -> exists rs, operate tie presort fuel ty A B = Ok rs.
Proof.
  intros tie presort fuel ty A B out CA CB So Fu Bd Two. destruct (counted tie presort fuel ty A B CA CB So Fu) as (out' & Bd' & Op & _ & C).
  assert (P : Permutation out out') by (apply (C49_boundary_is_unique (edges_of A B) (edges_of A B) (in_result ty A B)); auto; [apply edges_of_neq|tauto]).
  assert (RI : ring_input out').
  { split; [apply (boundary_lines _ _ _ Bd')|]. split; [apply (boundary_touch _ _ _ Bd')|]. intros p. split; [apply even_counts, C|].
    specialize (Two p). rewrite (Permutation_length (turns_perm p _ _ P)) in Two. specialize (C p). destruct (turns p out') as [|a [|b [|c l]]]; cbn in Two; try lia; cbn [alternate]; auto.
    split; [|auto]. intros ->. destruct b; cbn in C; discriminate. }
  destruct (assembled out' RI) as (rs & Q & _). exists rs. congruence.
Qed.

(** ** C57 *)
(** If the operation gets through: a point is in the result of the operation
    exactly if it is inside the rings by the even-odd rule. *)
Theorem C57_rings_enclose_the_result : forall tie presort fuel ty A B rs q, all_closed A -> all_closed B -> sort_ok presort A B ->
  steps_bound (List.length (edges_of A B)) < fuel -> operate tie presort fuel ty A B = Ok rs ->
  odd (map (ray_crosses q) (flat_map (fun r => edges (r_coords r)) rs)) = in_result ty A B q.
Proof.
  intros tie presort fuel ty A B rs q CA CB So Fu R. destruct (C56_rings_are_the_boundary tie presort fuel ty A B rs CA CB So Fu R) as (out & Bd & P & _).
  rewrite <- (C55_boundary_encloses_the_result ty A B out q CA CB Bd). rewrite <- (map_map directed (ray_crosses q)). rewrite (odd_perm _ _ (Permutation_map (ray_crosses q) P)), !odd_flat.
  apply odd_ext. intros r _. unfold region_left.
  assert (Rv : forall l, odd (map (ray_crosses q) (map reversed l)) = odd (map (ray_crosses q) l)).
  { intros l. rewrite map_map. apply odd_ext. intros [a b] _. apply ray_sym. }
  destruct (ls_winding_order (r_coords r)) as [[]|], (r_hole r); rewrite ?Rv; reflexivity.
Qed.

(** ** Examples *)
(** The intersection of [sqA] and [sqB]: the operation gets through, and
    the hypotheses of the theorems hold. *)
Example C57_example : exists rs, operate (fun _ => O) (fun l => l) (S (steps_bound (List.length (edges_of sqA sqB)))) Intersection sqA sqB = Ok rs /\
  map Props_Rings.plain rs = [([(4, 0); (2, 0); (2, 4); (4, 4); (4, 0)], false)]%Q.
Proof.
  eexists. split; [vm_compute; reflexivity|]. vm_compute. reflexivity.
Qed.

Example C56_example : exists out, boundary (edges_of sqA sqB) (in_result Intersection sqA sqB) out /\ out <> [] /\ forall p, List.length (turns p out) <= 2.
Proof.
  destruct C48_example as (CA & CB & So & _).
  destruct (C48_sweep_emits_the_boundary (fun _ => O) (fun l => l) (S (steps_bound (List.length (edges_of sqA sqB)))) Intersection sqA sqB CA CB So (le_n _)) as (out & Bd & R).
  exists out. split; [exact Bd|]. clear Bd. specialize (R _ ghost []).
  assert (Gh : forall l s, fold_res (fun s p => ghost s (fst p) (snd p)) s l = Ok (s ++ l)).
  { induction l as [|[g w] l IH]; intros s; cbn [fold_res]; [rewrite app_nil_r; reflexivity|]. unfold ghost at 1. cbn [bind fst snd]. rewrite IH, <- app_assoc. reflexivity. }
  rewrite Gh in R. cbn [app] in R.
  set (r := emit (fun _ => O) (fun l => l) (S (steps_bound (List.length (edges_of sqA sqB)))) ghost Intersection sqA sqB []) in R.
  assert (T : match r with Ok l => at_vertices (fun p => List.length (turns p l) <=? 2) l && negb (List.length l =? 0) | _ => false end = true) by (vm_compute; reflexivity).
  rewrite R in T. apply andb_true_iff in T as [T N]. split; [intros ->; discriminate|]. intros p. destruct (at_vertices_ok _ _ T p) as [Q|Q]; [rewrite Q; cbn; lia|apply Nat.leb_le in Q; exact Q].
Qed.
