(** Boolean operations as a whole: the polygons that are returned (C58-C60). *)
Require Import List String Bool Arith Lia Permutation.
From Verif Require Import Base Scalar M_Events M_Geo M_LineOrPoint M_Sweep M_Crossings M_Rings M_Op M_Laminar.
From Verif Require Import S_Geo P_Geo P_LineOrPoint P_Run P_Master S_Boundary P_Boundary.
From Verif Require Import M_MonoPoly S_Mono S_Rings P_Rings Props_Rings S_Op Props_Op1 P_OpPoint P_OpPoly Props_Op2 Props_Op3 S_Laminar P_Laminar Props_Laminar P_LamRun P_LamGeo P_LamSpec P_LamCount P_LamSimple.
Import Datatypes.
Import ListNotations.
Local Open Scope nat_scope.

Lemma boolean_op_split : forall tie presort fuel tie' fuel' ty A B,
  boolean_op tie presort fuel tie' fuel' ty A B = (let* rs := operate tie presort fuel ty A B in assemble tie' fuel' rs).
Proof. intros. unfold boolean_op, operate. destruct (op_input ty A B); reflexivity. Qed.

(** No more than two pieces of the boundary of the result meet at a vertex. *)
Definition simple_vertices (ty : op_type) (A B : list polygon) : Prop :=
  exists out, boundary (edges_of A B) (in_result ty A B) out /\ forall p, List.length (turns p out) <= 2.

(** Enough fuel for the second sweep, over the pieces of the boundary. *)
Definition enough (ty : op_type) (A B : list polygon) (fuel' : nat) : Prop :=
  forall out, boundary (edges_of A B) (in_result ty A B) out -> steps_bound (List.length out) < fuel'.

Section Operation.
Variables (tie : nat -> nat) (presort : list (M_Sweep.crossing nat) -> list (M_Sweep.crossing nat)) (fuel : nat) (tie' : nat -> nat) (fuel' : nat).
Variables (ty : op_type) (A B : list polygon).
Hypothesis CA : all_closed A.
Hypothesis CB : all_closed B.
Hypothesis So : sort_ok presort A B.
Hypothesis Fu : steps_bound (List.length (edges_of A B)) < fuel.
Hypothesis Fu' : enough ty A B fuel'.
Variable rs : list ring.
Hypothesis Op : operate tie presort fuel ty A B = Ok rs.

Lemma ring_facts : exists out, boundary (edges_of A B) (in_result ty A B) out /\ Permutation (map directed out) (flat_map region_left rs) /\
  Forall (fun r => proper_ring (r_coords r)) rs /\ (forall q, odd (map (fun pr => ray_crosses q (directed pr)) out) = in_result ty A B q) /\
  (forall p, count_occ bool_dec (turns p out) true = count_occ bool_dec (turns p out) false) /\ bound (n rs) (V rs) < fuel'.
Proof.
  destruct (C56_rings_are_the_boundary tie presort fuel ty A B rs CA CB So Fu Op) as (out & Bd & Pm & Pr). exists out. split; auto. split; auto. split; auto.
  split; [intros q; apply C55_boundary_encloses_the_result; auto|]. split; [apply (C55_boundary_is_balanced ty A B); auto|].
  assert (Ln : n rs = List.length out).
  { pose proof (Permutation_length (geo_perm _ _ _ rs Bd Pm Pr)) as Q. rewrite !map_length, seq_length in Q. symmetry. exact Q. }
  pose proof (Fu' out Bd) as Sm. rewrite <- Ln in Sm.
  assert (Bn : bound (n rs) (V rs) <= steps_bound (n rs)); [|lia]. unfold bound, steps_bound, V. pose proof (cands_length (ln rs) (n rs)) as Cl. nia.
Qed.
Lemma rings_apart : simple_vertices ty A B -> disjoint (ln rs) (n rs) (rc rs).
Proof.
  intros (out' & Bd' & Two) c c' u L L' N D D'. destruct ring_facts as (out & Bd & Pm & Pr & _ & Bal & _).
  assert (P : Permutation out' out) by (apply (C49_boundary_is_unique (edges_of A B) (edges_of A B) (in_result ty A B)); auto; [apply edges_of_neq|tauto]).
  assert (Two' : forall p, List.length (turns p out) <= 2) by (intros p; rewrite <- (Permutation_length (turns_perm p _ _ P)); auto).
  destruct (at_c rs c L) as (r & _ & Q & I). destruct (at_c rs c' L') as (r' & _ & Q' & I').
  assert (In_ : forall k l, k < n rs -> In (tr rs k) (edges l) -> (P_OpLab.ea (ln rs) k = u \/ P_OpLab.ez (ln rs) k = u) -> In u l).
  { intros k l Lk Ik Dk. destruct (Geo rs Pr k Lk) as [Z|Z]; rewrite Z in Ik; apply edges_mem in Ik as [I1 I2]; destruct Dk as [<-|<-]; auto. }
  apply (simple_disjoint _ _ out rs Bd Pm Pr Bal Two' (rc rs c) (rc rs c') r r' u N Q Q'); [apply (In_ c)|apply (In_ c')]; auto.
Qed.
Lemma parents_found : forall sm, (sm = true -> simple_vertices ty A B) ->
  (exists parents, find_parents tie' fuel' rs = Ok parents /\ parents_ok rs parents /\ assemble tie' fuel' rs = Ok (polygons_of rs parents) /\
     forall R, R < List.length rs -> good_ring rs sm (Jr rs) R (nth R parents 0)) \/
  (sm = false /\ exists m, assemble tie' fuel' rs = Panic m).
Proof.
  intros sm Si. destruct ring_facts as (out & Bd & Pm & Pr & Enc & Bal & Fb).
  destruct (parents_run _ _ out rs (edges_of_neq A B) Bd Enc Pm Pr sm (fun Z => rings_apart (Si Z)) tie' fuel' Fb) as [(ps & Fp & Lp & G)|(Z & m & Fp)].
  - left. exists ps. split; auto. assert (Po : parents_ok rs ps).
    { split; auto. intros k r Q Hr. assert (L : k < List.length rs) by (apply nth_error_Some; congruence). destruct (G k L) as [G1 _].
      destruct G1 as [L1 H1]; [unfold hole; rewrite Q; auto|]. destruct (nth_error rs (nth k ps 0)) as [e|] eqn:Qe; [|apply nth_error_None in Qe; lia].
      exists e. split; auto. unfold hole in H1. rewrite Qe in H1. exact H1. }
    split; auto. split; auto. unfold assemble. rewrite Fp. cbn [bind]. apply C47_holes_go_to_their_parents; auto. eapply Forall_impl; [|exact Pr]. intros r. apply proper_closed.
  - right. split; auto. exists m. unfold assemble. rewrite Fp. reflexivity.
Qed.
End Operation.

Lemma all_edges_perm : forall (f : pt * pt -> bool) mp l, Permutation (rings_in mp) l -> odd (map f (all_edges mp)) = odd (map f (flat_map edges l)).
Proof. intros f mp l P. apply odd_perm. apply Permutation_map. apply Permutation_flat_map. exact P. Qed.
Lemma flat_map_map : forall {X Y Z} (f : X -> Y) (g : Y -> list Z) l, flat_map g (map f l) = flat_map (fun x => g (f x)) l.
Proof. intros X Y Z f g l. induction l as [|x l IH]; [reflexivity|]. cbn. rewrite IH. reflexivity. Qed.

(** ** C58 *)
(** The boundary of the result has at most [pieces_bound n] pieces if the
    operands have [n] edges: this much fuel is always enough. *)
Theorem C58_enough_fuel : forall ty A B fuel', all_closed A -> all_closed B ->
  steps_bound (pieces_bound (List.length (edges_of A B))) < fuel' -> enough ty A B fuel'.
Proof. intros ty A B fuel' CA CB Fu out Bd. pose proof (steps_mono _ _ (pieces_count ty A B out CA CB Bd)). lia. Qed.
(** Whenever a boolean operation returns, a point is in the polygons that it
    returns, by the even-odd rule over all rings, exactly if it is in the
    result of the operation on the operands. *)
Theorem C58_returned_polygons_are_the_result : forall tie presort fuel tie' fuel' ty A B mp q, all_closed A -> all_closed B -> sort_ok presort A B ->
  steps_bound (List.length (edges_of A B)) < fuel -> enough ty A B fuel' ->
  boolean_op tie presort fuel tie' fuel' ty A B = Ok mp -> inside mp q = in_result ty A B q.
Proof.
  intros tie presort fuel tie' fuel' ty A B mp q CA CB So Fu Fu' R. rewrite boolean_op_split in R. destruct (operate tie presort fuel ty A B) as [rs|m|] eqn:Op; try discriminate. cbn [bind] in R.
  destruct (parents_found tie presort fuel tie' fuel' ty A B CA CB So Fu Fu' rs Op false) as [(ps & _ & Po & As & _)|(_ & m & As)]; [discriminate| |congruence].
  rewrite R in As. injection As as ->. unfold inside. rewrite (all_edges_perm _ _ _ (rings_placed rs ps Po)), flat_map_map.
  apply (C57_rings_enclose_the_result tie presort fuel); auto.
Qed.
(** The rings of the polygons are closed and repeat no vertex, and their edges
    are exactly the pieces of the boundary of the result. *)
Theorem C58_returned_rings_are_the_boundary : forall tie presort fuel tie' fuel' ty A B mp, all_closed A -> all_closed B -> sort_ok presort A B ->
  steps_bound (List.length (edges_of A B)) < fuel -> enough ty A B fuel' ->
  boolean_op tie presort fuel tie' fuel' ty A B = Ok mp ->
  all_closed mp /\ (forall r, In r (rings_in mp) -> proper_ring r) /\
  exists out, boundary (edges_of A B) (in_result ty A B) out /\
    exists gs, Permutation gs (map fst out) /\ Forall2 normal_form (all_edges mp) gs.
Proof.
  intros tie presort fuel tie' fuel' ty A B mp CA CB So Fu Fu' R. rewrite boolean_op_split in R. destruct (operate tie presort fuel ty A B) as [rs|m|] eqn:Op; try discriminate. cbn [bind] in R.
  destruct (parents_found tie presort fuel tie' fuel' ty A B CA CB So Fu Fu' rs Op false) as [(ps & _ & Po & As & _)|(_ & m & As)]; [discriminate| |congruence].
  rewrite R in As. injection As as ->. pose proof (rings_placed rs ps Po) as P.
  destruct (ring_facts tie presort fuel fuel' ty A B CA CB So Fu Fu' rs Op) as (out & Bd & Pm & Pr & _).
  assert (Prop_ : forall r, In r (rings_in (polygons_of rs ps)) -> proper_ring r).
  { intros r I. apply (Permutation_in _ P) in I. apply in_map_iff in I as (r' & <- & I). rewrite Forall_forall in Pr. auto. }
  split; [intros r I; apply proper_closed; auto|]. split; auto. exists out. split; auto. exists (map und (all_edges (polygons_of rs ps))). split.
  - transitivity (map und (flat_map edges (map r_coords rs))); [apply Permutation_map; unfold all_edges; apply Permutation_flat_map; exact P|].
    rewrite flat_map_map. assert (Q : map fst out = map und (map directed out)).
    { rewrite map_map. apply map_ext_in. intros [g w] I. destruct (bd_piece _ _ _ Bd g w I) as (x & y & -> & L & _). destruct (und_lt x y L) as [U1 U2].
      unfold directed. cbn [fst snd]. destruct w; cbn [lop_first lop_second]; congruence. }
    rewrite Q, (Permutation_map und Pm), <- (redges_und rs 0). generalize 0. clear. induction rs as [|r rs IH]; intros i; [reflexivity|].
    rewrite redges_cons, map_app, map_map. cbn [flat_map snd]. rewrite map_app, (IH (S i)). reflexivity.
  - assert (Ne : forall a b, In (a, b) (all_edges (polygons_of rs ps)) -> a <> b) by (intros a b I; apply in_flat_map in I as (r & I & J); apply (proper_neq r); auto).
    induction (all_edges (polygons_of rs ps)) as [|[a b] l IH]; [constructor|]. cbn [map]. constructor; [|apply IH; intros; apply Ne; right; auto].
    destruct (und_line a b (Ne a b (or_introl eq_refl))) as (x & y & U & L & D). exists x, y. auto.
Qed.

(** ** C59 *)
(** If no more than two pieces of the boundary of the result meet at a vertex,
    the operation returns, and every vertex of an interior ring is inside the
    exterior ring of its polygon. *)
Theorem C59_simple_vertices_return : forall tie presort fuel tie' fuel' ty A B, all_closed A -> all_closed B -> sort_ok presort A B ->
  steps_bound (List.length (edges_of A B)) < fuel -> enough ty A B fuel' -> simple_vertices ty A B ->
  exists mp, boolean_op tie presort fuel tie' fuel' ty A B = Ok mp /\
    forall p h v, In p mp -> In h (pg_interiors p) -> In v h -> ring_in (pg_exterior p) v = true.
Proof.
  intros tie presort fuel tie' fuel' ty A B CA CB So Fu Fu' Si. pose proof Si as (out & Bd & Two).
  destruct (C56_simple_vertices_do_not_panic tie presort fuel ty A B out CA CB So Fu Bd Two) as (rs & Op).
  destruct (parents_found tie presort fuel tie' fuel' ty A B CA CB So Fu Fu' rs Op true (fun _ => Si)) as [(ps & _ & Po & As & G)|(Z & _)]; [|discriminate].
  exists (polygons_of rs ps). split; [rewrite boolean_op_split, Op; exact As|]. intros p h v Ip Ih Iv.
  unfold polygons_of in Ip. apply in_map_iff in Ip as ([R r] & <- & Ip). apply filter_In in Ip as [Ip Hr]. apply numbered_in in Ip. cbn [fst snd pg_interiors pg_exterior] in *.
  unfold holes_of in Ih. apply in_map_iff in Ih as ([k r'] & <- & Ih). apply filter_In in Ih as [Ih Hh]. apply numbered_in in Ih. cbn [fst snd] in *.
  apply andb_true_iff in Hh as [Hh Q]. apply Nat.eqb_eq in Q. assert (Lk : k < List.length rs) by (apply nth_error_Some; congruence).
  assert (Hk : hole rs k = true) by (unfold hole; rewrite Ih; auto). destruct (G k Lk) as [_ G2]. destruct (G2 eq_refl) as (inn & Ne & _ & Ho). specialize (Ho Hk). rewrite Q in Ho.
  destruct (ring_facts tie presort fuel fuel' ty A B CA CB So Fu Fu' rs Op) as (out' & Bd' & Pm & Pr & Enc & _).
  assert (NR : R <> k) by (intros ->; rewrite Ip in Ih; injection Ih as ->; rewrite Hh in Hr; discriminate).
  pose proof (vertex_in _ _ out' rs Bd' Pm Pr (rings_apart tie presort fuel tie' fuel' ty A B CA CB So Fu Fu' rs Op Si) k R v Lk NR) as Z.
  unfold coords in Z. rewrite Ih, Ip in Z. rewrite (Z Iv), Ne, Ho. cbn [nest]. rewrite Nat.eqb_refl. reflexivity.
Qed.

(** ** C60 *)
(** If no more than two pieces of the boundary of the result meet at a vertex:
    a point of the result is in exactly one of the polygons - inside its
    exterior ring and in none of its interior rings -, any other point in
    none. *)
Theorem C60_one_polygon_at_every_point : forall tie presort fuel tie' fuel' ty A B mp q, all_closed A -> all_closed B -> sort_ok presort A B ->
  steps_bound (List.length (edges_of A B)) < fuel -> enough ty A B fuel' -> simple_vertices ty A B ->
  boolean_op tie presort fuel tie' fuel' ty A B = Ok mp ->
  List.length (filter (fun p => polygon_in p q) mp) = if in_result ty A B q then 1 else 0.
Proof.
  intros tie presort fuel tie' fuel' ty A B mp q CA CB So Fu Fu' Si R. rewrite boolean_op_split in R. destruct (operate tie presort fuel ty A B) as [rs|m|] eqn:Op; try discriminate. cbn [bind] in R.
  destruct (parents_found tie presort fuel tie' fuel' ty A B CA CB So Fu Fu' rs Op true (fun _ => Si)) as [(ps & _ & Po & As & G)|(Z & _)]; [|discriminate].
  rewrite R in As. injection As as ->. destruct (ring_facts tie presort fuel fuel' ty A B CA CB So Fu Fu' rs Op) as (out & Bd & Pm & Pr & Enc & _).
  pose proof (rings_apart tie presort fuel tie' fuel' ty A B CA CB So Fu Fu' rs Op Si) as Dj.
  destruct (around_q _ _ out rs (edges_of_neq A B) Bd Enc Pm Pr Dj ps G q) as (inn & In_ & Ii & Iq). rewrite Iq.
  apply (polygons_at rs ps (Jr rs) G); auto.
  - intros R0. unfold Jr. rewrite Nat.eqb_refl. reflexivity.
  - intros R0 R' N L L' J J'. destruct (setup rs Pr q) as (e & V' & s0 & T & HVV & Vs & Ls & _).
    rewrite <- (Jr_around _ _ out rs Bd Pm Pr Dj e V' s0) in J, J' by auto.
    refine (around_anti (ln rs) (n rs) e (V rs) V' T HVV _ _ (HL rs Pr) (Ends _ _ out rs Bd Pm Pr) s0 rs (rc rs) (tr rs) Vs Ls (Rc rs) (Tr rs) (Geo rs Pr) (Cov rs) (Inj _ _ out rs Bd Pm Pr) (Prp rs Pr) (HBr rs Pr) Dj R0 R' N L L' J J').
    + intros c a z. apply cands1.
    + intros c c' a z a' z' r. apply cands2.
Qed.

(** ** Example *)
(** A square minus a square inside it. *)
Definition frame_a : list polygon := [mkPolygon (ringz [(0, 0); (9, 0); (9, 9); (0, 9); (0, 0)]%Z) []].
Definition frame_b : list polygon := [mkPolygon (ringz [(3, 3); (6, 3); (6, 6); (3, 6); (3, 3)]%Z) []].
Example C58_example : all_closed frame_a /\ all_closed frame_b /\ sort_ok (fun l => l) frame_a frame_b /\
  steps_bound (List.length (edges_of frame_a frame_b)) < 3000 /\ enough Difference frame_a frame_b 3000 /\ simple_vertices Difference frame_a frame_b /\
  exists e h, boolean_op (fun _ => O) (fun l => l) 3000 (fun _ => O) 3000 Difference frame_a frame_b = Ok [mkPolygon e [h]] /\
    In (pz 0 0) e /\ In (pz 3 3) h.
Proof.
  assert (CA : all_closed frame_a) by (intros r [<-|[]]; vm_compute; reflexivity). assert (CB : all_closed frame_b) by (intros r [<-|[]]; vm_compute; reflexivity).
  assert (So : sort_ok (fun l => l) frame_a frame_b) by (left; auto). split; auto. split; auto. split; auto.
  assert (Fu : steps_bound (List.length (edges_of frame_a frame_b)) < 3000) by (apply Nat.ltb_lt; vm_compute; reflexivity). split; auto.
  destruct (C48_sweep_emits_the_boundary (fun _ => O) (fun l => l) 3000 Difference frame_a frame_b CA CB So Fu) as (out & Bd & R).
  specialize (R _ ghost []).
  assert (Gh : forall l s, fold_res (fun s p => ghost s (fst p) (snd p)) s l = Ok (s ++ l)).
  { induction l as [|[g w] l IH]; intros s; cbn [fold_res]; [rewrite app_nil_r; reflexivity|]. unfold ghost at 1. cbn [bind fst snd]. rewrite IH, <- app_assoc. reflexivity. }
  rewrite Gh in R. cbn [app] in R.
  set (r := emit (fun _ => O) (fun l => l) 3000 ghost Difference frame_a frame_b []) in R.
  assert (T : match r with Ok l => at_vertices (fun p => List.length (turns p l) <=? 2) l && (List.length l =? 8) | _ => false end = true) by (vm_compute; reflexivity).
  rewrite R in T. apply andb_true_iff in T as [T N]. apply Nat.eqb_eq in N. split; [|split].
  - intros out' Bd'. assert (P : Permutation out out') by (apply (C49_boundary_is_unique (edges_of frame_a frame_b) (edges_of frame_a frame_b) (in_result Difference frame_a frame_b)); auto; [apply edges_of_neq|tauto]).
    rewrite <- (Permutation_length P), N. apply Nat.ltb_lt. vm_compute. reflexivity.
  - exists out. split; auto. intros p. destruct (at_vertices_ok _ _ T p) as [Q|Q]; [rewrite Q; cbn; lia|apply Nat.leb_le in Q; exact Q].
  - eexists _, _. split; [vm_compute; reflexivity|]. split.
    + right. left. vm_compute. reflexivity.
    + right. left. vm_compute. reflexivity.
Qed.
