(** Polygon assembly places every ring exactly once (C47). *)
Require Import List String Bool Arith Lia Permutation.
From Verif Require Import Base Scalar M_Events M_Geo M_MonoPoly M_Rings M_Laminar S_Geo S_Mono S_Op S_Laminar P_Laminar Props_Op1.
Import ListNotations.
Local Open Scope list_scope.
Local Open Scope nat_scope.

Lemma filter_numbered : forall {X} (p : X -> bool) (l : list X), map snd (filter (fun kx => p (snd kx)) (numbered l)) = filter p l.
Proof.
  intros X p l. unfold numbered. generalize 0. induction l as [|x l IH]; intros k; [reflexivity|]. cbn [List.length seq combine filter snd].
  destruct (p x); cbn [map snd]; rewrite IH; reflexivity.
Qed.
Lemma perm_app_inv : forall {X} (a b c : list X), Permutation (a ++ b) (a ++ c) -> Permutation b c.
Proof. intros X a b c. apply Permutation_app_inv_l. Qed.
Lemma rings_split : forall l, Permutation (rings_in l) (map pg_exterior l ++ flat_map pg_interiors l).
Proof.
  induction l as [|p l IH]; [reflexivity|]. change (rings_in (p :: l)) with (pg_exterior p :: pg_interiors p ++ rings_in l). cbn [map flat_map app].
  constructor. rewrite IH, !app_assoc. apply Permutation_app_tail, Permutation_app_comm.
Qed.
Lemma filter_split : forall {X} (p : X -> bool) l, Permutation l (filter (fun x => negb (p x)) l ++ filter p l).
Proof.
  intros X p l. induction l as [|x l IH]; [reflexivity|]. cbn [filter]. destruct (p x); cbn [negb app].
  - rewrite <- Permutation_middle. constructor. exact IH.
  - constructor. exact IH.
Qed.

(** ** C47 *)
(** Whatever the rings: if every hole has a parent that is not a hole, there is
    one polygon for every other ring, in order; every hole is an interior ring
    of exactly one polygon; and it is one of the polygon made of its parent. *)
Theorem C47_every_ring_is_placed_once : forall rs parents, Forall (fun r => closed (r_coords r)) rs -> parents_ok rs parents ->
  exists ps, build_polygons rs parents = Ok ps /\
    map pg_exterior ps = map r_coords (filter (fun r => negb (r_hole r)) rs) /\
    Permutation (flat_map pg_interiors ps) (map r_coords (filter r_hole rs)) /\
    Permutation (rings_in ps) (map r_coords rs).
Proof.
  intros rs parents Cl Pa. assert (Cl' : forall r, In r rs -> ls_is_closed (r_coords r) = true).
  { intros r I. apply closed_iff. rewrite Forall_forall in Cl. auto. }
  exists (polygons_of rs parents). split; [apply (build_ok rs parents Cl' Pa)|].
  assert (E : map pg_exterior (polygons_of rs parents) = map r_coords (filter (fun r => negb (r_hole r)) rs)).
  { unfold polygons_of. rewrite map_map. cbn [pg_exterior]. rewrite <- (filter_numbered (fun r => negb (r_hole r)) rs), map_map. reflexivity. }
  split; [exact E|]. pose proof (rings_placed rs parents Pa) as P. split; [|exact P].
  apply (perm_app_inv (map pg_exterior (polygons_of rs parents))). rewrite <- rings_split, P, E, <- map_app. apply Permutation_map. apply filter_split.
Qed.
Theorem C47_holes_go_to_their_parents : forall rs parents, Forall (fun r => closed (r_coords r)) rs -> parents_ok rs parents ->
  build_polygons rs parents = Ok (polygons_of rs parents).
Proof.
  intros rs parents Cl Pa. apply build_ok; auto. intros r I. apply closed_iff. rewrite Forall_forall in Cl. auto.
Qed.

(** Two exterior rings, the second with a hole, the hole first. *)
Definition tri (x : Qc) : list pt := [mkC x 0; mkC (x + 1) 0; mkC x 1; mkC x 0]%Qc.
Definition rings3 : list ring := [mkRing (tri 0) true; mkRing (tri (Q2Qc 5)) false; mkRing (tri (Q2Qc 9)) false]%Qc.
Example C47_example : Forall (fun r => closed (r_coords r)) rings3 /\ parents_ok rings3 [2; 0; 0] /\
  build_polygons rings3 [2; 0; 0] = Ok [mkPolygon (tri (Q2Qc 5)) []; mkPolygon (tri (Q2Qc 9)) [tri 0]]%Qc.
Proof.
  split; [|split].
  - repeat constructor; reflexivity.
  - split; [reflexivity|]. intros k r E Hr. destruct k as [|[|[|[|k]]]]; cbn in E; try discriminate; injection E as <-; cbn in Hr; try discriminate. eexists. split; reflexivity.
  - vm_compute. reflexivity.
Qed.
(** The condition on the parents is needed: with a hole as a parent, that hole
    becomes the exterior ring of a polygon. *)
Theorem C47_parents_must_not_be_holes : exists rs parents ps, Forall (fun r => closed (r_coords r)) rs /\ List.length parents = List.length rs /\
  build_polygons rs parents = Ok ps /\ ~ Permutation (rings_in ps) (map r_coords rs).
Proof.
  exists [mkRing (tri 0) false; mkRing (tri (Q2Qc 5)) true; mkRing (tri (Q2Qc 9)) true]%Qc, [0; 0; 1].
  eexists. split; [repeat constructor; reflexivity|]. split; [reflexivity|]. split; [vm_compute; reflexivity|]. intros P. apply Permutation_length in P. discriminate.
Qed.
