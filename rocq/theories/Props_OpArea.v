(** Areas of the results of boolean operations. *)
Require Import List String Bool Arith Lia Permutation ZArith QArith.
From Verif Require Import Base Scalar M_Events M_Geo M_LineOrPoint M_Sweep M_Crossings M_Rings M_Op M_Laminar.
From Verif Require Import S_Geo P_Geo P_LineOrPoint P_Run P_Master S_Boundary P_Boundary.
From Verif Require Import M_MonoPoly S_Mono P_Mono S_Rings Props_Rings S_Op Props_Op1 P_OpLab P_OpPoint P_OpPoly Props_Op2 Props_Op3 S_Laminar Props_Laminar P_LamSpec Props_Laminar2.
From Verif Require Import M_MonoSweep M_Chains S_Chains P_MonoTotal Props_Chains Props_Decomp Props_Area S_Cells P_Cells P_CellPieces Props_Cells S_Multi Props_Valid.
Import Datatypes.
Import ListNotations.
Local Open Scope list_scope.
Local Open Scope Qc_scope.
Local Notation sum := S_Mono.sum.

(** [mp] is what a boolean operation returns, whatever the order in which its queues break
    ties, on operands for which at no vertex more than two pieces of the boundary of the
    result meet. *)
Definition returns (ty : op_type) (A B mp : list polygon) : Prop :=
  exists tie presort fuel tie' fuel', sort_ok presort A B /\ (steps_bound (List.length (edges_of A B)) < fuel)%nat /\ enough ty A B fuel' /\
    simple_vertices ty A B /\ boolean_op tie presort fuel tie' fuel' ty A B = Ok mp.

(** Every polygon of the result can be decomposed. *)
Theorem C68_results_can_be_decomposed : forall ty A B mp presort pick, all_closed A -> all_closed B -> returns ty A B mp -> (forall l, Permutation (presort l) l) ->
  forall p, In p mp -> exists ms, monotone_chains presort pick p = Ok ms.
Proof.
  intros ty A B mp presort pick CA CB (tie & ps & fuel & tie' & fuel' & So & Fu & Fu' & Si & R) Ps p I. apply C61_decomposition_succeeds; auto.
  apply (vm_each _ (C68_results_are_valid tie ps fuel tie' fuel' ty A B mp CA CB So Fu Fu' Si R)). auto.
Qed.
Lemma tiles_closed : forall A, tiles A -> all_closed A.
Proof.
  intros A T r I. unfold rings_in in I. apply in_flat_map in I as (p & Ip & I). apply proper_closed. apply (vp_rings _ (ti_each _ T p Ip)). cbn [rings_in flat_map]. rewrite app_nil_r. auto.
Qed.
Lemma multi_tiles : forall mp, valid_multi mp -> tiles mp. Proof. intros mp V. constructor; [apply (vm_each _ V)|apply (vm_once _ V)]. Qed.

(** ** Equal coverings have equal areas *)
Definition cover (mp : list polygon) (q : pt) : Qc := sum (fun p => b2q (inside [p] q)) mp.
Lemma wind_app : forall l l' q, wind (l ++ l') q = wind l q + wind l' q. Proof. intros. unfold wind. apply sum_app. Qed.
Lemma wind_turn : forall l q, wind (map reversed l) q = - wind l q. Proof. intros. apply (turns_rev (crossf q)). apply cross_turns. Qed.
Lemma part_app : forall l l' a b c d, part (l ++ l') a b c d = part l a b c d + part l' a b c d. Proof. intros. unfold part. apply sum_app. Qed.
Lemma part_turn : forall l a b c d, part (map reversed l) a b c d = - part l a b c d. Proof. intros. apply (turns_rev (cellf a b c d)). apply cellf_turns. Qed.
Lemma cover_wind : forall mp q, (forall p, In p mp -> valid_polygon p) -> wind (flat_map region mp) q = cover mp q.
Proof.
  intros mp q. induction mp as [|p mp IH]; intros V; [reflexivity|]. cbn [flat_map]. rewrite wind_app, IH by (intros; apply V; right; auto). unfold cover. rewrite sum_cons. unfold region. rewrite valid_wind by (apply V; left; auto). reflexivity.
Qed.
Lemma cells_part : forall mp a b c d, (forall p, In p mp -> valid_polygon p) -> a <= b -> c <= d -> part (flat_map region mp) a b c d = cells mp a b c d.
Proof.
  intros mp a b c d V L1 L2. induction mp as [|p mp IH]; [reflexivity|]. cbn [flat_map]. rewrite part_app, IH by (intros; apply V; right; auto). unfold cells. rewrite sum_cons, cell_part by (auto; apply V; left; auto). reflexivity.
Qed.
Lemma balance : forall X Y, (forall p, In p X -> valid_polygon p) -> (forall p, In p Y -> valid_polygon p) -> (forall q, cover X q = cover Y q) ->
  forall a b c d, a < b -> c < d -> cells X a b c d = cells Y a b c d.
Proof.
  intros X Y VX VY C a b c d L1 L2. set (es := flat_map region X ++ map reversed (flat_map region Y)).
  assert (W : forall q, wind es q = 0) by (intros q; unfold es; rewrite wind_app, wind_turn, !cover_wind, C by auto; ring).
  destruct (part_ok es (fun q => or_introl (W q)) a b c d L1 L2) as (_ & _ & Z & _). specialize (Z (fun q _ => W q)). unfold es in Z. rewrite part_app, part_turn, !cells_part in Z by (auto using Qclt_le_weak).
  transitivity (cells X a b c d + - cells Y a b c d + cells Y a b c d); [ring|rewrite Z; ring].
Qed.
(** A rectangle around finitely many points. *)
Lemma box_around : forall l : list pt, exists a b c d, a < b /\ c < d /\ forall v, In v l -> a <= cx v /\ cx v <= b /\ c <= cy v /\ cy v <= d.
Proof.
  induction l as [|v l (a & b & c & d & L1 & L2 & H)]; [exists 0, 1, 0, 1; split; [reflexivity|]; split; [reflexivity|]; intros v []|].
  exists (qmin a (cx v)), (qmax b (cx v)), (qmin c (cy v)), (qmax d (cy v)).
  destruct (qmin_case a (cx v)) as [[A1 ->]|[A1 ->]], (qmax_case b (cx v)) as [[A2 ->]|[A2 ->]], (qmin_case c (cy v)) as [[A3 ->]|[A3 ->]], (qmax_case d (cy v)) as [[A4 ->]|[A4 ->]];
  (split; [qcl|]; split; [qcl|]; intros w [<- |I]; [repeat split; qcl|destruct (H w I) as (H1 & H2 & H3 & H4); repeat split; qcl]).
Qed.
Lemma cells_whole : forall mp a b c d, (forall p, In p mp -> valid_polygon p) -> (forall v, In v (List.concat (rings_in mp)) -> a <= cx v /\ cx v <= b /\ c <= cy v /\ cy v <= d) -> cells mp a b c d = multi_area mp.
Proof.
  intros mp a b c d V H. apply sum_ext. intros p I. apply C65_whole_area; auto. intros r v Ir Iv. apply H. apply in_concat. exists r. split; auto. unfold rings_in. apply in_flat_map. exists p. auto.
Qed.
Lemma cover_once : forall mp q, tiles mp -> cover mp q = b2q (inside mp q).
Proof.
  intros mp q [_ O]. specialize (O q). unfold cover.
  assert (X : inside mp q = fold_right xorb false (map (fun p => inside [p] q) mp)).
  { clear. induction mp as [|p mp IH]; [reflexivity|]. cbn [map fold_right]. rewrite <- IH. unfold inside, all_edges, rings_in. cbn [flat_map]. rewrite app_nil_r, flat_map_app, map_app. apply odd_app. }
  rewrite X. clear X. induction mp as [|p mp IH]; [reflexivity|]. rewrite sum_cons. cbn [map fold_right filter] in *. destruct (inside [p] q) eqn:E; [|rewrite IH by auto; cbn [b2q xorb]; destruct (fold_right _ _ _); cbn [b2q xorb]; ring].
  cbn [List.length] in O. assert (N : forall p, In p mp -> inside [p] q = false).
  { intros p' I. destruct (inside [p'] q) eqn:E'; auto. exfalso. assert (J : In p' (filter (fun p => inside [p] q) mp)) by (apply filter_In; auto). destruct (filter _ mp); [destruct J|cbn in O; lia]. }
  rewrite sum_zero by (intros p' I; rewrite N by auto; reflexivity). replace (fold_right xorb false (map (fun p => inside [p] q) mp)) with false; [cbn; ring|].
  clear - N. induction mp as [|p mp IH]; auto. cbn [map fold_right]. rewrite (N p) by (left; auto). rewrite <- IH by (intros; apply N; right; auto). reflexivity.
Qed.
Lemma result_cover : forall ty A B mp q, all_closed A -> all_closed B -> returns ty A B mp -> tiles mp /\ cover mp q = b2q (in_result ty A B q).
Proof.
  intros ty A B mp q CA CB (tie & ps & fuel & tie' & fuel' & So & Fu & Fu' & Si & R).
  assert (T : tiles mp) by (apply multi_tiles; apply (C68_results_are_valid tie ps fuel tie' fuel' ty A B mp CA CB So Fu Fu' Si R)). split; auto.
  rewrite cover_once by auto. f_equal. apply (C58_returned_polygons_are_the_result tie ps fuel tie' fuel' ty A B mp q CA CB So Fu Fu' R).
Qed.
Lemma cover_app : forall X Y q, cover (X ++ Y) q = cover X q + cover Y q. Proof. intros. unfold cover. apply sum_app. Qed.

(** ** C69 *)
(** Two collections of valid polygons that cover every point equally often have the same
    area. *)
Lemma equal_areas : forall X Y, (forall p, In p X -> valid_polygon p) -> (forall p, In p Y -> valid_polygon p) -> (forall q, cover X q = cover Y q) -> multi_area X = multi_area Y.
Proof.
  intros X Y VX VY C. destruct (box_around (List.concat (rings_in X) ++ List.concat (rings_in Y))) as (a & b & c & d & L1 & L2 & H).
  rewrite <- (cells_whole X a b c d), <- (cells_whole Y a b c d) by (auto; intros v I; apply H, in_or_app; auto). apply balance; auto.
Qed.
Lemma smaller_area : forall X Y, (forall p, In p X -> valid_polygon p) -> (forall p, In p Y -> valid_polygon p) -> (forall q, cover X q - cover Y q = 0 \/ cover X q - cover Y q = 1) -> multi_area Y <= multi_area X.
Proof.
  intros X Y VX VY C. destruct (box_around (List.concat (rings_in X) ++ List.concat (rings_in Y))) as (a & b & c & d & L1 & L2 & H).
  rewrite <- (cells_whole X a b c d), <- (cells_whole Y a b c d) by (auto; intros v I; apply H, in_or_app; auto). set (es := flat_map region X ++ map reversed (flat_map region Y)).
  assert (W : forall q, wind es q = 0 \/ wind es q = 1) by (intros q; unfold es; rewrite wind_app, wind_turn, !cover_wind by auto; apply C).
  destruct (part_ok es W a b c d L1 L2) as (Z & _). unfold es in Z. rewrite part_app, part_turn, !cells_part in Z by (auto using Qclt_le_weak). qcl.
Qed.
Lemma each2 : forall M N, tiles M -> tiles N -> forall p, In p (M ++ N) -> valid_polygon p.
Proof. intros M N T1 T2 p J. apply in_app_iff in J as [J|J]; [apply (ti_each _ T1)|apply (ti_each _ T2)]; auto. Qed.
Lemma area_app : forall M N, multi_area (M ++ N) = multi_area M + multi_area N. Proof. intros; apply sum_app. Qed.
Lemma cells_app : forall M N a b c d, cells (M ++ N) a b c d = cells M a b c d + cells N a b c d. Proof. intros; apply sum_app. Qed.
(** The union and the intersection together have the area of the operands together, in the
    whole plane and in every rectangle. *)
Theorem C69_union_and_intersection : forall A B U I, tiles A -> tiles B -> returns Union A B U -> returns Intersection A B I ->
  multi_area U + multi_area I = multi_area A + multi_area B /\
  forall a b c d, a < b -> c < d -> cells U a b c d + cells I a b c d = cells A a b c d + cells B a b c d.
Proof.
  intros A B U I TA TB RU RI. pose proof (tiles_closed A TA) as CA. pose proof (tiles_closed B TB) as CB.
  assert (TU : tiles U) by apply (result_cover Union A B U (mkC 0 0) CA CB RU). assert (TI : tiles I) by apply (result_cover Intersection A B I (mkC 0 0) CA CB RI).
  assert (C : forall q, cover (U ++ I) q = cover (A ++ B) q).
  { intros q. rewrite !cover_app, (proj2 (result_cover Union A B U q CA CB RU)), (proj2 (result_cover Intersection A B I q CA CB RI)), !cover_once by auto. unfold in_result. cbn [result]. destruct (inside A q), (inside B q); cbn; ring. }
  split; [rewrite <- !area_app; apply equal_areas; eauto using each2|]. intros a b c d L1 L2. rewrite <- !cells_app. apply balance; eauto using each2.
Qed.
(** The difference and the intersection together have the area of the first operand. *)
Theorem C69_difference_and_intersection : forall A B D I, tiles A -> tiles B -> returns Difference A B D -> returns Intersection A B I ->
  multi_area D + multi_area I = multi_area A /\
  forall a b c d, a < b -> c < d -> cells D a b c d + cells I a b c d = cells A a b c d.
Proof.
  intros A B D I TA TB RD RI. pose proof (tiles_closed A TA) as CA. pose proof (tiles_closed B TB) as CB.
  assert (TD : tiles D) by apply (result_cover Difference A B D (mkC 0 0) CA CB RD). assert (TI : tiles I) by apply (result_cover Intersection A B I (mkC 0 0) CA CB RI).
  assert (C : forall q, cover (D ++ I) q = cover A q).
  { intros q. rewrite !cover_app, (proj2 (result_cover Difference A B D q CA CB RD)), (proj2 (result_cover Intersection A B I q CA CB RI)), !cover_once by auto. unfold in_result. cbn [result]. destruct (inside A q), (inside B q); cbn; ring. }
  split; [rewrite <- !area_app; apply equal_areas; eauto using each2; apply (ti_each _ TA)|]. intros a b c d L1 L2. rewrite <- !cells_app. apply balance; eauto using each2. apply (ti_each _ TA).
Qed.
(** The symmetric difference and twice the intersection together have the area of the
    operands together. *)
Theorem C69_xor_and_intersection : forall A B X I, tiles A -> tiles B -> returns Xor A B X -> returns Intersection A B I ->
  multi_area X + (1 + 1) * multi_area I = multi_area A + multi_area B /\
  forall a b c d, a < b -> c < d -> cells X a b c d + (1 + 1) * cells I a b c d = cells A a b c d + cells B a b c d.
Proof.
  intros A B X I TA TB RX RI. pose proof (tiles_closed A TA) as CA. pose proof (tiles_closed B TB) as CB.
  assert (TX : tiles X) by apply (result_cover Xor A B X (mkC 0 0) CA CB RX). assert (TI : tiles I) by apply (result_cover Intersection A B I (mkC 0 0) CA CB RI).
  assert (C : forall q, cover (X ++ I ++ I) q = cover (A ++ B) q).
  { intros q. rewrite !cover_app, (proj2 (result_cover Xor A B X q CA CB RX)), (proj2 (result_cover Intersection A B I q CA CB RI)), !cover_once by auto. unfold in_result. cbn [result]. destruct (inside A q), (inside B q); cbn; ring. }
  assert (E : forall p, In p (X ++ I ++ I) -> valid_polygon p) by (intros p J; apply in_app_iff in J as [J|J]; [apply (ti_each _ TX); auto|apply (each2 I I); auto]).
  split.
  - transitivity (multi_area (X ++ I ++ I)); [rewrite !area_app; ring|]. rewrite <- area_app. apply equal_areas; eauto using each2.
  - intros a b c d L1 L2. transitivity (cells (X ++ I ++ I) a b c d); [rewrite !cells_app; ring|]. rewrite <- cells_app. apply balance; eauto using each2.
Qed.
(** Intersecting and subtracting do not make areas larger, uniting does not make them
    smaller. *)
Lemma area_nonneg : forall mp, tiles mp -> 0 <= multi_area mp.
Proof.
  intros mp [V _]. unfold multi_area. induction mp as [|p mp IH]; [apply Qcle_refl|]. rewrite sum_cons.
  assert (0 <= sum polygon_area mp) by (apply IH; intros; apply V; right; auto). assert (VP : valid_polygon p) by (apply V; left; auto).
  destruct (bounds_some p VP) as (r & E & L1 & L2). pose proof (box_area p r VP E) as Q. destruct (C65_area_of_a_cell p VP _ _ _ _ L1 L2) as (N & _). rewrite Q in N. qcl.
Qed.
Theorem C69_areas_compare : forall A B U I D, tiles A -> tiles B -> returns Union A B U -> returns Intersection A B I -> returns Difference A B D ->
  multi_area I <= multi_area A /\ multi_area I <= multi_area B /\ multi_area D <= multi_area A /\ multi_area A <= multi_area U /\ multi_area B <= multi_area U /\
  multi_area U = multi_area D + multi_area B.
Proof.
  intros A B U I D TA TB RU RI RD. pose proof (tiles_closed A TA) as CA. pose proof (tiles_closed B TB) as CB.
  assert (TD : tiles D) by apply (result_cover Difference A B D (mkC 0 0) CA CB RD). assert (TI : tiles I) by apply (result_cover Intersection A B I (mkC 0 0) CA CB RI). assert (TU : tiles U) by apply (result_cover Union A B U (mkC 0 0) CA CB RU).
  destruct (C69_union_and_intersection A B U I TA TB RU RI) as [E1 _]. destruct (C69_difference_and_intersection A B D I TA TB RD RI) as [E2 _].
  assert (Ib : multi_area I <= multi_area B).
  { apply smaller_area; [apply (ti_each _ TB)|apply (ti_each _ TI)|]. intros q. rewrite (proj2 (result_cover Intersection A B I q CA CB RI)), cover_once by auto. unfold in_result. cbn [result]. destruct (inside A q), (inside B q); cbn; [left|left|right|left]; ring. }
  pose proof (area_nonneg D TD). pose proof (area_nonneg I TI). set (u := multi_area U) in *. set (i := multi_area I) in *. set (d := multi_area D) in *. set (a := multi_area A) in *. set (b := multi_area B) in *. clearbody u i d a b.
  assert (u = d + b) by (transitivity (u + i - i); [ring|rewrite E1, <- E2; ring]). repeat split; auto; qcl.
Qed.

(** ** Examples *)
Lemma returns_check : forall ty A B mp n, all_closed A -> all_closed B -> (steps_bound (List.length (edges_of A B)) <? n)%nat = true ->
  match emit (fun _ => O) (fun l => l) n ghost ty A B [] with Ok l => at_vertices (fun p => (List.length (S_Rings.turns p l) <=? 2)%nat) l && (steps_bound (List.length l) <? n)%nat | _ => false end = true ->
  boolean_op (fun _ => O) (fun l => l) n (fun _ => O) n ty A B = Ok mp -> returns ty A B mp.
Proof.
  intros ty A B mp n CA CB Fu T Op. apply Nat.ltb_lt in Fu. assert (So : sort_ok (fun l => l) A B) by (left; auto).
  destruct (C48_sweep_emits_the_boundary (fun _ => O) (fun l => l) n ty A B CA CB So Fu) as (out & Bd & R). specialize (R _ ghost []).
  assert (Gh : forall l s, fold_res (fun s p => ghost s (fst p) (snd p)) s l = Ok (s ++ l)).
  { induction l as [|[g w] l IH]; intros s; cbn [fold_res]; [rewrite app_nil_r; reflexivity|]. unfold ghost at 1. cbn [bind fst snd]. rewrite IH, <- app_assoc. reflexivity. }
  rewrite Gh in R. cbn [app] in R. rewrite R in T. apply andb_true_iff in T as [T N]. apply Nat.ltb_lt in N.
  exists (fun _ => O), (fun l => l), n, (fun _ => O), n. split; auto. split; auto. split; [|split; auto].
  - intros out' Bd'. assert (P : Permutation out out') by (apply (C49_boundary_is_unique (edges_of A B) (edges_of A B) (in_result ty A B)); auto; [apply edges_of_neq|tauto]).
    rewrite <- (Permutation_length P). exact N.
  - exists out. split; auto. intros p. destruct (at_vertices_ok _ _ T p) as [Q|Q]; [rewrite Q; cbn; lia|apply Nat.leb_le in Q; exact Q].
Qed.
Lemma square_valid : forall l, match l with a :: t => match rev t with z :: m => peqb a z && nodup_check (a :: rev m) && (3 <=? List.length (a :: rev m))%nat | [] => false end | [] => false end = true ->
  pairs_check meet_check (all_edges [mkPolygon l []]) = true -> tiles [mkPolygon l []].
Proof.
  intros l C1 C2. constructor; [|intros q; cbn [filter]; destruct (inside _ q); cbn; lia]. intros p [<- |[]]. constructor.
  - intros r I. cbn in I. destruct I as [<- |[]]. destruct l as [|a t]; [discriminate|]. destruct (rev t) as [|z m] eqn:E; [discriminate|]. apply andb_true_iff in C1 as [C1 N]. apply andb_true_iff in C1 as [Z D].
    apply peqb_iff in Z. subst z. apply (f_equal (@rev pt)) in E. rewrite rev_involutive in E. cbn [rev] in E. subst t. exists a, (rev m). split; [reflexivity|]. split; [apply nodup_check_ok; auto|apply Nat.leb_le; auto].
  - apply (pairs_check_ok meet_check); [apply meet_check_ok|auto].
  - cbn. constructor; constructor.
  - intros h v [].
  - intros [|] h B v E; discriminate E.
Qed.
(** Two overlapping squares. *)
Definition low_square : list polygon := [mkPolygon (ringz [(0, 0); (6, 0); (6, 6); (0, 6); (0, 0)]%Z) []].
Definition high_square : list polygon := [mkPolygon (ringz [(3, 3); (9, 3); (9, 9); (3, 9); (3, 3)]%Z) []].
Ltac by_check := eexists; split; [eapply (returns_check _ _ _ _ 5000); [intros r [<- |[]]; vm_compute; reflexivity|intros r [<- |[]]; vm_compute; reflexivity|vm_compute; reflexivity|vm_compute; reflexivity|vm_compute; reflexivity]|vm_compute; reflexivity].
Example C69_example : tiles low_square /\ tiles high_square /\
  (exists U, returns Union low_square high_square U /\ multi_area U = Q2Qc 63) /\
  (exists I, returns Intersection low_square high_square I /\ multi_area I = Q2Qc 9) /\
  (exists D, returns Difference low_square high_square D /\ multi_area D = Q2Qc 27).
Proof.
  split; [apply square_valid; vm_compute; reflexivity|]. split; [apply square_valid; vm_compute; reflexivity|].
  split; [by_check|]. split; [by_check|by_check].
Qed.
(** A square and a smaller one inside it: the symmetric difference has a hole. *)
Example C69_example_xor : tiles frame_a /\ tiles frame_b /\
  (exists X, returns Xor frame_a frame_b X /\ multi_area X = Q2Qc 72) /\
  (exists I, returns Intersection frame_a frame_b I /\ multi_area I = Q2Qc 9).
Proof.
  split; [apply square_valid; vm_compute; reflexivity|]. split; [apply square_valid; vm_compute; reflexivity|]. split; by_check.
Qed.
