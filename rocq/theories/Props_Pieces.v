(** Pieces of the decomposition as polygons. *)
Require Import List String Bool Arith Lia Permutation ZArith QArith.
From Verif Require Import Base Scalar M_Events M_Geo M_LineOrPoint M_Sweep M_Crossings M_Rings M_Op M_Laminar.
From Verif Require Import S_Geo P_Geo P_LineOrPoint P_Run P_Master S_Boundary P_Boundary.
From Verif Require Import M_MonoPoly S_Mono P_Mono S_Rings Props_Rings S_Op Props_Op1 P_OpLab P_OpPoint P_OpPoly Props_Op2 Props_Op3 S_Laminar Props_Laminar P_LamSpec Props_Laminar2.
From Verif Require Import M_MonoSweep M_Chains S_Chains P_MonoTotal Props_Chains Props_Decomp Props_Area S_Cells P_Cells P_CellPieces Props_Cells S_Multi Props_Valid Props_OpArea P_Pieces Props_Expr.
Import Datatypes.
Import ListNotations.
Local Open Scope list_scope.
Local Open Scope nat_scope.

(** The polygons that the pieces of [P] are converted to. *)
Definition pieces_of (presort : list event -> list event) (pick : list nat -> nat -> nat -> nat) (P : polygon) (pgs : list polygon) : Prop :=
  exists ms, monotone_chains presort pick P = Ok ms /\ Forall2 (fun m pg => mp_into_polygon m = Ok pg) ms pgs.

(** Number of polygons a point is in. *)
Definition times (mp : list polygon) (q : pt) : nat := List.length (filter (fun p => inside [p] q) mp).
Lemma inside_times : forall mp q, inside mp q = Nat.odd (times mp q).
Proof.
  intros mp q. induction mp as [|p mp IH]; [reflexivity|]. change (inside (p :: mp) q) with (inside ([p] ++ mp) q).
  assert (X : inside ([p] ++ mp) q = xorb (inside [p] q) (inside mp q)).
  { unfold inside, all_edges, rings_in. rewrite !flat_map_app, map_app, odd_app. reflexivity. }
  rewrite X, IH. unfold times. cbn [filter]. destruct (inside [p] q); cbn [List.length xorb]; [rewrite Nat.odd_succ, <- Nat.negb_odd; reflexivity|]. destruct (Nat.odd _); reflexivity.
Qed.
Lemma times_app : forall X Y q, times (X ++ Y) q = times X q + times Y q.
Proof. intros X Y q. unfold times. rewrite filter_app, app_length. reflexivity. Qed.
Lemma same_times : forall X Y, (forall p, In p X -> valid_polygon p) -> tiles Y -> (forall q, times X q = times Y q) ->
  tiles X /\ (forall q, inside X q = inside Y q) /\ multi_area X = multi_area Y /\ forall a b c d, (a < b)%Qc -> (c < d)%Qc -> cells X a b c d = cells Y a b c d.
Proof.
  intros X Y VX TY E. assert (T : tiles X) by (constructor; auto; intros q; change (times X q <= 1); rewrite E; apply (ti_once _ TY)).
  assert (S : forall q, inside X q = inside Y q) by (intros q; rewrite !inside_times, E; reflexivity).
  assert (Co : forall q, cover X q = cover Y q) by (intros q; rewrite !cover_once, S by auto; reflexivity).
  split; auto. split; auto. split; [apply equal_areas; auto; apply ti_each; auto|]. intros a b c d L1 L2. apply balance; auto; apply ti_each; auto.
Qed.

(** ** C80 *)
(** Every piece is a valid polygon, and each point of the polygon is in exactly one. *)
Lemma pieces_ok : forall presort pick P, (forall l, Permutation (presort l) l) -> valid_polygon P ->
  exists pgs, pieces_of presort pick P pgs /\ (forall pg, In pg pgs -> valid_polygon pg) /\ forall q, times pgs q = times [P] q.
Proof.
  intros presort pick P Ps VP. destruct (decompose_all P VP presort pick Ps) as (D & d & E & Ti & _ & Or & N). set (ms := map P_MonoRun.piece D) in *. clearbody ms.
  pose proof (C41_pieces_are_monotone _ _ _ _ E) as MP. set (f := fun m => mkPolygon (mp_top m ++ tl (rev (mp_bot m))) []).
  exists (map f ms). split; [|split].
  - exists ms. split; auto. clear - MP. induction ms as [|m ms IH]; constructor; [apply into_polygon_ok, MP; left; auto|apply IH; intros; apply MP; right; auto].
  - intros pg I. apply in_map_iff in I as (m & <- & I). apply piece_valid; auto.
  - intros q. assert (X : times (map f ms) q = P_MonoCount.nb (fun m => piece_in m q) ms).
    { unfold times, P_MonoCount.nb. assert (K : forall m, In m ms -> inside [f m] q = piece_in m q).
      { intros m I. destruct (C62_pieces_as_polygons _ _ _ _ E m I) as (pg & Q & K). rewrite into_polygon_ok in Q by auto. injection Q as <-. apply K. }
      clear - K. induction ms as [|m ms IH]; [reflexivity|]. cbn [map filter]. rewrite (K m) by (left; auto). destruct (piece_in m q); cbn [List.length]; rewrite IH by (intros; apply K; right; auto); reflexivity. }
    rewrite X, N. unfold times. cbn [filter]. destruct (inside [P] q); reflexivity.
Qed.
Theorem C80_pieces_are_valid_polygons : forall presort pick P, (forall l, Permutation (presort l) l) -> valid_polygon P ->
  exists pgs, pieces_of presort pick P pgs /\ tiles pgs /\ (forall q, inside pgs q = inside [P] q) /\ multi_area pgs = polygon_area P /\
    forall a b c d, (a < b)%Qc -> (c < d)%Qc -> cells pgs a b c d = cell_area P a b c d.
Proof.
  intros presort pick P Ps VP. destruct (pieces_ok presort pick P Ps VP) as (pgs & Pi & V & E). exists pgs. split; auto.
  destruct (same_times pgs [P] V) as (T & I & A & C); auto.
  - constructor; [intros p [<-|[]]; auto|]. intros q. cbn [filter]. destruct (inside [P] q); cbn; lia.
  - split; auto. split; auto. split; [rewrite A; apply Qcplus_0_r|]. intros a b c d L1 L2. rewrite C by auto. apply Qcplus_0_r.
Qed.
Lemma pieces_unique : forall presort pick P pgs pgs', pieces_of presort pick P pgs -> pieces_of presort pick P pgs' -> pgs = pgs'.
Proof.
  intros presort pick P pgs pgs' (ms & E & F) (ms' & E' & F'). rewrite E in E'. injection E' as <-. clear E. revert pgs' F'. induction F as [|m pg ms pgs H F IH]; intros pgs' F'; inversion F' as [|? pg' ? ? H' F'']; subst; auto. f_equal; [congruence|auto].
Qed.
(** Polygons that do not overlap can all be decomposed, and so can the pieces, and the
    pieces of the pieces: each time they cover the same points without overlaps. *)
Theorem C80_decomposed_again : forall presort pick mp, (forall l, Permutation (presort l) l) -> tiles mp ->
  exists pgss, Forall2 (pieces_of presort pick) mp pgss /\ tiles (List.concat pgss) /\ (forall q, inside (List.concat pgss) q = inside mp q) /\
    multi_area (List.concat pgss) = multi_area mp.
Proof.
  intros presort pick mp Ps T.
  assert (Ex : exists pgss, Forall2 (pieces_of presort pick) mp pgss /\ (forall p, In p (List.concat pgss) -> valid_polygon p) /\ forall q, times (List.concat pgss) q = times mp q).
  { pose proof (ti_each _ T) as V. clear T. induction mp as [|p mp IH]; [exists []; split; [constructor|split; [intros x []|reflexivity]]|]. destruct IH as (pgss & F & V1 & E1); [intros; apply V; right; auto|].
    destruct (pieces_ok presort pick p Ps) as (pgs & Pi & V2 & E2); [apply V; left; auto|]. exists (pgs :: pgss). split; [constructor; auto|]. cbn [List.concat]. split.
    - intros x I. apply in_app_iff in I as [I|I]; auto.
    - intros q. rewrite times_app, E1, E2. change (p :: mp) with ([p] ++ mp). rewrite times_app. reflexivity. }
  destruct Ex as (pgss & F & V & E). exists pgss. split; auto. destruct (same_times (List.concat pgss) mp V T E) as (A & B & C & _). auto.
Qed.
(** Taking the pieces away from the polygon leaves nothing, nor does the reverse. *)
Theorem C80_nothing_is_lost : forall presort pick P pgs, (forall l, Permutation (presort l) l) -> valid_polygon P -> pieces_of presort pick P pgs ->
  forall tie ps fuel tie' fuel', sort_ok ps [P] pgs -> steps_bound (List.length (edges_of [P] pgs)) < fuel -> 0 < fuel' ->
  boolean_op tie ps fuel tie' fuel' Difference [P] pgs = Ok [] /\ boolean_op tie ps fuel tie' fuel' Xor [P] pgs = Ok [].
Proof.
  intros presort pick P pgs Ps VP Pi tie ps fuel tie' fuel' So Fu Fu'. destruct (C80_pieces_are_valid_polygons presort pick P Ps VP) as (pgs' & Pi' & T & I & _).
  rewrite (pieces_unique _ _ _ _ _ Pi Pi') in *. apply C78_same_points; auto.
  - apply tiles_closed. constructor; [intros p [<-|[]]; auto|]. intros q. cbn [filter]. destruct (inside [P] q); cbn; lia.
  - apply tiles_closed. auto.
Qed.
(** Uniting the pieces gives the points of the polygon back. *)
Theorem C80_united : forall presort pick P pgs mp, (forall l, Permutation (presort l) l) -> valid_polygon P -> pieces_of presort pick P pgs -> computes Union pgs [] mp ->
  forall q, inside mp q = inside [P] q.
Proof.
  intros presort pick P pgs mp Ps VP Pi (tie & ps & fuel & tie' & fuel' & So & Fu & Fu' & R) q. destruct (C80_pieces_are_valid_polygons presort pick P Ps VP) as (pgs' & Pi' & T & I & _).
  rewrite (pieces_unique _ _ _ _ _ Pi Pi') in *. rewrite (C58_returned_polygons_are_the_result tie ps fuel tie' fuel' Union pgs' [] mp q) by (auto using tiles_closed; intros r []).
  unfold in_result. cbn [result]. rewrite I. change (inside [] q) with false. apply orb_false_r.
Qed.

(** A polygon with a hole: its three pieces, with 16 vertices, are valid polygons. *)
Definition merge_chains : list mono_poly := Eval vm_compute in match monotone_chains (fun l => l) (fun _ _ _ => 0) simple_merge with Ok ms => ms | _ => [] end.
Definition merge_pieces : list polygon := Eval vm_compute in flat_map (fun m => match mp_into_polygon m with Ok pg => [pg] | _ => [] end) merge_chains.
Example C80_example : valid_polygon simple_merge /\ pieces_of (fun l => l) (fun _ _ _ => 0) simple_merge merge_pieces /\
  map (fun pg => List.length (pg_exterior pg)) merge_pieces = [9; 4; 6].
Proof.
  split; [exact simple_merge_valid|]. split; [|vm_compute; reflexivity].
  exists merge_chains. split; [vm_compute; reflexivity|]. unfold merge_chains, merge_pieces. repeat (apply Forall2_cons; [vm_compute; reflexivity|]). apply Forall2_nil.
Qed.
Example C80_example_lost : forall fuel, steps_bound (List.length (edges_of [simple_merge] merge_pieces)) < fuel ->
  boolean_op (fun _ => 0) (fun l => l) fuel (fun _ => 0) 1 Difference [simple_merge] merge_pieces = Ok [].
Proof.
  intros fuel L. destruct C80_example as (V & Pi & _).
  destruct (C80_nothing_is_lost (fun l => l) (fun _ _ _ => 0) simple_merge merge_pieces (fun l => Permutation_refl l) V Pi (fun _ => 0) (fun l => l) fuel (fun _ => 0) 1 (or_introl (fun l => eq_refl)) L Nat.lt_0_1) as [D _]. exact D.
Qed.
