(** Results that do not depend on how scalars are rounded (C86): the only place
    where a run computes new coordinates is the point of a proper crossing. *)
Require Import List String Bool Arith Lia Permutation ZArith.
From Verif Require Import Base Scalar M_Events M_Geo M_LineOrPoint M_Round M_Slab M_Active M_Sweep M_Crossings M_Rings M_Op M_Laminar.
From Verif Require Import S_Geo S_Sweep S_Round S_Boundary M_MonoPoly S_Mono S_Rings S_Op P_Geo P_LineOrPoint P_LineInt P_Tile P_Inv P_Param P_Run P_Master P_Boundary.
From Verif Require Import P_Round P_OpLab P_OpPoint P_OpPlane P_OpPoly P_OpBoundary P_LamSpec Props_Sweep P_Ints Props_Ints Props_Op1 Props_Op2 Props_Op3 Props_Laminar2 Props_Rings.
Import Datatypes.
Import ListNotations.
Local Open Scope nat_scope.

Module Impl3.
Import Impl Impl2.
Lemma calls_le : forall {C} (line_of : C -> line) tie (a1 a2 : arith), below a1 a2 -> forall k fuel it,
  le (calls (ar := a1) line_of tie fuel k it) (calls (ar := a2) line_of tie fuel k it).
Proof.
  intros C line_of tie a1 a2 Hb. induction k as [|k IH]; intros fuel it; [apply le_refl|]. cbn [calls]. apply bind_le; [apply ci_next_le; auto|].
  intros [it' o] _. apply bind_le; [apply IH|]. intros r _. apply le_refl.
Qed.
(** What the guarded run yields. *)
Lemma guarded_run : forall {C} (line_of : C -> line) tie input, no_proper_crossing (map line_of input) ->
  exists it ys, ci_from_iter line_of input = Ok it /\
  (forall fuel k, events_bound (List.length input) < fuel ->
    calls (ar := guarded) line_of tie fuel k it = Ok (firstn k (map (fun y => (Some (fst y), snd y)) ys) ++ repeat (None, []) (k - List.length ys))) /\
  forall fuel, events_bound (List.length input) < fuel -> ci_collect (ar := guarded) line_of tie fuel input = Ok ys.
Proof.
  intros C line_of tie input NP. destruct input as [|d input0].
  { eexists _, []. split; [reflexivity|]. split.
    - intros fuel k L. cbn [map firstn List.length]. rewrite firstn_nil, Nat.sub_0_r. cbn [app]. apply calls_over; reflexivity.
    - intros fuel L. unfold events_bound in L. cbn in L. destruct fuel as [|fuel]; [lia|]. reflexivity. }
  remember (d :: input0) as input eqn:Ei. clear Ei. set (n := List.length input). set (f := fun i => nth i input d). set (ln := fun i => line_of (f i)).
  assert (Im : map f (seq 0 n) = input).
  { apply (nth_ext _ _ (f 0) d); rewrite map_length, seq_length; [reflexivity|]. intros i L. rewrite map_nth, seq_nth by auto. reflexivity. }
  assert (fa : faithful guarded ln n).
  { apply guarded_faithful. replace (map ln (seq 0 n)) with (map line_of input); [exact NP|]. rewrite <- Im, map_map. reflexivity. }
  destruct (master_cands (ar := guarded) ln n tie) as (sw & ysn & sw' & A1 & A2 & A3 & A4 & A5 & A6 & A7 & A8).
  assert (FI : ci_from_iter line_of input = Ok (sw_map f sw)).
  { rewrite <- Im at 1. rewrite (from_iter_map f ln line_of (fun c => eq_refl)), A1. reflexivity. }
  exists (sw_map f sw), (relabel f ysn). split; [exact FI|]. split.
  - intros fuel k L. rewrite (calls_map line_of tie f). rewrite (calls_yields ln tie fuel sw ysn sw' (A3 fuel L) A7 A8).
    cbn [rmap]. f_equal. rewrite map_app. f_equal.
    + rewrite <- firstn_map. f_equal. unfold relabel. rewrite !map_map. reflexivity.
    + unfold relabel. rewrite map_length. induction (k - List.length ysn) as [|j IH]; [reflexivity|]. cbn [repeat map]. f_equal. exact IH.
  - intros fuel L. unfold ci_collect. rewrite FI. cbn [bind]. rewrite (drain_map line_of tie f). fold ln. change (fun i : nat => line_of (f i)) with ln.
    rewrite (drain_yields ln tie fuel sw ysn sw' (A3 fuel L) fuel) by (unfold steps_bound, events_bound in *; fold n in L; lia). reflexivity.
Qed.
Lemma proper_pair_spec : forall l m, proper_pair l m = true -> exists x, cross_properly l m x.
Proof.
  intros l m E. destruct (proper_orient _ _ E) as (x & L & N1 & N2 & N3 & N4). exists x.
  pose proof (line_intersection_all l m) as X. rewrite L in X. simpl in X. pose proof (proj2 (X x) eq_refl) as [X1 X2].
  unfold on_line in X1, X2. pose proof (on_seg_cross _ _ _ X1) as C1. pose proof (on_seg_cross _ _ _ X2) as C2.
  split; [exact X|]. split; intros [Q|Q]; subst x; auto.
Qed.
Lemma no_pair : forall ls, no_proper_crossing ls -> forall l m, In l ls -> In m ls -> proper_pair l m = false.
Proof. intros ls NP l m I J. destruct (proper_pair l m) eqn:E; auto. destruct (proper_pair_spec _ _ E) as (x & X). destruct (NP l m x I J X). Qed.
End Impl3.
Import Impl Impl2 Impl3.

(** ** C86 *)
(** [rounded proper next_up]: proper crossings are computed by [proper], with any
    error, and [next_after] is [next_up].  If no two lines of the collection
    cross properly, [CrossingsIter] yields the same as in exact arithmetic,
    call by call. *)
Theorem C86_crossings_do_not_depend_on_rounding : forall proper next_up {C} (line_of : C -> line) tie (input : list C) it,
  no_proper_crossing (map line_of input) -> ci_from_iter line_of input = Ok it ->
  forall fuel k, events_bound (List.length input) < fuel ->
    calls (ar := rounded proper next_up) line_of tie fuel k it = calls (ar := exact) line_of tie fuel k it /\
    ci_collect (ar := rounded proper next_up) line_of tie fuel input = ci_collect (ar := exact) line_of tie fuel input.
Proof.
  intros proper next_up C line_of tie input it NP Ei fuel k L. destruct (guarded_run line_of tie input NP) as (it' & ys & Ei' & Hc & Hd).
  rewrite Ei in Ei'. injection Ei' as <-. split.
  - rewrite (le_ok (calls_le line_of tie _ _ (guarded_rounded proper next_up) k fuel it) (Hc fuel k L)).
    rewrite (le_ok (calls_le line_of tie _ _ guarded_exact k fuel it) (Hc fuel k L)). reflexivity.
  - rewrite (le_ok (ci_collect_le line_of tie tie _ _ (guarded_rounded proper next_up) (fun _ => eq_refl) fuel input) (Hd fuel L)).
    rewrite (le_ok (ci_collect_le line_of tie tie _ _ guarded_exact (fun _ => eq_refl) fuel input) (Hd fuel L)). reflexivity.
Qed.
(** [Intersections] reports the same pairs with the same intersections. *)
Theorem C86_intersections_do_not_depend_on_rounding : forall proper next_up {C} (line_of : C -> line) tie (input : list C),
  no_proper_crossing (map line_of input) -> exists N, forall fuel, N < fuel ->
    in_collect (ar := rounded proper next_up) line_of tie fuel input = in_collect (ar := exact) line_of tie fuel input.
Proof.
  intros proper next_up C line_of tie input NP. destruct (run_ints line_of tie input) as (ys & ln & ysn & N & it & R & Hx).
  exists (N + (P_Ints.size ys + List.length ys + events_bound (List.length input))). intros fuel L. rewrite Hx by lia.
  pose proof (rf_collect _ _ _ _ _ _ _ R (S (events_bound (List.length input))) ltac:(lia)) as E.
  apply (P_Ints.collect_ok line_of tie (events_bound (List.length input)) input it ys (rf_new _ _ _ _ _ _ _ R)); [| | |lia].
  - eapply from_iter_out. apply R.
  - apply yl_of_calls. intros fuel' k L'. rewrite (proj1 (C86_crossings_do_not_depend_on_rounding proper next_up line_of tie input it NP (rf_new _ _ _ _ _ _ _ R) fuel' k L')).
    apply (rf_calls _ _ _ _ _ _ _ R). exact L'.
  - apply Forall_forall. intros [p o] I. split; [|split]; cbn [fst snd].
    + intros x J. apply (C19_crossings_sound line_of tie _ input ys E p o x I J).
    + intros j x Ek Eo. apply (C27_overlap_next line_of tie _ input ys E p o j x I Ek Eo).
    + intros x x' J J'. apply (li_with proper). apply (no_pair _ NP); apply in_map; [apply (C19_crossings_sound line_of tie _ input ys E p o x I J)|apply (C19_crossings_sound line_of tie _ input ys E p o x' I J')].
Qed.

Module Impl4.
Lemma cross_ext : forall l m l' m' r, (forall x, on_line l x <-> on_line l' x) -> (forall x, on_line m x <-> on_line m' x) ->
  (forall x, is_end_of l x <-> is_end_of l' x) -> (forall x, is_end_of m x <-> is_end_of m' x) -> cross_properly l m r -> cross_properly l' m' r.
Proof.
  intros l m l' m' r A B D E (O & N1 & N2). split; [|split; [rewrite <- D; auto|rewrite <- E; auto]].
  intros x. rewrite <- A, <- B. apply O.
Qed.
Lemma geo_line : forall l a z, lop_of_line l = Line a z -> (forall x, on_line l x <-> on_seg a z x) /\ (forall x, is_end_of l x <-> x = a \/ x = z).
Proof.
  intros l a z E. unfold on_line, is_end_of. unfold lop_of_line in E. cbv zeta in E. destruct (pcmp _ _); inversion E; subst; split; intros x; try tauto.
  - split; intros Q; apply on_seg_sym; exact Q.
Qed.
Lemma np_lines : forall (ls : list line) ln n, no_proper_crossing ls ->
  (forall c, c < n -> exists a z, lop_of_line (ln c) = Line a z /\ (In (mkLine a z) ls \/ In (mkLine z a) ls)) -> no_proper_crossing (map ln (seq 0 n)).
Proof.
  intros ls ln n NP H l l' r I I' X. apply in_map_iff in I as (c & <- & Ic). apply in_map_iff in I' as (c' & <- & Ic'). apply in_seq in Ic. apply in_seq in Ic'.
  assert (K : forall k, k < n -> exists l, In l ls /\ (forall x, on_line (ln k) x <-> on_line l x) /\ (forall x, is_end_of (ln k) x <-> is_end_of l x)).
  { intros k L. destruct (H k L) as (a & z & G & D). destruct (geo_line _ _ _ G) as [A B]. destruct D as [D|D]; eexists; (split; [exact D|]); split; intros x; rewrite ?A, ?B; unfold on_line, is_end_of; cbn.
    - tauto.
    - tauto.
    - split; intros Q; apply on_seg_sym; exact Q.
    - tauto. }
  destruct (K c) as (m & Im & A & B); [lia|]. destruct (K c') as (m' & Im' & A' & B'); [lia|]. apply (NP m m' r Im Im'). revert X. apply cross_ext; auto.
Qed.
Section Op.
Variables (tie : nat -> nat) (presort : list (M_Sweep.crossing nat) -> list (M_Sweep.crossing nat)) (fuel : nat) (ty : op_type) (A B : list polygon).
Hypothesis CA : all_closed A.
Hypothesis CB : all_closed B.
Hypothesis So : sort_ok presort A B.
Hypothesis Fu : steps_bound (List.length (edges_of A B)) < fuel.
Hypothesis NP : no_proper_crossing (map (fun e => mkLine (fst e) (snd e)) (edges_of A B)).
Lemma guarded_op : exists o out, op_input ty A B = Ok o /\ op_run (ar := guarded) tie presort ghost fuel o [] = Ok out.
Proof.
  destruct (C44_edges_of_the_operands ty A B CA CB) as (es & Ei & F).
  assert (Le : List.length es = List.length (edges_of A B)) by exact (len_E ty A B es F).
  assert (Fu' : bound (List.length es) (cands (edge_line es) (List.length es)) < fuel).
  { rewrite <- Le in Fu. eapply Nat.le_lt_trans; [|exact Fu]. unfold bound, steps_bound. pose proof (cands_length (edge_line es) (List.length es)). nia. }
  assert (fa : faithful guarded (edge_line es) (List.length es)).
  { apply guarded_faithful. apply (np_lines _ _ _ NP). intros c L. destruct (geoline ty A B es F c L) as (a & z & G & _ & D). exists a, z. split; [exact G|].
    destruct D as [D|D]; [left|right]; exact (in_map (fun e => mkLine (fst e) (snd e)) _ _ D). }
  destruct (emits_boundary tie presort ty A B fuel es CA CB F So Fu' (ar := guarded)) as (out & R & _). eexists _, out. split; [exact Ei|exact R].
Qed.
Lemma sweep_same : forall ar : arith, below guarded ar -> forall o, op_input ty A B = Ok o ->
  op_sweep (ar := ar) tie presort fuel o = op_sweep (ar := exact) tie presort fuel o.
Proof.
  intros ar Hb o Eo. destruct guarded_op as (o' & out & Eo' & R). rewrite Eo in Eo'. injection Eo' as <-. unfold op_sweep.
  pose proof (le_ok (op_run_le tie tie presort _ _ Hb (fun _ => eq_refl) ghost fuel o []) R) as R1. pose proof (le_ok (op_run_le tie tie presort _ _ guarded_exact (fun _ => eq_refl) ghost fuel o []) R) as R2.
  rewrite (run_sim (ar := ar) tie presort add_edge fuel o out R1), (run_sim (ar := exact) tie presort add_edge fuel o out R2). reflexivity.
Qed.
End Op.
Lemma rings_np : forall E inr out rs, (forall a b, In (a, b) E -> a <> b) -> boundary E inr out -> Permutation (map directed out) (flat_map region_left rs) ->
  Forall (fun r => proper_ring (r_coords r)) rs -> no_proper_crossing (map (ln rs) (seq 0 (n rs))).
Proof.
  intros E inr out rs EP Bd Pm Pr l l' r I I' (O & N1 & N2). apply in_map_iff in I as (c & <- & Ic). apply in_map_iff in I' as (c' & <- & Ic'). apply in_seq in Ic. apply in_seq in Ic'.
  destruct (geo_ends rs Pr c ltac:(lia)) as (G & Lt & _). destruct (geo_ends rs Pr c' ltac:(lia)) as (G' & _ & _).
  destruct (geo_line _ _ _ G) as [A B]. destruct (geo_line _ _ _ G') as [A' B']. destruct (proj2 (O r) eq_refl) as [R R'].
  destruct (Nat.eq_dec c c') as [->|N].
  - assert (Q : forall x, on_line (ln rs c') x -> x = r) by (intros x X; apply O; auto).
    rewrite (Q (P_OpLab.ea (ln rs) c')) in Lt by (apply A; apply on_seg_start). rewrite (Q (P_OpLab.ez (ln rs) c')) in Lt by (apply A; apply on_seg_end). exact (lex_irrefl _ Lt).
  - apply N1. apply B. apply (meet E inr out rs Bd Pm Pr c c' r); try lia; auto; [apply A; auto|apply A'; auto].
Qed.
End Impl4.
Import Impl4.
(** A boolean operation returns the same polygons (or panics in the same way). *)
Theorem C86_boolean_operations_do_not_depend_on_rounding : forall proper next_up tie presort fuel tie' fuel' ty A B,
  all_closed A -> all_closed B -> sort_ok presort A B ->
  no_proper_crossing (map (fun e => mkLine (fst e) (snd e)) (edges_of A B)) ->
  steps_bound (List.length (edges_of A B)) < fuel -> enough ty A B fuel' ->
  boolean_op (ar := rounded proper next_up) tie presort fuel tie' fuel' ty A B = boolean_op (ar := exact) tie presort fuel tie' fuel' ty A B.
Proof.
  intros proper next_up tie presort fuel tie' fuel' ty A B CA CB So NP Fu Fu'. unfold boolean_op.
  destruct (op_input ty A B) as [o| |] eqn:Eo; [|reflexivity|reflexivity]. cbn [bind].
  rewrite (sweep_same tie presort fuel ty A B CA CB So Fu NP _ (guarded_rounded proper next_up) o Eo).
  destruct (op_sweep tie presort fuel o) as [rs| |] eqn:Es; [|reflexivity|reflexivity]. cbn [bind].
  assert (Op : operate tie presort fuel ty A B = Ok rs) by (unfold operate; rewrite Eo; exact Es).
  destruct (ring_facts tie presort fuel fuel' ty A B CA CB So Fu Fu' rs Op) as (out & Bd & Pm & Pr & Enc & Bal & Fb).
  pose proof (guarded_faithful (ln rs) (n rs) (rings_np _ _ out rs (edges_of_neq A B) Bd Pm Pr)) as fa. unfold assemble.
  rewrite (parents_same _ _ out rs (edges_of_neq A B) Bd Enc Pm Pr (ar := guarded) (rounded proper next_up) tie' fuel' Fb) by (intros sw r; apply le_ok; apply ci_next_le; [apply guarded_rounded|reflexivity]).
  rewrite (parents_same _ _ out rs (edges_of_neq A B) Bd Enc Pm Pr (ar := guarded) exact tie' fuel' Fb) by (intros sw r; apply le_ok; apply ci_next_le; [apply guarded_exact|reflexivity]).
  reflexivity.
Qed.

(** No two lines cross properly: a decision procedure for the examples. *)
Lemma improper_end : forall l m, (forall x, line_intersection l m = Some (SinglePoint x false) -> is_end_of l x \/ is_end_of m x) /\
  (forall s, line_intersection l m = Some (CollinearSeg s) -> is_end_of l (l_start s) \/ is_end_of m (l_start s)).
Proof.
  intros l m. unfold line_intersection, line_intersection_with, is_end_of. cbv zeta.
  destruct (negb _); [split; discriminate|]. destruct (same_side _ _); [split; discriminate|]. destruct (same_side _ _); [split; discriminate|].
  destruct (_ && _ && _ && _).
  - unfold collinear_intersection. cbv zeta.
    repeat match goal with |- context [if ?b then _ else _] => destruct b end; split; intros ? [= <-]; cbn; auto.
  - destruct (_ || _ || _ || _); [|split; discriminate]. split; [|discriminate]. intros x [= <-].
    repeat match goal with |- context [if ?b then _ else _] => destruct b end; auto.
Qed.
Lemma np_compute : forall ls, forallb (fun l => forallb (fun m => negb (proper_pair l m)) ls) ls = true -> no_proper_crossing ls.
Proof.
  intros ls H l m r I J (O & N1 & N2). rewrite forallb_forall in H. specialize (H l I). cbv beta in H. rewrite forallb_forall in H. specialize (H m J).
  pose proof (line_intersection_all l m) as X. destruct (improper_end l m) as [P1 P2]. unfold proper_pair in H. destruct (line_intersection l m) as [[x [|]|s]|]; cbn in H; try discriminate.
  - assert (E : x = r) by (apply O; apply X; reflexivity). subst x. destruct (P1 r eq_refl); auto.
  - assert (E : l_start s = r) by (apply O; apply X; apply on_seg_start). rewrite <- E in *. destruct (P2 s eq_refl); auto.
  - apply (X r). apply O. reflexivity.
Qed.

(** ** Examples *)
Definition lz (a b c d : Z) : line := mkLine (pz a b) (pz c d).
(** A line, one that ends in the middle of it, one that runs along it, one that
    shares an end with it, and a point on it; proper crossings would be put at
    the origin. *)
Definition touching : list line := [lz 0 0 4 0; lz 2 0 2 3; lz 1 0 3 0; lz 4 0 5 2; lz 1 0 1 0].
Definition broken : arith := rounded (fun _ _ => pz 0 0) (fun x => x).
Example C86_example_crossings : no_proper_crossing touching /\
  exists ys, ci_collect (ar := broken) (fun l : line => l) (fun _ => O) 900 touching = Ok ys /\ List.length ys = 7.
Proof.
  assert (N : no_proper_crossing touching) by (apply np_compute; vm_compute; reflexivity). split; [exact N|].
  destruct (ci_from_iter (fun l : line => l) touching) as [it| |] eqn:E; [|discriminate|discriminate].
  assert (L : events_bound (List.length touching) < 900) by (apply Nat.ltb_lt; vm_compute; reflexivity).
  assert (N' : no_proper_crossing (map (fun l : line => l) touching)) by (rewrite map_id; exact N).
  pose proof (proj2 (C86_crossings_do_not_depend_on_rounding (fun _ _ => pz 0 0) (fun x => x) (fun l : line => l) (fun _ => O) touching it N' E 900 0 L)) as Q.
  unfold broken. rewrite Q. eexists. split; [vm_compute; reflexivity|reflexivity].
Qed.
(** With a proper crossing that is put in the wrong place the outcome does
    change. *)
Definition scissors : list line := [lz 0 0 4 4; lz 0 4 4 0].
Example C86_example_needed : (exists r, cross_properly (lz 0 0 4 4) (lz 0 4 4 0) r) /\
  ci_collect (ar := broken) (fun l : line => l) (fun _ => O) 900 scissors <> ci_collect (ar := exact) (fun l : line => l) (fun _ => O) 900 scissors.
Proof. split; [apply proper_pair_spec; vm_compute; reflexivity|vm_compute; discriminate]. Qed.
(** A square with a hole cut out of it. *)
Example C86_example_operations : no_proper_crossing (map (fun e => mkLine (fst e) (snd e)) (edges_of frame_a frame_b)) /\
  exists e h, boolean_op (ar := broken) (fun _ => O) (fun l => l) 3000 (fun _ => O) 3000 Difference frame_a frame_b = Ok [mkPolygon e [h]].
Proof.
  assert (N : no_proper_crossing (map (fun e => mkLine (fst e) (snd e)) (edges_of frame_a frame_b))) by (apply np_compute; vm_compute; reflexivity). split; [exact N|].
  destruct C58_example as (CA & CB & So & Fu & En & _ & e & h & E & _). exists e, h. rewrite <- E.
  unfold broken. apply C86_boolean_operations_do_not_depend_on_rounding; auto.
Qed.
Print Assumptions C86_crossings_do_not_depend_on_rounding.
Print Assumptions C86_intersections_do_not_depend_on_rounding.
Print Assumptions C86_boolean_operations_do_not_depend_on_rounding.
