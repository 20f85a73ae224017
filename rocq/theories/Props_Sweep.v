(** Properties of [CrossingsIter] on exact scalars (C19-C27, C32).

    They hold for every type of inputs, every finite input, including
    degenerate lines, duplicates, verticals, overlaps and any number of lines
    through one point, and for every way [tie] in which the heap may choose
    among equal events. *)
Require Import List String Bool Arith Lia Permutation Sorted.
From Verif Require Import Base Scalar M_Events M_Geo M_LineOrPoint M_Splay M_Slab M_Active M_Sweep M_Crossings.
From Verif Require Import S_Geo S_Sweep.
From Verif Require P_Geo P_Inv P_Run P_Param P_Master P_Spec.
Import Datatypes.
Import ListNotations.
Local Open Scope nat_scope.

(** A bound for the number of events handled for [n] inputs, of which there are
    at most [2n] ends and at most [n^2] isolated intersections. *)
Definition events_bound (n : nat) : nat := 2 * n + 4 * (n * (2 * n + n * n)).

Module Impl.
Import P_Geo P_Inv P_Run P_Param P_Master P_Spec.

Lemma drain_mono : forall (ln : nat -> line) tie k fuel sw ys, ci_drain ln tie k fuel sw = Ok ys ->
  forall k' fuel', k <= k' -> fuel <= fuel' -> ci_drain ln tie k' fuel' sw = Ok ys.
Proof.
  intros ln tie k fuel. induction k as [|k IH]; intros sw ys E k' fuel' L L'; [discriminate|]. destruct k' as [|k']; [lia|].
  cbn [ci_drain] in *. destruct (ci_next ln tie fuel sw) as [[sw1 o]| |] eqn:En; try discriminate. cbn [bind] in E.
  rewrite (next_mono ln tie _ _ _ En fuel' L'). cbn [bind]. destruct o as [p|]; [|exact E].
  destruct (ci_drain ln tie k fuel sw1) as [r| |] eqn:Ed; try discriminate. rewrite (IH _ _ Ed k' fuel') by lia. exact E.
Qed.
Lemma traced_relabel : forall {C} (input : list C) d ysn,
  (forall p o x, In (p, o) ysn -> In x o -> cr_cross x < List.length input) ->
  traced input (relabel (fun i => nth i input d) ysn) ysn.
Proof.
  intros C input d ysn. induction ysn as [|[p o] ysn IH]; intros B; [constructor|].
  constructor; [|apply IH; intros q u x I J; apply (B q u x); auto; right; auto]. split; [reflexivity|]. cbn [fst snd].
  assert (Bo : forall x, In x o -> cr_cross x < List.length input) by (intros x I; apply (B p o x); auto; left; auto).
  clear -Bo. induction o as [|x o IH]; [constructor|]. constructor; [|apply IH; intros y I; apply Bo; right; auto].
  unfold same_crossing, cr_map. cbn. split; [|auto]. apply nth_error_nth'. apply Bo. left; auto.
Qed.

Record run_facts {C} (line_of : C -> line) (tie : nat -> nat) (input : list C) (it : crossings_iter) (ys : output C) (ln : nat -> line) (ysn : output nat) : Prop := {
  rf_ln : forall i c, nth_error input i = Some c -> ln i = line_of c;
  rf_ls : map ln (seq 0 (List.length input)) = map line_of input;
  rf_new : ci_from_iter line_of input = Ok it;
  rf_calls : forall fuel k, events_bound (List.length input) < fuel ->
    calls line_of tie fuel k it = Ok (firstn k (map (fun y => (Some (fst y), snd y)) ys) ++ repeat (None, []) (k - List.length ys));
  rf_collect : forall fuel, events_bound (List.length input) < fuel -> ci_collect line_of tie fuel input = Ok ys;
  rf_unique : forall fuel ys', ci_collect line_of tie fuel input = Ok ys' -> ys' = ys;
  rf_length : List.length ys <= events_bound (List.length input);
  rf_traced : traced input ys ysn;
  rf_good : ygood (cands ln (List.length input)) ysn;
  rf_final : final ln (List.length input) (cands ln (List.length input)) (List.concat (map snd ysn))
}.

Lemma run_all : forall {C} (line_of : C -> line) tie (input : list C), exists it ys ln ysn, run_facts line_of tie input it ys ln ysn.
Proof.
  intros C line_of tie input. destruct input as [|d input0].
  { eexists _, [], (fun _ => mkLine (mkC 0%Qc 0%Qc) (mkC 0%Qc 0%Qc)), [].
    assert (N : forall fuel, ci_next line_of tie fuel (mkSweep slab_new [] active_new [] 0) = Ok (mkSweep slab_new [] active_new [] 0, None))
      by (intros fuel; apply next_over; reflexivity).
    constructor.
    - intros [|i] c E; discriminate.
    - reflexivity.
    - reflexivity.
    - intros fuel k L. cbn [map firstn List.length]. rewrite firstn_nil, Nat.sub_0_r. cbn [app]. apply calls_over; reflexivity.
    - intros fuel L. unfold events_bound in L. cbn in L. destruct fuel as [|fuel]; [lia|]. reflexivity.
    - intros fuel ys'. unfold ci_collect. cbn [ci_from_iter sweep_new]. destruct fuel as [|fuel]; [discriminate|]. intros E.
      unfold ci_from_iter, sweep_new in E. cbn in E. congruence.
    - simpl. lia.
    - constructor.
    - constructor; [constructor|intros p o []|intros p o []|intros p o x []|intros p o []].
    - constructor.
      + intros c a z L. simpl in L. lia.
      + intros c. constructor.
      + constructor.
      + intros x [].
      + intros c p q v []. }
  remember (d :: input0) as input eqn:Ei. clear Ei. set (n := List.length input). set (f := fun i => nth i input d). set (ln := fun i => line_of (f i)).
  assert (Im : map f (seq 0 n) = input).
  { apply (nth_ext _ _ (f 0) d); rewrite map_length, seq_length; [reflexivity|]. intros i L. rewrite map_nth, seq_nth by auto. reflexivity. }
  destruct (master_cands ln n tie) as (sw & ysn & sw' & A1 & A2 & A3 & A4 & A5 & A6 & A7 & A8).
  assert (B : forall p o x, In (p, o) ysn -> In x o -> cr_cross x < n).
  { intros p o x I J. destruct (fi_log _ _ _ _ A6 x) as [L _]; auto. apply in_concat. exists o. split; auto. apply in_map_iff. exists (p, o). auto. }
  assert (FI : ci_from_iter line_of input = Ok (sw_map f sw)).
  { rewrite <- Im at 1. rewrite (from_iter_map f ln line_of (fun c => eq_refl)), A1. reflexivity. }
  exists (sw_map f sw), (relabel f ysn), ln, ysn. constructor; auto.
  - intros i c E. unfold ln, f. rewrite (nth_error_nth input i d E). reflexivity.
  - rewrite <- Im at 2. rewrite map_map. reflexivity.
  - intros fuel k L. rewrite (calls_map line_of tie f). rewrite (calls_yields ln tie fuel sw ysn sw' (A3 fuel L) A7 A8).
    cbn [rmap]. f_equal. rewrite map_app. f_equal.
    + rewrite <- firstn_map. f_equal. unfold relabel. rewrite !map_map. reflexivity.
    + unfold relabel. rewrite map_length. induction (k - List.length ysn) as [|j IH]; [reflexivity|]. cbn [repeat map]. f_equal. exact IH.
  - intros fuel L. unfold ci_collect. rewrite FI. cbn [bind]. rewrite (drain_map line_of tie f). fold ln. change (fun i : nat => line_of (f i)) with ln.
    rewrite (drain_yields ln tie fuel sw ysn sw' (A3 fuel L) fuel) by (unfold steps_bound, events_bound in *; fold n in L; lia). reflexivity.
  - intros fuel ys' E. unfold ci_collect in E. rewrite FI in E. cbn [bind] in E. rewrite (drain_map line_of tie f) in E. fold ln in E.
    destruct (ci_drain ln tie fuel fuel sw) as [yn| |] eqn:Ed; try discriminate. cbn [rmap] in E. injection E as <-. f_equal.
    set (m := S (steps_bound n) + fuel). pose proof (drain_mono ln tie _ _ _ _ Ed m m ltac:(unfold m; lia) ltac:(unfold m; lia)) as M.
    rewrite (drain_yields ln tie m sw ysn sw' (A3 m ltac:(unfold m; lia)) m ltac:(unfold m; lia)) in M. injection M as <-. reflexivity.
  - unfold relabel. rewrite map_length. exact A4.
  - apply traced_relabel. exact B.
Qed.

(** More fuel changes nothing but running out of fuel. *)
Lemma loop_stable : forall {ar : arith} {C} (lc : C -> line) tie fuel sw l, ci_loop lc tie fuel sw l <> NoFuel ->
  forall fuel', fuel <= fuel' -> ci_loop lc tie fuel' sw l = ci_loop lc tie fuel sw l.
Proof.
  intros ar C lc tie. induction fuel as [|fuel IH]; intros sw l N fuel' L.
  - destruct fuel' as [|fuel']; [reflexivity|]. cbn [ci_loop] in *. destruct (_ && _); [congruence|reflexivity].
  - destruct fuel' as [|fuel']; [lia|]. cbn [ci_loop] in *. destruct (_ && _); [|reflexivity].
    destruct (next_event lc tie sw) as [[sw' l']| |]; cbn [bind] in *; try reflexivity. apply IH; auto. lia.
Qed.
Lemma next_stable : forall {ar : arith} {C} (lc : C -> line) tie fuel sw, ci_next lc tie fuel sw <> NoFuel ->
  forall fuel', fuel <= fuel' -> ci_next lc tie fuel' sw = ci_next lc tie fuel sw.
Proof.
  intros ar C lc tie fuel sw N fuel' L. unfold ci_next in *. rewrite (loop_stable lc tie fuel); auto.
  intros E. rewrite E in N. apply N. reflexivity.
Qed.
Lemma calls_stable : forall {ar : arith} {C} (lc : C -> line) tie k fuel sw, calls lc tie fuel k sw <> NoFuel ->
  forall fuel', fuel <= fuel' -> calls lc tie fuel' k sw = calls lc tie fuel k sw.
Proof.
  intros ar C lc tie. induction k as [|k IH]; intros fuel sw N fuel' L; [reflexivity|]. cbn [calls] in *.
  rewrite (next_stable lc tie fuel); auto; [|intros E; rewrite E in N; apply N; reflexivity].
  destruct (ci_next lc tie fuel sw) as [[sw' o]| |]; cbn [bind] in *; try reflexivity.
  rewrite (IH fuel sw'); auto. intros E. rewrite E in N. apply N. reflexivity.
Qed.

(** Moving along [traced]. *)
Lemma traced_in : forall {C} (input : list C) ys ysn, traced input ys ysn -> forall p o, In (p, o) ys ->
  exists on, In (p, on) ysn /\ Forall2 (same_crossing input) o on.
Proof.
  intros C input ys ysn T. induction T as [|[q u] [qn un] ys ysn [E S] T IH]; intros p o I; [destruct I|]. cbn [fst snd] in *. destruct I as [I|I].
  - injection I as <- <-. exists un. subst qn. split; [left; auto|auto].
  - destruct (IH p o I) as (on & J & K). exists on. split; [right; auto|auto].
Qed.
Lemma traced_fst : forall {C} (input : list C) ys ysn, traced input ys ysn -> map fst ysn = map fst ys.
Proof. intros C input ys ysn T. induction T as [|y yn ys ysn [E S] T IH]; [reflexivity|]. cbn [map]. rewrite E, IH. reflexivity. Qed.
Lemma traced_lt : forall {C} (input : list C) ys ysn, traced input ys ysn -> forall p o x, In (p, o) ysn -> In x o -> cr_cross x < List.length input.
Proof.
  intros C input ys ysn T. induction T as [|[q u] [qn un] ys ysn [E S] T IH]; intros p o x I J; [destruct I|]. destruct I as [I|I]; [|eauto].
  injection I as <- <-. clear -S J. simpl in S. induction S as [|y yn u un [Sx _] S IH]; [destruct J|]. destruct J as [<-|J]; [|auto].
  apply nth_error_Some. rewrite Sx. discriminate.
Qed.
Lemma same_in : forall {C} (input : list C) o on, Forall2 (same_crossing input) o on -> forall x, In x o -> exists xn, In xn on /\ same_crossing input x xn.
Proof.
  intros C input o on S. induction S as [|y yn u un Sx S IH]; intros x I; [destruct I|]. destruct I as [<-|I].
  - exists yn. split; [left; auto|auto].
  - destruct (IH x I) as (xn & J & K). exists xn. split; [right; auto|auto].
Qed.
Lemma nth_lt : forall {C} (input : list C) i c, nth_error input i = Some c -> i < List.length input.
Proof. intros C input i c E. apply nth_error_Some. rewrite E. discriminate. Qed.
Lemma nth_in : forall {C} (input : list C) i c, nth_error input i = Some c -> In c input.
Proof. intros. eapply nth_error_In; eauto. Qed.
End Impl.
Import Impl.

(** ** C22: however often [next()] is called, no call panics. *)
Theorem C22_next_never_panics : forall {C} (line_of : C -> line) (tie : nat -> nat) (input : list C),
  exists it, ci_from_iter line_of input = Ok it /\
    (forall fuel k, events_bound (List.length input) < fuel -> exists l, calls line_of tie fuel k it = Ok l) /\
    (forall fuel k m, calls line_of tie fuel k it <> Panic m).
Proof.
  intros C line_of tie input. destruct (run_all line_of tie input) as (it & ys & ln & ysn & R). exists it.
  split; [apply R|]. assert (A : forall fuel k, events_bound (List.length input) < fuel -> exists l, calls line_of tie fuel k it = Ok l)
    by (intros fuel k L; eexists; apply R; exact L).
  split; [exact A|]. intros fuel k m E. destruct (A (S (events_bound (List.length input)) + fuel) k ltac:(lia)) as (l & El).
  rewrite (calls_stable line_of tie k fuel it (fun K => eq_ind (Panic m) (fun r => match r with NoFuel => False | _ => True end) I _ (eq_trans (eq_sym E) K))) in El by lia.
  rewrite E in El. discriminate.
Qed.

(** ** C23: after finitely many calls, bounded in the size of the input, [next()]
    returns [None]. *)
Theorem C23_terminates : forall {C} (line_of : C -> line) (tie : nat -> nat) (input : list C),
  exists ys, List.length ys <= events_bound (List.length input) /\ forall fuel, events_bound (List.length input) < fuel -> ci_collect line_of tie fuel input = Ok ys.
Proof.
  intros C line_of tie input. destruct (run_all line_of tie input) as (it & ys & ln & ysn & R). exists ys. split; apply R.
Qed.

(** ** C26: the calls return the points of the output one after the other, each
    with its crossings, of which there is at least one, and then [None] and no
    crossings for ever. *)
Theorem C26_nonempty_and_fused : forall {C} (line_of : C -> line) (tie : nat -> nat) (input : list C) it,
  ci_from_iter line_of input = Ok it ->
  exists ys,
    (forall p o, In (p, o) ys -> o <> []) /\ forall fuel k, events_bound (List.length input) < fuel ->
      calls line_of tie fuel k it =
      Ok (firstn k (map (fun y => (Some (fst y), snd y)) ys) ++ repeat (None, []) (k - List.length ys)).
Proof.
  intros C line_of tie input it0 E0. destruct (run_all line_of tie input) as (it & ys & ln & ysn & R).
  destruct R as [rf_ln rf_ls rf_new rf_calls rf_collect rf_unique rf_length rf_traced rf_good rf_final]. exists ys.
  rewrite rf_new in E0. injection E0 as <-. split; [|auto].
  intros p o I. destruct (traced_in _ _ _ rf_traced p o I) as (on & J & S).
  pose proof (P_Run.yg_ne _ _ rf_good p on J) as N. destruct S; [congruence|discriminate].
Qed.

Lemma run_of : forall {C} (line_of : C -> line) tie fuel (input : list C) ys, ci_collect line_of tie fuel input = Ok ys ->
  exists it ln ysn, run_facts line_of tie input it ys ln ysn.
Proof.
  intros C line_of tie fuel input ys E. destruct (run_all line_of tie input) as (it & ys0 & ln & ysn & R).
  rewrite (rf_unique _ _ _ _ _ _ _ R fuel ys E). exists it, ln, ysn. exact R.
Qed.

(** ** C19 *)
Theorem C19_crossings_sound : forall {C} (line_of : C -> line) tie fuel (input : list C) ys,
  ci_collect line_of tie fuel input = Ok ys ->
  forall p o x, In (p, o) ys -> In x o ->
    In (cr_cross x) input /\
    (forall r, on_piece (cr_line x) r -> on_line (line_of (cr_cross x)) r) /\
    (if cr_left x then starts_at (cr_line x) p else ends_at (cr_line x) p) /\
    on_line (line_of (cr_cross x)) p.
Proof.
  intros C line_of tie fuel input ys E p o x I J. destruct (run_of _ _ _ _ _ E) as (it & ln & ysn & R). destruct R as [rf_ln rf_ls rf_new rf_calls rf_collect rf_unique rf_length rf_traced rf_good rf_final].
  destruct (traced_in _ _ _ rf_traced p o I) as (on & In' & S). destruct (same_in _ _ _ S x J) as (xn & Jn & S1 & S2 & S3 & S4 & S5).
  split; [eapply nth_in; eauto|]. rewrite <- (rf_ln _ _ S1), <- S2, <- S5.
  apply (P_Spec.sound ln (List.length input) ysn rf_good rf_final p on xn In' Jn).
Qed.

(** ** C20 *)
Theorem C20_strictly_increasing : forall {C} (line_of : C -> line) tie fuel (input : list C) ys,
  ci_collect line_of tie fuel input = Ok ys -> StronglySorted lex_lt (map fst ys).
Proof.
  intros C line_of tie fuel input ys E. destruct (run_of _ _ _ _ _ E) as (it & ln & ysn & R). destruct R as [rf_ln rf_ls rf_new rf_calls rf_collect rf_unique rf_length rf_traced rf_good rf_final].
  rewrite <- (traced_fst _ _ _ rf_traced). apply (P_Run.yg_sorted _ _ rf_good).
Qed.

(** ** C21 *)
Theorem C21_complete : forall {C} (line_of : C -> line) tie fuel (input : list C) ys,
  ci_collect line_of tie fuel input = Ok ys ->
  exists ysn, traced input ys ysn /\
  (** ends of an input; every other input through that point is there too *)
  (forall i c j c' r, nth_error input i = Some c -> nth_error input j = Some c' ->
     is_end_of (line_of c) r -> on_line (line_of c') r ->
     exists o, In (r, o) ysn /\ meeting i o /\ meeting j o) /\
  (** isolated intersections of two inputs, with every further input through
      that point *)
  (forall i c j c' k c'' r, nth_error input i = Some c -> nth_error input j = Some c' -> nth_error input k = Some c'' ->
     only_common (line_of c) (line_of c') r -> on_line (line_of c'') r ->
     exists o, In (r, o) ysn /\ meeting i o /\ meeting j o /\ meeting k o) /\
  (** both ends of an overlap *)
  (forall i c j c' r1 r2, nth_error input i = Some c -> nth_error input j = Some c' ->
     common_stretch (line_of c) (line_of c') r1 r2 ->
     (exists o, In (r1, o) ysn /\ meeting i o /\ meeting j o) /\
     (exists o, In (r2, o) ysn /\ meeting i o /\ meeting j o)).
Proof.
  intros C line_of tie fuel input ys E. destruct (run_of _ _ _ _ _ E) as (it & ln & ysn & R). destruct R as [rf_ln rf_ls rf_new rf_calls rf_collect rf_unique rf_length rf_traced rf_good rf_final].
  exists ysn. split; [auto|].
  assert (H : forall i c r, nth_error input i = Some c -> In r (P_Master.cands ln (List.length input)) -> on_line (line_of c) r ->
    exists o, In (r, o) ysn /\ meeting i o).
  { intros i c r Ei Iv O. apply (P_Spec.hit ln (List.length input) ysn rf_good rf_final i r (nth_lt _ _ _ Ei) Iv).
    apply P_Spec.geo_pts. rewrite (rf_ln _ _ Ei). exact O. }
  assert (U : forall r o o', In (r, o) ysn -> In (r, o') ysn -> o = o').
  { pose proof (P_Run.yg_sorted _ _ rf_good) as S. revert S. clear. intros S r o o' I I'.
    induction ysn as [|[q u] l IH]; [destruct I|]. cbn [map fst] in S. inversion S as [|? ? S1 F1]; subst. rewrite Forall_forall in F1.
    destruct I as [I|I], I' as [I'|I']; [congruence| | |auto].
    - injection I as -> ->. pose proof (F1 _ (in_map fst _ _ I')) as L. exfalso. exact (P_Geo.lex_irrefl _ L).
    - injection I' as -> ->. pose proof (F1 _ (in_map fst _ _ I)) as L. exfalso. exact (P_Geo.lex_irrefl _ L). }
  assert (Oe : forall l r, is_end_of l r -> on_line l r) by (intros l r [->| ->]; [apply P_Geo.on_seg_start|apply P_Geo.on_seg_end]).
  split; [|split].
  - intros i c j c' r Ei Ej Er Or.
    assert (Iv : In r (P_Master.cands ln (List.length input))) by (apply (P_Spec.end_in_V ln _ i _ (nth_lt _ _ _ Ei)); rewrite (rf_ln _ _ Ei); exact Er).
    destruct (H i c r Ei Iv (Oe _ _ Er)) as (o & J & K). destruct (H j c' r Ej Iv Or) as (o' & J' & K').
    rewrite <- (U r o o' J J') in K'. exists o. auto.
  - intros i c j c' k c'' r Ei Ej Ek Er Or.
    assert (Iv : In r (P_Master.cands ln (List.length input))).
    { apply (P_Spec.common_in_V ln _ i j _ (nth_lt _ _ _ Ei) (nth_lt _ _ _ Ej)). rewrite (rf_ln _ _ Ei), (rf_ln _ _ Ej). exact Er. }
    destruct (proj2 (Er r) eq_refl) as [O1 O2].
    destruct (H i c r Ei Iv O1) as (o & J & K). destruct (H j c' r Ej Iv O2) as (o' & J' & K'). destruct (H k c'' r Ek Iv Or) as (o'' & J'' & K'').
    rewrite <- (U r o o' J J') in K'. rewrite <- (U r o o'' J J'') in K''. exists o. auto.
  - intros i c j c' r1 r2 Ei Ej Er.
    assert (Iv : In r1 (P_Master.cands ln (List.length input)) /\ In r2 (P_Master.cands ln (List.length input))).
    { apply (P_Spec.stretch_V ln _ i j _ _ (nth_lt _ _ _ Ei) (nth_lt _ _ _ Ej)). rewrite (rf_ln _ _ Ei), (rf_ln _ _ Ej). exact Er. }
    destruct Er as [_ Er]. destruct Iv as [Iv1 Iv2].
    split.
    + destruct (proj2 (Er r1) (P_Geo.on_seg_start _ _)) as [O1 O2].
      destruct (H i c r1 Ei Iv1 O1) as (o & J & K). destruct (H j c' r1 Ej Iv1 O2) as (o' & J' & K').
      rewrite <- (U r1 o o' J J') in K'. exists o. auto.
    + destruct (proj2 (Er r2) (P_Geo.on_seg_end _ _)) as [O1 O2].
      destruct (H i c r2 Ei Iv2 O1) as (o & J & K). destruct (H j c' r2 Ej Iv2 O2) as (o' & J' & K').
      rewrite <- (U r2 o o' J J') in K'. exists o. auto.
Qed.

(** The yielded points are exactly the ends and the isolated intersections. *)
Theorem C21_points_exact : forall {C} (line_of : C -> line) tie fuel (input : list C) ys,
  ci_collect line_of tie fuel input = Ok ys ->
  forall p, In p (map fst ys) <-> event_point (map line_of input) p.
Proof.
  intros C line_of tie fuel input ys E p. destruct (run_of _ _ _ _ _ E) as (it & ln & ysn & R). destruct R as [rf_ln rf_ls rf_new rf_calls rf_collect rf_unique rf_length rf_traced rf_good rf_final].
  rewrite <- (traced_fst _ _ _ rf_traced), <- rf_ls. apply (P_Spec.yielded ln _ ysn rf_good rf_final).
Qed.

(** ** C24 *)
Definition starts_piece (l : line) (s g : lop) : Prop :=
  exists p q y, s = Line p y /\ g = Line p q /\ lex_lt p q /\ lex_le q y /\ on_line l p /\ on_line l y.
Theorem C24_pieces_tile_inputs : forall {C} (line_of : C -> line) tie fuel (input : list C) ys,
  ci_collect line_of tie fuel input = Ok ys ->
  exists ysn, traced input ys ysn /\
  forall i c a z, nth_error input i = Some c -> ends (line_of c) a z ->
    (lex_lt a z ->
       consecutive a z (ending (crossings_of i ysn)) /\
       Forall2 (starts_piece (line_of c)) (starting (crossings_of i ysn)) (ending (crossings_of i ysn)) /\
       forall r, on_line (line_of c) r <-> exists g, In g (ending (crossings_of i ysn)) /\ on_piece g r) /\
    (a = z -> exists x, crossings_of i ysn = [x] /\ cr_line x = Point a /\ cr_left x = false).
Proof.
  intros C line_of tie fuel input ys E. destruct (run_of _ _ _ _ _ E) as (it & ln & ysn & R). destruct R as [rf_ln rf_ls rf_new rf_calls rf_collect rf_unique rf_length rf_traced rf_good rf_final].
  exists ysn. split; [auto|]. intros i c a z Ei Ee. rewrite <- (rf_ln _ _ Ei) in *. split.
  - intros L. destruct (P_Spec.pieces ln _ ysn rf_good rf_final i a z (nth_lt _ _ _ Ei) Ee L) as [P1 P2]. split; [auto|]. split; [exact P2|].
    intros r. assert (On : forall s, on_line (ln i) s <-> on_seg a z s).
    { intros s. rewrite <- P_Spec.geo_pts. destruct (P_Spec.ends_geo ln i a z Ee) as [[_ ->]|[-> _]]; [reflexivity|]. exfalso. exact (P_Geo.lex_irrefl _ L). }
    assert (Of : forall g, In g (ending (crossings_of i ysn)) -> exists p q, g = Line p q /\ on_seg a z p /\ on_seg a z q).
    { intros g I. unfold ending in I. apply in_map_iff in I as (x & <- & I). apply filter_In in I as [I Il]. apply filter_In in I as [I Ic].
      apply Nat.eqb_eq in Ic. destruct (P_Run.fi_log _ _ _ _ rf_final x I) as (_ & Q & _).
      destruct (P_Spec.ends_geo ln i a z Ee) as [[_ Gi]|[-> _]]; [|exfalso; exact (P_Geo.lex_irrefl _ L)]. rewrite Ic, Gi in Q.
      destruct (cr_line x) as [|p q]; [destruct Q as [Q _]; discriminate|]. destruct Q as (a0 & z0 & Q & _ & _ & _ & Q1 & Q2). injection Q as <- <-.
      exists p, q. auto. }
    rewrite On. split.
    + intros O. destruct (P_Geo.on_seg_between _ _ _ L O) as [B1 B2].
      assert (Q : forall gs b, consecutive b z gs -> (forall g, In g gs -> exists p q, g = Line p q /\ on_seg a z p /\ on_seg a z q) ->
        lex_lt b z -> lex_le b r -> exists g, In g gs /\ on_piece g r).
      { intros gs b Cs. induction Cs as [b|b b' z gs Lb Cs IH]; intros A Lz Lr; [exfalso; exact (P_Geo.lex_irrefl _ Lz)|].
        destruct (A _ (or_introl eq_refl)) as (p & q & Q & O1 & O2). injection Q as <- <-.
        destruct (P_Geo.lex_le_dec r b') as [Lr'|Lr'].
        - exists (Line b b'). split; [left; auto|]. simpl. exact (P_Tile.on_seg_mid _ _ _ _ _ O1 O2 O Lb Lr Lr').
        - destruct IH as (g & I & O'); auto.
          + intros g I. apply A. right; auto.
          + exact (P_Geo.lex_lt_le_trans _ _ _ Lr' B2).
          + left; auto.
          + exists g. split; [right; auto|auto]. }
      apply (Q _ a P1 Of L B1).
    + intros (g & I & O). destruct (Of g I) as (p & q & -> & O1 & O2). exact (P_Tile.on_seg_convex _ _ _ _ _ O1 O2 O).
  - intros ->. exact (P_Spec.one_point ln _ ysn rf_final i z (nth_lt _ _ _ Ei) Ee).
Qed.

(** ** C25 *)
Theorem C25_no_interior_intersection : forall {C} (line_of : C -> line) tie fuel (input : list C) ys,
  ci_collect line_of tie fuel input = Ok ys ->
  forall w o x p q c r, In (w, o) ys -> In x o -> cr_left x = false -> cr_line x = Line p q ->
    In c input -> on_seg p q r -> r <> p -> r <> q -> on_line (line_of c) r ->
    forall r', on_seg p q r' -> on_line (line_of c) r'.
Proof.
  intros C line_of tie fuel input ys E w o x p q c r I J El Eg Ic O N1 N2 Oc. destruct (run_of _ _ _ _ _ E) as (it & ln & ysn & R). destruct R as [rf_ln rf_ls rf_new rf_calls rf_collect rf_unique rf_length rf_traced rf_good rf_final].
  destruct (traced_in _ _ _ rf_traced w o I) as (on & In' & S). destruct (same_in _ _ _ S x J) as (xn & Jn & S1 & S2 & S3 & S4 & S5).
  assert (K : In xn (List.concat (map snd ysn))) by (apply in_concat; exists on; split; auto; apply in_map_iff; exists (w, on); auto).
  assert (Ie : In (p, q) (P_Inv.ended (cr_cross xn) (List.concat (map snd ysn)))).
  { unfold P_Inv.ended. apply in_flat_map. exists xn. split; auto. rewrite Nat.eqb_refl, S5, El, S2, Eg. left; auto. }
  apply In_nth_error in Ic as (j & Ej). rewrite <- (rf_ln _ _ Ej) in *.
  destruct (P_Run.fi_log _ _ _ _ rf_final xn K) as (Ln & Q & _). rewrite S2, Eg in Q. destruct Q as (a & z & _ & Lpq & _).
  destruct (P_Geo.on_seg_between _ _ _ Lpq O) as [B1 B2].
  apply (P_Spec.fine ln _ ysn rf_final (cr_cross xn) j p q r Ie Ln (nth_lt _ _ _ Ej)); auto; apply P_Geo.lex_le_neq; auto.
Qed.

(** ** C27 *)
Theorem C27_overlap_next : forall {C} (line_of : C -> line) tie fuel (input : list C) ys,
  ci_collect line_of tie fuel input = Ok ys ->
  forall p o k x, In (p, o) ys -> nth_error o k = Some x -> cr_overlap x = true ->
    exists y, nth_error o (S k) = Some y /\ cr_line y = cr_line x /\ cr_left y = cr_left x.
Proof.
  intros C line_of tie fuel input ys E p o k x I Ek Eo. destruct (run_of _ _ _ _ _ E) as (it & ln & ysn & R). destruct R as [rf_ln rf_ls rf_new rf_calls rf_collect rf_unique rf_length rf_traced rf_good rf_final].
  destruct (traced_in _ _ _ rf_traced p o I) as (on & In' & S). pose proof (P_Run.yg_ovl _ _ rf_good p on In') as Ov.
  clear -S Ov Ek Eo. revert k x Ek Eo. induction S as [|x0 xn o on Sx S IH]; intros k x Ek Eo; [destruct k; discriminate|].
  destruct Ov as [Ov1 Ov2]. destruct k as [|k]; [|exact (IH Ov1 k x Ek Eo)].
  injection Ek as ->. destruct Sx as (S1 & S2 & S3 & S4 & S5). rewrite <- S4 in Eo. destruct (Ov2 Eo) as (y & l & -> & Y1 & Y2).
  inversion S as [|y0 yn o0 on0 Sy S']; subst. destruct Sy as (T1 & T2 & T3 & T4 & T5). exists y0. split; [reflexivity|]. split; congruence.
Qed.

(** ** C32 *)
Theorem C32_independent_of_ties : forall {C} (line_of : C -> line) tie tie' fuel fuel' (input : list C) ys ys',
  ci_collect line_of tie fuel input = Ok ys -> ci_collect line_of tie' fuel' input = Ok ys' ->
  map fst ys = map fst ys'.
Proof.
  intros. apply P_Spec.sorted_eq; [|eapply C20_strictly_increasing; eauto|eapply C20_strictly_increasing; eauto].
  intros p. erewrite C21_points_exact by eauto. erewrite (C21_points_exact _ tie') by eauto. reflexivity.
Qed.

Print Assumptions C19_crossings_sound.
Print Assumptions C20_strictly_increasing.
Print Assumptions C21_complete.
Print Assumptions C21_points_exact.
Print Assumptions C22_next_never_panics.
Print Assumptions C23_terminates.
Print Assumptions C24_pieces_tile_inputs.
Print Assumptions C25_no_interior_intersection.
Print Assumptions C26_nonempty_and_fused.
Print Assumptions C27_overlap_next.
Print Assumptions C32_independent_of_ties.
