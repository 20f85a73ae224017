(** Runs that never compute the point of a proper crossing do not depend on how it
    would be computed. *)
Require Import List String Bool Arith Lia Permutation.
From Verif Require Import Base Scalar M_Events M_Geo M_LineOrPoint M_Round M_Splay M_Slab M_Active M_Sweep M_Crossings M_Rings M_Op M_Laminar.
From Verif Require Import S_Geo S_Sweep S_Round P_Geo P_LineOrPoint P_LineInt P_Tile P_Inv P_Param P_Run P_Master P_Boundary.
Import Datatypes.
Import ListNotations.
Local Open Scope string_scope.
Local Open Scope nat_scope.

Definition proper_pair (l m : line) : bool := match line_intersection l m with Some (SinglePoint _ true) => true | _ => false end.
(** Exact arithmetic that refuses to compute the point of a proper crossing. *)
Definition guarded : arith :=
  mkArith (fun a b => match a, b with
                      | Line p q, Line r s => if proper_pair (mkLine p q) (mkLine r s) then Panic "proper" else intersect_line_ordered a b
                      | _, _ => intersect_line_ordered a b
                      end) line_intersection.
(** [b] is the same as [a], unless [a] has given up. *)
Definition given_up {X} (a : res X) : Prop := a = Panic "proper" \/ a = Panic "line_or_point.rs:150 next_after needed".
Definition le {X} (a b : res X) : Prop := b = a \/ given_up a.
Definition below (a1 a2 : arith) : Prop := forall g h, le (@meet a1 g h) (@meet a2 g h).

Lemma li_with : forall proper l m, proper_pair l m = false -> line_intersection_with proper l m = line_intersection l m.
Proof.
  intros proper l m. unfold proper_pair, line_intersection, line_intersection_with. cbv zeta.
  repeat match goal with |- context [if ?b then _ else _] => destruct b; auto end; try discriminate.
Qed.
Lemma le_refl : forall {X} (a : res X), le a a. Proof. intros X a. left. reflexivity. Qed.
Lemma le_ok : forall {X} {a b : res X} {x}, le a b -> a = Ok x -> b = Ok x.
Proof. intros X a b x [->|[->| ->]] E; congruence. Qed.
Lemma le_same : forall {X} {a b : res X}, le a b -> ~ given_up a -> b = a.
Proof. intros X a b [E|E] N; [exact E|contradiction]. Qed.
Lemma bind_le : forall {X Y} (a b : res X) (f g : X -> res Y), le a b -> (forall x, a = Ok x -> le (f x) (g x)) -> le (bind a f) (bind b g).
Proof.
  intros X Y a b f g [->|[->| ->]] K; [|right; left; reflexivity|right; right; reflexivity]. destruct a as [x| |]; cbn [bind]; try apply le_refl. apply K; auto.
Qed.

Lemma ilo_with : forall proper next g h, (forall p q r s, g = Line p q -> h = Line r s -> proper_pair (mkLine p q) (mkLine r s) = false) ->
  le (intersect_line_ordered g h) (intersect_line_ordered_with proper next g h).
Proof.
  intros proper next g h N. unfold intersect_line_ordered, intersect_line_ordered_with.
  assert (E : intersect_line_with proper g h = intersect_line_with proper_intersection g h).
  { unfold intersect_line_with. destruct g as [p|p q]; auto. destruct h as [r|r s]; [reflexivity|]. cbn [lop_line]. rewrite !li_with by (apply N; auto). reflexivity. }
  rewrite E. apply bind_le; [apply le_refl|]. intros o _. destruct o as [[p|p q]|]; try apply le_refl. cbv zeta.
  destruct (_ && _); [right; right; reflexivity|apply le_refl].
Qed.
Lemma guarded_rounded : forall proper next, below guarded (rounded proper next).
Proof.
  intros proper next g h. cbn. destruct g as [p|p q]; [|destruct h as [r|r s]].
  - apply ilo_with. discriminate.
  - apply ilo_with. discriminate.
  - destruct (proper_pair _ _) eqn:N; [right; left; reflexivity|]. apply ilo_with. intros p' q' r' s' [= <- <-] [= <- <-]. exact N.
Qed.
Lemma guarded_exact : below guarded exact.
Proof. intros g h. cbn. destruct g as [p|p q]; [apply le_refl|]. destruct h as [r|r s]; [apply le_refl|]. destruct (proper_pair _ _); [right; left; reflexivity|apply le_refl]. Qed.

(** ** What is below stays below *)
Section Mono.
Context {C : Type} (line_of : C -> line) (tie tie2 : nat -> nat) (a1 a2 : arith).
Hypothesis Hb : below a1 a2.
Hypothesis Ht : forall k, tie k = tie2 k.
Lemma pop_same : forall sw : M_Sweep.sweep C, pop tie sw = pop tie2 sw.
Proof. intros sw. unfold pop. rewrite Ht. reflexivity. Qed.
Ltac same := apply bind_le; [apply le_refl|].
Lemma ll_round_le : forall h1 h2 ev sw s k, (forall sw ev, le (h1 sw ev) (h2 sw ev)) ->
  le (ll_round (ar := a1) line_of tie h1 ev sw s k) (ll_round (ar := a2) line_of tie2 h2 ev sw s k).
Proof.
  intros h1 h2 ev sw s k Hh. unfold ll_round. same. intros adj _. apply bind_le; [apply Hb|]. intros [i|] _; [|apply le_refl].
  same. intros [sw1 ao] _. same. intros adj' _. apply bind_le.
  - destruct (_ && _); [|apply le_refl]. rewrite pop_same. same. intros [e sw1'] _. apply bind_le; [apply Hh|]. intros [sw1'' d] _. apply le_refl.
  - intros sw2 _. apply le_refl.
Qed.
Lemma ll_loop_le : forall h1 h2 ev ks sw s, (forall sw ev, le (h1 sw ev) (h2 sw ev)) ->
  le (ll_loop (ar := a1) line_of tie h1 ev sw s ks) (ll_loop (ar := a2) line_of tie2 h2 ev sw s ks).
Proof.
  intros h1 h2 ev ks. induction ks as [|k ks IH]; intros sw s Hh; [apply le_refl|]. cbn [ll_loop]. apply bind_le; [apply ll_round_le; auto|].
  intros [[sw' s'] f] _. destruct f; try apply le_refl. apply IH; auto.
Qed.
Lemma pl_round_le : forall s sw k, le (pl_round (ar := a1) line_of s sw k) (pl_round (ar := a2) line_of s sw k).
Proof. intros s sw k. unfold pl_round. same. intros adj _. apply bind_le; [apply Hb|]. intros [i|] _; apply le_refl. Qed.
Lemma fold_le : forall {X Y} (f g : Y -> X -> res Y), (forall y x, le (f y x) (g y x)) -> forall l y, le (fold_res f y l) (fold_res g y l).
Proof. intros X Y f g H l. induction l as [|x l IH]; intros y; [apply le_refl|]. cbn [fold_res]. apply bind_le; auto. Qed.
Lemma handle_le : forall fuel sw ev, le (handle_event (ar := a1) line_of tie fuel sw ev) (handle_event (ar := a2) line_of tie2 fuel sw ev).
Proof.
  induction fuel as [|fuel IH]; intros sw ev; [apply le_refl|]. cbn [handle_event]. same. intros [s|] _; [|apply le_refl].
  same. intros [t1 prev] _. same. intros [t2 next] _. destruct (ev_ty ev).
  all: try (apply bind_le; [apply ll_loop_le; exact IH|]; intros [sw1 f] _; apply le_refl).
  all: try (apply bind_le; [apply fold_le; intros; apply pl_round_le|]; intros sw1 _; apply le_refl).
  all: try apply le_refl.
  same. intros t _. same. intros sw1 _. destruct prev as [pk|]; [|apply le_refl]. destruct next as [nk|]; [|apply le_refl].
  same. intros ps _. same. intros ns _. apply bind_le; [apply Hb|]. intros [i|] _; apply le_refl.
Qed.
Lemma next_event_le : forall sw, le (next_event (ar := a1) line_of tie sw) (next_event (ar := a2) line_of tie2 sw).
Proof. intros sw. unfold next_event. rewrite pop_same. destruct (pop tie2 sw) as [[e sw1]|]; [|apply le_refl]. apply bind_le; [apply handle_le|]. intros [sw2 b] _. apply le_refl. Qed.
Lemma ci_loop_le : forall fuel it l, le (ci_loop (ar := a1) line_of tie fuel it l) (ci_loop (ar := a2) line_of tie2 fuel it l).
Proof.
  induction fuel as [|fuel IH]; intros it l; cbn [ci_loop]; [apply le_refl|]. destruct (_ && _); [|apply le_refl].
  apply bind_le; [apply next_event_le|]. intros [it' l'] _. apply IH.
Qed.
Lemma ci_next_le : forall fuel it, le (ci_next (ar := a1) line_of tie fuel it) (ci_next (ar := a2) line_of tie2 fuel it).
Proof. intros fuel it. unfold ci_next. apply bind_le; [apply ci_loop_le|]. intros [it1 l] _. apply le_refl. Qed.
Lemma ci_drain_le : forall n fuel it, le (ci_drain (ar := a1) line_of tie n fuel it) (ci_drain (ar := a2) line_of tie2 n fuel it).
Proof.
  induction n as [|n IH]; intros fuel it; cbn [ci_drain]; [apply le_refl|]. apply bind_le; [apply ci_next_le|]. intros [it' [p|]] _; [|apply le_refl].
  apply bind_le; [apply IH|]. intros rest _. apply le_refl.
Qed.
Lemma ci_collect_le : forall fuel input, le (ci_collect (ar := a1) line_of tie fuel input) (ci_collect (ar := a2) line_of tie2 fuel input).
Proof. intros fuel input. unfold ci_collect. same. intros it _. apply ci_drain_le. Qed.
Hypothesis Hc : forall l m, @common a1 l m = @common a2 l m.
Lemma in_intersection_le : forall s, le (in_intersection (ar := a1) line_of s) (in_intersection (ar := a2) line_of s).
Proof. intros s. unfold in_intersection. same. intros si _. same. intros sj _. same. intros [|] _; [|apply le_refl]. rewrite Hc. apply le_refl. Qed.
Lemma in_advance_le : forall n fuel it, le (in_advance (ar := a1) line_of tie n fuel it) (in_advance (ar := a2) line_of tie2 n fuel it).
Proof.
  induction n as [|n IH]; intros fuel it; cbn [in_advance]; [apply le_refl|]. apply bind_le; [apply ci_next_le|]. intros [it' [p|]] _; [|apply le_refl].
  destruct (_ <? _); [apply le_refl|apply IH].
Qed.
Lemma in_step_le : forall fuel s, le (in_step (ar := a1) line_of tie fuel s) (in_step (ar := a2) line_of tie2 fuel s).
Proof.
  intros fuel s. unfold in_step. destruct (_ <? _); [apply le_refl|]. destruct (_ <=? _); [|apply le_refl].
  apply bind_le; [apply in_advance_le|]. intros [it' p] _. apply le_refl.
Qed.
Lemma in_next_le : forall fuel s, le (in_next (ar := a1) line_of tie fuel s) (in_next (ar := a2) line_of tie2 fuel s).
Proof.
  induction fuel as [|fuel IH]; intros s; cbn [in_next]; [apply le_refl|]. apply bind_le; [apply in_step_le|]. intros [s1 [|]] _; [|apply le_refl].
  apply bind_le; [apply in_intersection_le|]. intros [r|] _; [apply le_refl|apply IH].
Qed.
Lemma in_drain_le : forall n fuel s, le (in_drain (ar := a1) line_of tie n fuel s) (in_drain (ar := a2) line_of tie2 n fuel s).
Proof.
  induction n as [|n IH]; intros fuel s; cbn [in_drain]; [apply le_refl|]. apply bind_le; [apply in_next_le|]. intros [s' [r|]] _; [|apply le_refl].
  apply bind_le; [apply IH|]. intros rest _. apply le_refl.
Qed.
Lemma in_collect_le : forall fuel input, le (in_collect (ar := a1) line_of tie fuel input) (in_collect (ar := a2) line_of tie2 fuel input).
Proof. intros fuel input. unfold in_collect. same. intros it _. apply in_drain_le. Qed.
End Mono.
Section MonoOp.
Variables (tie tie2 : nat -> nat) (presort : list (M_Sweep.crossing nat) -> list (M_Sweep.crossing nat)) (a1 a2 : arith).
Hypothesis Hb : below a1 a2.
Hypothesis Ht : forall k, tie k = tie2 k.
Lemma op_loop_le : forall {A} (add : A -> lop -> winding -> res A) n fuel ln ty it es s,
  le (op_loop (ar := a1) tie presort add n fuel ln ty it es s) (op_loop (ar := a2) tie2 presort add n fuel ln ty it es s).
Proof.
  intros A add. induction n as [|n IH]; intros fuel ln ty it es s; cbn [op_loop]; [apply le_refl|]. apply bind_le; [apply ci_next_le; auto|].
  intros [it' [p|]] _; [|apply le_refl]. apply bind_le; [apply le_refl|]. intros [[it2 es2] s2] _. apply IH.
Qed.
Lemma op_run_le : forall {A} (add : A -> lop -> winding -> res A) fuel o s,
  le (op_run (ar := a1) tie presort add fuel o s) (op_run (ar := a2) tie2 presort add fuel o s).
Proof. intros A add fuel o s. unfold op_run. apply bind_le; [apply le_refl|]. intros it _. apply op_loop_le. Qed.
End MonoOp.

(** ** Lines without proper crossings *)
Lemma proper_orient : forall l m, proper_pair l m = true ->
  exists x, line_intersection l m = Some (SinglePoint x true) /\
  (cross (l_start l) (l_end l) (l_start m) <> 0)%Qc /\ (cross (l_start l) (l_end l) (l_end m) <> 0)%Qc /\
  (cross (l_start m) (l_end m) (l_start l) <> 0)%Qc /\ (cross (l_start m) (l_end m) (l_end l) <> 0)%Qc.
Proof.
  intros [p q] [r s]. unfold proper_pair, line_intersection, line_intersection_with. cbv zeta. simpl l_start. simpl l_end.
  destruct (negb _); [discriminate|].
  pose proof (orient2d_spec p q r) as O1. pose proof (orient2d_spec p q s) as O2. pose proof (orient2d_spec r s p) as O3. pose proof (orient2d_spec r s q) as O4.
  destruct (same_side (orient2d p q r) _); [discriminate|]. destruct (same_side (orient2d r s p) _); [discriminate|].
  assert (Z : forall a b c, orient_spec a b c (orient2d a b c) -> is_collinear (orient2d a b c) = false -> cross a b c <> 0%Qc).
  { intros a b c O N E. destruct O; try discriminate; rewrite E in *; try (eapply Qclt_not_eq; eauto; fail).
    all: match goal with H : (0 < 0)%Qc |- _ => exact (Qclt_not_eq _ _ H eq_refl) end. }
  destruct (_ && _ && _ && _).
  - unfold collinear_intersection. cbv zeta. repeat match goal with |- context [if ?b then _ else _] => destruct b; try discriminate end.
  - destruct (is_collinear (orient2d p q r)) eqn:A; [discriminate|]. destruct (is_collinear (orient2d p q s)) eqn:B; [discriminate|].
    destruct (is_collinear (orient2d r s p)) eqn:Cc; [discriminate|]. destruct (is_collinear (orient2d r s q)) eqn:D; [discriminate|].
    intros _. eexists. split; [reflexivity|]. auto.
Qed.

Lemma piece_seg : forall ln n g, piece ln n g -> exists p q c, g = Line p q /\ c < n /\ lex_lt p q /\ on_line (ln c) p /\ on_line (ln c) q /\
  forall x, on_seg p q x -> is_end_of (ln c) x -> x = p \/ x = q.
Proof.
  intros ln n g (p & q & c & a & z & -> & Lc & G & Lpq & Oa & Oz). exists p, q, c. do 3 (split; [auto|]).
  assert (W : lex_lt a z). { destruct (lop_of_line_spec (ln c)) as [W _]. unfold geo in G. rewrite G in W. exact W. }
  assert (EL : (a = l_start (ln c) /\ z = l_end (ln c)) \/ (a = l_end (ln c) /\ z = l_start (ln c))).
  { unfold geo, lop_of_line in G. cbv zeta in G. destruct (pcmp _ _); inversion G; auto. }
  assert (S : forall r, on_seg a z r -> on_line (ln c) r).
  { intros r R. unfold on_line. destruct EL as [[<- <-]|[<- <-]]; [exact R|apply on_seg_sym; exact R]. }
  split; [auto|]. split; [auto|]. intros x Ox Ex.
  destruct (on_seg_between _ _ _ Lpq Ox) as [B1 B2]. destruct (on_seg_between _ _ _ W Oa) as [A1 A2]. destruct (on_seg_between _ _ _ W Oz) as [Z1 Z2].
  assert (Ex' : x = a \/ x = z) by (destruct EL as [[-> ->]|[-> ->]]; destruct Ex; auto).
  destruct Ex' as [->| ->]; [left|right]; apply lex_le_antisym; auto.
Qed.
Section Faithful.
Variables (ln : nat -> line) (n : nat).
Hypothesis NP : no_proper_crossing (map ln (seq 0 n)).
Lemma pieces_proper : forall g h p q r s, piece ln n g -> piece ln n h -> g = Line p q -> h = Line r s -> proper_pair (mkLine p q) (mkLine r s) = false.
Proof.
  intros g h p q r s Pg Ph -> ->. destruct (proper_pair _ _) eqn:E; [exfalso|reflexivity].
  destruct (proper_orient _ _ E) as (x & L & N1 & N2 & N3 & N4). simpl l_start in *. simpl l_end in *.
  pose proof (line_intersection_all (mkLine p q) (mkLine r s)) as X. rewrite L in X. simpl in X. unfold on_line in X. simpl in X.
  pose proof (proj2 (X x) eq_refl) as [X1 X2].
  destruct (piece_seg _ _ _ Pg) as (p' & q' & c & [= <- <-] & Lc & Lpq & Op & Oq & K).
  destruct (piece_seg _ _ _ Ph) as (r' & s' & c' & [= <- <-] & Lc' & Lrs & Or & Os & K').
  assert (Y1 : on_line (ln c) x) by exact (on_seg_convex _ _ _ _ _ Op Oq X1). assert (Y2 : on_line (ln c') x) by exact (on_seg_convex _ _ _ _ _ Or Os X2).
  apply (NP (ln c) (ln c') x); [apply in_map, in_seq; lia|apply in_map, in_seq; lia|].
  pose proof (on_seg_cross _ _ _ X1) as C1. pose proof (on_seg_cross _ _ _ X2) as C2.
  split; [|split].
  - intros y. split; [|intros ->; auto]. intros [A B]. destruct (pt_dec x y) as [->|D]; [auto|exfalso]. apply N1.
    unfold on_line in *. apply (line_trans x y); auto; [exact (seg_collinear _ _ _ _ _ Y1 A Op)|exact (seg_collinear _ _ _ _ _ Y1 A Oq)|exact (seg_collinear _ _ _ _ _ Y2 B Or)].
  - intros Ex. destruct (K x X1 Ex); subst; auto.
  - intros Ex. destruct (K' x X2 Ex); subst; auto.
Qed.
Lemma guarded_faithful : faithful guarded ln n.
Proof.
  constructor.
  - reflexivity.
  - intros a b Pa Pb. pose proof Pa as (p & q & _ & _ & _ & -> & _). pose proof Pb as (r & s & _ & _ & _ & -> & _). cbn.
    rewrite (pieces_proper _ _ p q r s Pa Pb eq_refl eq_refl). reflexivity.
Qed.
End Faithful.
