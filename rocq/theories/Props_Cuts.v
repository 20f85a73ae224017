(** C83: what [CrossingsIter] reports depends only on the set of lines. *)
Require Import List String Bool Arith Lia Permutation Sorted.
From Verif Require Import Base Scalar M_Events M_Geo M_LineOrPoint M_Sweep M_Crossings.
From Verif Require Import S_Geo S_Sweep S_Cuts.
From Verif Require P_Geo P_Inv P_Run P_Master P_Spec P_LineOrPoint P_Tile P_Tile Props_Geo.
From Verif Require Import Props_Sweep.
Import Datatypes.
Import ListNotations.
Local Open Scope nat_scope.

Module Impl.
Import P_Geo P_Inv P_Run P_Master P_Spec Props_Sweep.Impl.

Lemma same_refl : forall l, same_line l l.
Proof. intros l. left. auto. Qed.
Lemma same_sym : forall l l', same_line l l' -> same_line l' l.
Proof. intros l l' [[A B]|[A B]]; [left|right]; auto. Qed.
Lemma same_on : forall l l', same_line l l' -> forall r, on_line l r <-> on_line l' r.
Proof. intros l l' [[A B]|[A B]] r; unfold on_line; rewrite A, B; [reflexivity|]. split; apply on_seg_sym. Qed.
Lemma same_end : forall l l', same_line l l' -> forall r, is_end_of l r <-> is_end_of l' r.
Proof. intros l l' [[A B]|[A B]] r; unfold is_end_of; rewrite A, B; [reflexivity|]. split; intros [D|D]; auto. Qed.
Lemma same_ends : forall l l', same_line l l' -> forall a z, ends l a z -> ends l' a z.
Proof. intros l l' [[A B]|[A B]] a z [L E]; split; auto; rewrite A, B in E; auto. destruct E; auto. Qed.
Lemma event_mono : forall ls ls', some_lines ls ls' -> forall r, event_point ls r -> event_point ls' r.
Proof.
  intros ls ls' S r [(l & I & E)|(l & l' & I & I' & U)].
  - destruct (S l I) as (k & K & Q). left. exists k. split; auto. apply (same_end _ _ Q). auto.
  - destruct (S l I) as (k & K & Q). destruct (S l' I') as (k' & K' & Q'). right. exists k, k'. split; auto. split; auto.
    intros x. rewrite <- (same_on _ _ Q), <- (same_on _ _ Q'). apply U.
Qed.
Lemma event_same : forall ls ls', same_lines ls ls' -> forall r, event_point ls r <-> event_point ls' r.
Proof. intros ls ls' [S S'] r. split; apply event_mono; auto. Qed.
Lemma ends_ex : forall l, exists a z, ends l a z.
Proof.
  intros l. destruct (lex_le_dec (l_start l) (l_end l)) as [L|L].
  - exists (l_start l), (l_end l). split; auto.
  - exists (l_end l), (l_start l). split; [left|]; auto.
Qed.
Lemma ends_unique : forall l a z a' z', ends l a z -> ends l a' z' -> a = a' /\ z = z'.
Proof. intros l a z a' z' [L E] [L' E']. destruct E as [[-> ->]|[-> ->]], E' as [[-> ->]|[-> ->]]; split; lord. Qed.

(** Consecutive pieces. *)
Lemma cons_lines : forall a z gs, consecutive a z gs -> forall g, In g gs -> exists p q, g = Line p q /\ lex_lt p q /\ lex_le a p /\ lex_le q z.
Proof.
  intros a z gs C. induction C as [a|a b z gs L C IH]; intros g I; [destruct I|].
  assert (B : lex_le b z).
  { clear - C. induction C as [|x y z gs L C IH]; [apply lex_le_refl|]. lord. }
  destruct I as [<-|I].
  - exists a, b. repeat (split; [auto|]); [apply lex_le_refl|auto].
  - destruct (IH g I) as (p & q & -> & L1 & L2 & L3). exists p, q. repeat (split; [auto; lord|]). lord.
Qed.
Lemma cons_start : forall a z gs, consecutive a z gs -> forall p q, In (Line p q) gs -> p = a \/ exists o, In (Line o p) gs.
Proof.
  intros a z gs C. induction C as [a|a b z gs L C IH]; intros p q I; [destruct I|].
  destruct I as [Q|I]; [injection Q as <- <-; auto|]. destruct (IH p q I) as [->|(o & O)]; right; [exists a; left; auto|exists o; right; auto].
Qed.
Lemma cons_bound : forall a z gs, consecutive a z gs -> forall r, break_of gs r -> lex_le a r.
Proof. intros a z gs C r (p & q & I & D). destruct (cons_lines _ _ _ C _ I) as (p' & q' & Q & L & L1 & _). injection Q as <- <-. destruct D as [->| ->]; lord. Qed.
Lemma cons_unique : forall a z gs, consecutive a z gs -> forall gs', consecutive a z gs' -> (forall r, break_of gs r <-> break_of gs' r) -> gs = gs'.
Proof.
  intros a z gs C. induction C as [a|a b z gs L C IH]; intros gs' C' E.
  - inversion C' as [|? b ? gs2 L' C2]; subst; auto. exfalso. destruct (cons_lines _ _ _ C' (Line a b) (or_introl eq_refl)) as (p & q & Q & L1 & _ & L2). injection Q as <- <-. lord.
  - inversion C' as [|? b' ? gs2 L' C2]; subst.
    + exfalso. destruct (cons_lines z z (Line z b :: gs) (cons_piece _ _ _ _ L C) (Line z b) (or_introl eq_refl)) as (p & q & Q & L1 & _ & L2). injection Q as <- <-. lord.
    + assert (H : forall u u' hs hs', lex_lt a u -> consecutive u z hs -> lex_lt a u' -> consecutive u' z hs' ->
        (forall r, break_of (Line a u :: hs) r -> break_of (Line a u' :: hs') r) -> lex_le u' u).
      { intros u u' hs hs' Lu Cu Lu' Cu' Hb. assert (B : break_of (Line a u :: hs) u) by (exists a, u; split; [left|right]; auto).
        apply Hb in B as (p & q & [Q|I] & D).
        - injection Q as <- <-. destruct D as [->| ->]; lord.
        - apply (cons_bound _ _ _ Cu'). exists p, q. auto. }
      assert (Q : b = b').
      { pose proof (H b b' gs gs2 L C L' C2 (fun r => proj1 (E r))). pose proof (H b' b gs2 gs L' C2 L C (fun r => proj2 (E r))). lord. }
      subst b'. f_equal. apply IH; auto.
      assert (K : forall hs hs', consecutive b z hs -> consecutive b z hs' -> (forall r, break_of (Line a b :: hs) r -> break_of (Line a b :: hs') r) -> forall r, break_of hs r -> break_of hs' r).
      { intros hs hs' Ch Ch' Hb r B. pose proof (cons_bound _ _ _ Ch r B) as Lr. destruct (Hb r) as (p & q & I & D).
        - destruct B as (p & q & I & D). exists p, q. split; [right|]; auto.
        - destruct I as [Q|I]; [|exists p, q; auto]. injection Q as <- <-. destruct D as [->| ->]; [exfalso; lord|].
          (* r = b: hs is not empty, hence z is not b and hs' is not empty *)
          destruct B as (p & q & I & D). destruct (cons_lines _ _ _ Ch _ I) as (p1 & q1 & Q & L1 & L2 & L3). injection Q as <- <-.
          inversion Ch' as [|? c ? hs2 Lc Cc]; subst; [exfalso; lord|]. exists b, c. split; [left|left]; auto. }
      intros r. split; apply K; auto; intros x; apply E.
Qed.
Lemma cut_unique : forall ls ls' l l' gs gs', same_line l l' -> (forall r, event_point ls r <-> event_point ls' r) -> cut_at ls l gs -> cut_at ls' l' gs' -> gs = gs'.
Proof.
  intros ls ls' l l' gs gs' S E (a & z & En & P & L) (a' & z' & En' & P' & L'). apply (same_ends _ _ S) in En.
  destruct (ends_unique _ _ _ _ _ En En') as [<- <-]. destruct (pt_dec a z) as [Q|N]; [rewrite P, P' by auto; auto|].
  destruct (L N) as [C B]. destruct (L' N) as [C' B']. apply (cons_unique _ _ _ C _ C'). intros r. rewrite B, B', E, (same_on _ _ S). reflexivity.
Qed.
End Impl.
Import Impl P_Geo.

(** Each input is cut at exactly the points of it at which something happens. *)
Theorem C83_where_lines_are_cut : forall {C} (line_of : C -> line) tie fuel (input : list C) ys, ci_collect line_of tie fuel input = Ok ys ->
  exists ysn, traced input ys ysn /\ forall i c, nth_error input i = Some c -> cut_at (map line_of input) (line_of c) (ending (crossings_of i ysn)).
Proof.
  intros C line_of tie fuel input ys E. destruct (Props_Sweep.run_of _ _ _ _ _ E) as (it & ln & ysn & R). destruct R as [rf_ln rf_ls rf_new rf_calls rf_collect rf_unique rf_length rf_traced rf_good rf_final].
  exists ysn. split; [auto|]. intros i c Ei. rewrite <- rf_ls, <- (rf_ln _ _ Ei). pose proof (Props_Sweep.Impl.nth_lt _ _ _ Ei) as Li.
  destruct (ends_ex (ln i)) as (a & z & En). exists a, z. split; auto. split.
  - intros ->. destruct (P_Spec.one_point ln _ ysn rf_final i z Li En) as (x & X1 & X2 & X3). rewrite X1. unfold ending. cbn [filter]. rewrite X3. cbn. rewrite X2. auto.
  - intros N. assert (L : lex_lt a z) by (destruct En as [En _]; apply lex_le_neq; auto).
    destruct (P_Spec.pieces ln _ ysn rf_good rf_final i a z Li En L) as [P1 P2]. split; auto.
    assert (Log : forall x, In x (crossings_of i ysn) <-> cr_cross x = i /\ exists p o, In (p, o) ysn /\ In x o).
    { intros x. unfold crossings_of. rewrite filter_In, Nat.eqb_eq, in_concat. split.
      - intros [(o & I & J) K]. split; auto. apply in_map_iff in I as ([p o'] & <- & I). exists p, o'. auto.
      - intros [K (p & o & I & J)]. split; auto. exists o. split; auto. apply in_map_iff. exists (p, o). auto. }
    assert (Y : forall p o, In (p, o) ysn -> event_point (map ln (seq 0 (List.length input))) p).
    { intros p o I. apply (P_Spec.yielded ln _ ysn rf_good rf_final). apply in_map_iff. exists (p, o). auto. }
    assert (Q2 : forall p q, In (Line p q) (ending (crossings_of i ysn)) -> event_point (map ln (seq 0 (List.length input))) q /\ on_line (ln i) q).
    { intros p q I. unfold ending in I. apply in_map_iff in I as (x & Q & I). apply filter_In in I as [I Lx]. apply Log in I as (Cx & v & o & I & J).
      destruct (P_Spec.sound ln _ ysn rf_good rf_final v o x I J) as (_ & _ & At & On). rewrite Cx in On. destruct (cr_left x); [discriminate|].
      rewrite Q in At. destruct At as [_ <-]. split; [apply (Y _ _ I)|auto]. }
    intros r. split.
    + intros (p & q & I & D). destruct D as [->| ->]; [|apply (Q2 p q I)].
      destruct (cons_start _ _ _ P1 p q I) as [->|(o & O)]; [|apply (Q2 o p O)].
      assert (Is : is_end_of (ln i) a) by (destruct En as [_ [[-> _]|[-> _]]]; unfold is_end_of; auto).
      split; [|destruct Is as [->| ->]; [apply on_seg_start|apply on_seg_end]]. left. exists (ln i). split; auto. apply in_map_iff. exists i. split; auto. apply in_seq. lia.
    + intros [Ev On]. apply P_Spec.V_event in Ev. apply P_Spec.geo_pts in On.
      destruct (P_Spec.hit ln _ ysn rf_good rf_final i r Li Ev On) as (o & I & x & J & Cx).
      destruct (P_Spec.sound ln _ ysn rf_good rf_final r o x I J) as (_ & _ & At & _).
      assert (K : In x (crossings_of i ysn)) by (apply Log; split; eauto).
      destruct (cr_left x) eqn:Lx.
      * assert (S : In (cr_line x) (starting (crossings_of i ysn))) by (unfold starting; apply in_map, filter_In; auto).
        assert (B : forall ss gs, Forall2 (P_Spec.begins (ln i)) ss gs -> forall s, In s ss -> exists g, In g gs /\ P_Spec.begins (ln i) s g).
        { intros ss gs F. induction F as [|s g ss gs B F IH]; intros s0 [<-|I0] || intros s0 []; [exists g; split; [left|]; auto|].
          destruct (IH s0 I0) as (g' & I' & B'). exists g'. split; [right|]; auto. }
        destruct (B _ _ P2 _ S) as (g & Ig & p & q & y & S1 & -> & _). rewrite S1 in At. destruct At as [_ ->]. exists p, q. auto.
      * assert (S : In (cr_line x) (ending (crossings_of i ysn))) by (unfold ending; apply in_map, filter_In; rewrite Lx; auto).
        destruct (cons_lines _ _ _ P1 _ S) as (p & q & Q & _). rewrite Q in At, S. destruct At as [_ ->]. exists p, q. auto.
Qed.

(** The order, the directions and the repetition of the inputs, the type they
    are wrapped in and the order of equal events change neither the points nor
    the pieces. *)
Theorem C83_same_lines : forall {C C'} (line_of : C -> line) (line_of' : C' -> line) tie tie' fuel fuel' (input : list C) (input' : list C') ys ys',
  ci_collect line_of tie fuel input = Ok ys -> ci_collect line_of' tie' fuel' input' = Ok ys' ->
  same_lines (map line_of input) (map line_of' input') ->
  map fst ys = map fst ys' /\
  exists ysn ysn', traced input ys ysn /\ traced input' ys' ysn' /\
    forall i c i' c', nth_error input i = Some c -> nth_error input' i' = Some c' -> same_line (line_of c) (line_of' c') ->
      ending (crossings_of i ysn) = ending (crossings_of i' ysn').
Proof.
  intros C C' line_of line_of' tie tie' fuel fuel' input input' ys ys' E E' S. split.
  - apply P_Spec.sorted_eq; [|eapply C20_strictly_increasing; eauto|eapply C20_strictly_increasing; eauto].
    intros p. rewrite (C21_points_exact _ _ _ _ _ E p), (C21_points_exact _ _ _ _ _ E' p). apply event_same; auto.
  - destruct (C83_where_lines_are_cut _ _ _ _ _ E) as (ysn & T & H). destruct (C83_where_lines_are_cut _ _ _ _ _ E') as (ysn' & T' & H').
    exists ysn, ysn'. split; auto. split; auto. intros i c i' c' I I' Q. apply (cut_unique _ _ _ _ _ _ Q (event_same _ _ S) (H i c I) (H' i' c' I')).
Qed.

(** More lines: no point is lost, and each line is cut finer. *)
Theorem C83_more_lines : forall {C C'} (line_of : C -> line) (line_of' : C' -> line) tie tie' fuel fuel' (input : list C) (input' : list C') ys ys',
  ci_collect line_of tie fuel input = Ok ys -> ci_collect line_of' tie' fuel' input' = Ok ys' ->
  some_lines (map line_of input) (map line_of' input') ->
  incl (map fst ys) (map fst ys') /\
  exists ysn ysn', traced input ys ysn /\ traced input' ys' ysn' /\
    forall i c i' c', nth_error input i = Some c -> nth_error input' i' = Some c' -> same_line (line_of c) (line_of' c') ->
      forall g', In g' (ending (crossings_of i' ysn')) -> exists g, In g (ending (crossings_of i ysn)) /\ forall r, on_piece g' r -> on_piece g r.
Proof.
  intros C C' line_of line_of' tie tie' fuel fuel' input input' ys ys' E E' S. split.
  - intros p. rewrite (C21_points_exact _ _ _ _ _ E p), (C21_points_exact _ _ _ _ _ E' p). apply event_mono; auto.
  - destruct (C83_where_lines_are_cut _ _ _ _ _ E) as (ysn & T & H). destruct (C83_where_lines_are_cut _ _ _ _ _ E') as (ysn' & T' & H').
    exists ysn, ysn'. split; auto. split; auto. intros i c i' c' I I' Q g' G'.
    destruct (H i c I) as (a & z & En & P & L). destruct (H' i' c' I') as (a' & z' & En' & P' & L'). pose proof (same_ends _ _ Q _ _ En) as En2.
    destruct (ends_unique _ _ _ _ _ En2 En') as [<- <-]. destruct (pt_dec a z) as [Z|N]; [rewrite P' in G' by auto; rewrite P by auto; exists g'; auto|].
    destruct (L N) as [Cs B]. destruct (L' N) as [Cs' B']. clear L L' P P'.
    destruct (cons_lines _ _ _ Cs' _ G') as (p & q & -> & Lpq & Lap & Lqz).
    assert (F : forall b gs, consecutive b z gs -> lex_le b p -> lex_lt p z -> exists s t, In (Line s t) gs /\ lex_le s p /\ lex_lt p t).
    { intros b gs C0. induction C0 as [b|b b' z gs Lb C0 IH]; intros L1 L2; [exfalso; lord|].
      destruct (lex_le_dec b' p) as [K|K]; [|exists b, b'; split; [left|]; auto]. destruct IH as (s & t & Is & D); auto. exists s, t. split; [right|]; auto. }
    destruct (F a _ Cs Lap) as (s & t & Is & L1 & L2); [lord|]. exists (Line s t). split; auto.
    assert (Bs : break_of (ending (crossings_of i ysn)) s) by (exists s, t; auto). assert (Bt : break_of (ending (crossings_of i ysn)) t) by (exists s, t; auto).
    apply B in Bs as [_ Os]. pose proof (proj1 (B t) Bt) as [Et Ot].
    assert (Bt' : break_of (ending (crossings_of i' ysn')) t) by (apply B'; split; [apply (event_mono _ _ S); auto|apply (same_on _ _ Q); auto]).
    assert (Op : on_line (line_of c) p) by (apply (same_on _ _ Q), B'; exists p, q; auto). assert (Oq : on_line (line_of c) q) by (apply (same_on _ _ Q), B'; exists p, q; auto).
    assert (Lqt : lex_le q t).
    { assert (K : forall b gs, consecutive b z gs -> In (Line p q) gs -> forall x, break_of gs x -> lex_lt p x -> lex_le q x).
      { clear - Lpq. intros b gs C0. induction C0 as [b|b b' z gs Lb C0 IH]; intros I x Bx Lx; [destruct I|].
        destruct I as [Z|I].
        - injection Z as -> ->. destruct Bx as (u & v & [Z|I] & D); [injection Z as <- <-; destruct D as [->| ->]; [exfalso|]; lord|]. apply (cons_bound _ _ _ C0). exists u, v. auto.
        - apply IH; auto. destruct Bx as (u & v & [Z|J] & D); [|exists u, v; auto]. injection Z as <- <-. pose proof (cons_bound _ _ _ C0 p (ex_intro _ p (ex_intro _ q (conj I (or_introl eq_refl))))). exfalso. destruct D as [->| ->]; lord. }
      apply (K _ _ Cs' G' t Bt' L2). }
    intros r Or. cbn [on_piece] in *. destruct (on_seg_between _ _ _ Lpq Or) as [M1 M2].
    apply (P_Tile.on_seg_mid (l_start (line_of c)) (l_end (line_of c)) s t r Os Ot); [|lord|lord|lord]. apply (P_Tile.on_seg_convex _ _ p q r Op Oq Or).
Qed.

Module Count.
Definition meet (l l' : line) : list pt := match intersect_line (lop_of_line l) (lop_of_line l') with Ok (Some (Point r)) => [r] | _ => [] end.
Lemma meet_one : forall l l', List.length (meet l l') <= 1.
Proof. intros l l'. unfold meet. destruct (intersect_line _ _) as [[[x|x y]|]| |]; simpl; lia. Qed.
Lemma meet_in : forall l l' r, only_common l l' r -> In r (meet l l') \/ is_end_of l' r.
Proof.
  intros l l' r U. destruct (P_LineOrPoint.lop_of_line_spec l) as [V W]. destruct (P_LineOrPoint.lop_of_line_spec l') as [V' W'].
  pose proof (Props_Geo.C17_intersect_line_is_exact _ _ V V') as H. unfold meet.
  assert (K : forall x, P_LineOrPoint.pts (lop_of_line l) x /\ P_LineOrPoint.pts (lop_of_line l') x <-> x = r) by (intros x; rewrite W, W'; apply U).
  destruct (intersect_line _ _) as [[[x|x y]|]| |].
  - destruct H as [_ H]. left. left. symmetry. apply H, K. auto.
  - destruct H as (_ & Lt & H). exfalso. assert (Ax : x = r) by (apply K, H, on_seg_start). assert (Ay : y = r) by (apply K, H, on_seg_end). subst. exact (lex_irrefl _ Lt).
  - destruct H as [_ H]. exfalso. apply (H r), K. auto.
  - right. destruct (K r) as [_ K']. destruct (K' eq_refl) as [_ R]. destruct (lop_of_line l') as [p|p q] eqn:G; [|discriminate]. simpl in R. subst p. left.
    symmetry. apply (W' (l_start l')). apply on_seg_start.
  - destruct H.
Qed.
Fixpoint meets (ls : list line) : list pt := match ls with [] => [] | l :: ls => flat_map (meet l) ls ++ meets ls end.
Definition happenings (ls : list line) : list pt := flat_map (fun l => [l_start l; l_end l]) ls ++ meets ls.
Lemma flat_length : forall {X Y} (f : X -> list Y) l k, (forall x, List.length (f x) <= k) -> List.length (flat_map f l) <= k * List.length l.
Proof. intros X Y f l k B. induction l as [|x l IH]; [simpl; lia|]. cbn [flat_map List.length]. rewrite app_length. specialize (B x). nia. Qed.
Lemma meets_length : forall ls, 2 * List.length (meets ls) <= List.length ls * (List.length ls - 1).
Proof.
  induction ls as [|l ls IH]; [simpl; lia|]. cbn [meets List.length]. rewrite app_length. pose proof (flat_length (meet l) ls 1 (meet_one l)). destruct ls as [|l' ls]; [simpl in *; lia|]. cbn [List.length] in *. nia.
Qed.
Lemma event_in : forall ls r, event_point ls r -> In r (happenings ls).
Proof.
  assert (A : forall ls l r, In l ls -> is_end_of l r -> In r (happenings ls)).
  { intros ls l r I E. apply in_or_app. left. apply in_flat_map. exists l. split; auto. destruct E as [->| ->]; simpl; auto. }
  intros ls r [(l & I & E)|(l & l' & I & I' & U)]; [eapply A; eauto|].
  assert (B : (exists l0, In l0 ls /\ is_end_of l0 r) \/ In r (meets ls)); [|destruct B as [(l0 & I0 & E0)|B]; [eapply A; eauto|apply in_or_app; auto]].
  clear A. induction ls as [|x ls IH]; [destruct I|]. assert (U' : only_common l' l r) by (intros y; rewrite <- (U y); tauto). destruct I as [->|I], I' as [->|I'].
  - left. exists l'. split; [left; auto|]. destruct (proj2 (U r) eq_refl) as [O _]. assert (Z : l_start l' = r) by (apply U; split; apply on_seg_start). left; auto.
  - destruct (meet_in _ _ _ U) as [M|M]; [right; cbn [meets]; apply in_or_app; left; apply in_flat_map; eauto|left; exists l'; split; [right|]; auto].
  - destruct (meet_in _ _ _ U') as [M|M]; [right; cbn [meets]; apply in_or_app; left; apply in_flat_map; eauto|left; exists l; split; [right|]; auto].
  - destruct (IH I I') as [(l0 & I0 & E0)|M]; [left; exists l0; split; [right|]; auto|right; cbn [meets]; apply in_or_app; auto].
Qed.
End Count.

(** [n] lines give at most their ends and one point for each pair. *)
Theorem C83_number_of_points : forall {C} (line_of : C -> line) tie fuel (input : list C) ys, ci_collect line_of tie fuel input = Ok ys ->
  List.length ys <= 2 * List.length input + List.length input * (List.length input - 1) / 2.
Proof.
  intros C line_of tie fuel input ys E. pose proof (C20_strictly_increasing _ _ _ _ _ E) as S. apply P_Tile.ssorted_NoDup in S.
  rewrite <- (map_length fst ys). apply Nat.le_trans with (List.length (Count.happenings (map line_of input))).
  - apply NoDup_incl_length; auto. intros p I. apply Count.event_in. apply (C21_points_exact _ _ _ _ _ E p). auto.
  - unfold Count.happenings. rewrite app_length. pose proof (Count.meets_length (map line_of input)) as M.
    pose proof (Count.flat_length (fun l => [l_start l; l_end l]) (map line_of input) 2 (fun _ => le_n 2)) as N. rewrite map_length in *.
    set (n := List.length input) in *. clearbody n. set (m := List.length (Count.meets _)) in *. clearbody m. assert (m <= n * (n - 1) / 2) by (apply Nat.div_le_lower_bound; lia). lia.
Qed.

(** ** Example: three lines through each other, and the same lines in another
    order, turned round and repeated. *)
Require Import ZArith.
From Verif Require Import Props_Bugs.
Definition three : list named := [ln 0 0 0 4 4; ln 1 0 4 4 0; ln 2 0 3 4 3]%Z.
Definition three' : list line := [mkLine (P 4 3) (P 0 3); mkLine (P 0 0) (P 4 4); mkLine (P 4 0) (P 0 4); mkLine (P 4 4) (P 0 0)]%Z.
Example C83_example : same_lines (map geom_of three) (map (fun l => l) three') /\
  (exists ys, ci_collect geom_of (fun _ => 0) 100 three = Ok ys /\ List.length ys = 9 /\
     nth_error (map (fun y => xy (fst y)) ys) 4 = Some (xy (P 2 2))) /\
  (exists ys', ci_collect (fun l => l) (fun _ => 1) 100 three' = Ok ys' /\ List.length ys' = 9).
Proof.
  split; [|split].
  - split; intros l I; repeat (destruct I as [<-|I]); try destruct I; cbn [map geom_of snd three three' ln].
    + eexists. split; [right; left; reflexivity|left; split; reflexivity].
    + eexists. split; [right; right; left; reflexivity|right; split; reflexivity].
    + eexists. split; [left; reflexivity|right; split; reflexivity].
    + eexists. split; [right; right; left; reflexivity|right; split; reflexivity].
    + eexists. split; [left; reflexivity|left; split; reflexivity].
    + eexists. split; [right; left; reflexivity|right; split; reflexivity].
    + eexists. split; [left; reflexivity|right; split; reflexivity].
  - run (ci_collect geom_of (fun _ => 0) 100 three) (fun ys : list (pt * list (crossing named)) => (List.length ys, nth_error (map (fun y => xy (fst y)) ys) 4)) ys E V.
    exists ys. split; [exact E|]. injection V as V1 V2. split; auto.
  - run (ci_collect (fun l => l) (fun _ => 1) 100 three') (fun ys : list (pt * list (crossing line)) => List.length ys) ys E V.
    exists ys. split; [exact E|]. exact V.
Qed.
