(** Valid collections of polygons: what is on the two sides of an edge, which rings
    are around a vertex, and the boundary of the region. *)
Require Import List Bool Arith Lia Permutation.
From Verif Require Import Base Scalar M_Events M_Geo M_LineOrPoint M_Rings M_MonoPoly M_Op.
From Verif Require P_Rings Props_Op3 P_OpPoly P_LamSpec.
From Verif Require Import S_Geo P_Geo S_Boundary P_Boundary S_Mono P_Mono S_Rings S_Op Props_Op2 S_Laminar S_Chains P_LamGeo S_Multi S_Written P_Cycles P_Layout Props_Area.
Import Datatypes.
Import ListNotations.
Local Open Scope list_scope.
Local Open Scope Qc_scope.

(** ** Crossing one edge *)
Lemma half_still : forall a b q q', cx q = cx q' -> cy q' < cy q -> cx a <= cx q -> cx q < cx b -> (forall r, on_seg q' q r -> ~ on_seg a b r) ->
  qltb 0 (cross a b q) = qltb 0 (cross a b q').
Proof.
  intros a b q q' X Y L R N. destruct (qltb 0 (cross a b q)) eqn:E, (qltb 0 (cross a b q')) eqn:E'; auto; exfalso.
  - apply qltb_iff in E. assert (E2 : cross a b q' <= 0) by (apply Qcnot_lt_le; intros Z; apply qltb_iff in Z; congruence). clear E'.
    set (K := cx b - cx a). assert (PK : 0 < K) by (unfold K; clear - L R; qcl). assert (NK : K <> 0) by (intros Z; rewrite Z in PK; clear - PK; qcl).
    set (t := (cx q - cx a) / K). assert (T : t * K = cx q - cx a) by (unfold t; field; auto).
    assert (T0 : 0 <= t) by (assert (0 <= t * K) by (rewrite T; clear - L; qcl); clearbody t K; clear - H PK; qc).
    assert (T1 : t <= 1) by (assert (t * K <= K) by (rewrite T; unfold K; clear - R; qcl); clearbody t K; clear - H PK; qc).
    set (r := mkC (cx q) (cy a + t * (cy b - cy a))).
    assert (C : forall z, cx z = cx q -> cross a b z = K * (cy z - cy r)).
    { intros z Z. unfold cross, r. cbn [cy]. rewrite Z, <- T. fold K. ring. }
    apply (N r).
    + rewrite (C q eq_refl) in E. rewrite (C q' (eq_sym X)) in E2. assert (Lq : lex_lt q' q) by (right; auto). apply on_seg_iff; auto. split; [unfold cross, r; cbn [cx cy]; rewrite X; ring|].
      assert (A1 : cy r < cy q) by (set (u := cy r) in *; clearbody u K; clear - E PK; qc). assert (A2 : cy q' <= cy r) by (set (u := cy r) in *; clearbody u K; clear - E2 PK; qc).
      split; [|left; right; auto]. destruct (Qc_trichotomy (cy q') (cy r)) as [[Z|Z]|Z]; [left; right; unfold r; cbn [cx]; auto|right; apply pt_eq; unfold r; cbn [cx]; auto|exfalso; clear - A2 Z; qcl].
    + exists t. split; auto. split; auto. unfold r. cbn [cx cy]. split; auto. fold K. rewrite T. ring.
  - apply qltb_iff in E'. assert (E2 : cross a b q <= 0) by (apply Qcnot_lt_le; intros Z; apply qltb_iff in Z; congruence).
    assert (D : cross a b q - cross a b q' = (cx b - cx a) * (cy q - cy q')) by (unfold cross; rewrite X; ring). assert (0 < cx b - cx a) by (clear - L R; qcl). assert (0 < cy q - cy q') by (clear - Y; qcl).
    set (u := cx b - cx a) in *. set (v := cy q - cy q') in *. set (c1 := cross a b q) in *. set (c2 := cross a b q') in *. clearbody u v c1 c2. clear - D H H0 E' E2. qc.
Qed.
Lemma still : forall a b q q', cx q = cx q' -> cy q' < cy q -> (forall r, on_seg q' q r -> ~ on_seg a b r) -> ray_crosses q (a, b) = ray_crosses q' (a, b).
Proof.
  intros a b q q' X Y N. unfold ray_crosses. rewrite <- X. destruct (qleb (cx a) (cx q) && qltb (cx q) (cx b)) eqn:B1.
  - apply andb_true_iff in B1 as [B1 B2]. apply qleb_iff in B1. apply qltb_iff in B2. apply half_still; auto.
  - destruct (qleb (cx b) (cx q) && qltb (cx q) (cx a)) eqn:B2; auto. apply andb_true_iff in B2 as [B2 B3]. apply qleb_iff in B2. apply qltb_iff in B3. apply half_still; auto.
    intros r O O'. apply (N r O), on_seg_sym; auto.
Qed.
Lemma flips : forall a b m q q', cx a <> cx b -> strictly_inside a b m -> cx q = cx m -> cx q' = cx m -> cy m < cy q -> cy q' < cy m -> ray_crosses q (a, b) = negb (ray_crosses q' (a, b)).
Proof.
  assert (G : forall a b m q q', cx a < cx b -> strictly_inside a b m -> cx q = cx m -> cx q' = cx m -> cy m < cy q -> cy q' < cy m -> ray_crosses q (a, b) = negb (ray_crosses q' (a, b))).
  { intros a b m q q' L (O & Na & Nb) X X' Y Y'. pose proof (on_seg_cross _ _ _ O) as Z. destruct (on_seg_x a b m) as [A1 A2]; auto; [apply Qclt_le_weak; auto|].
    assert (A3 : cx m < cx b).
    { destruct (Qc_trichotomy (cx m) (cx b)) as [[H|H]|H]; auto; [|exfalso; clear - A2 H; qcl]. exfalso. apply Nb. apply pt_eq; auto. unfold cross in Z. rewrite H in Z.
      assert (K : (cx b - cx a) * (cy m - cy b) = 0) by (transitivity ((cx b - cx a) * (cy m - cy a) - (cy b - cy a) * (cx b - cx a)); [ring|auto]). apply Qc_mul_0 in K as [K|K]; [exfalso; clear - L K; qcl|clear - K; qcl]. }
    assert (C : forall z, cx z = cx m -> cross a b z = (cx b - cx a) * (cy z - cy m)).
    { intros z Hz. transitivity (cross a b z - cross a b m); [rewrite Z; ring|unfold cross; rewrite Hz; ring]. }
    assert (P : 0 < cx b - cx a) by (clear - L; qcl).
    unfold ray_crosses. rewrite X, X'. replace (qleb (cx a) (cx m)) with true by (symmetry; apply qleb_iff; auto). replace (qltb (cx m) (cx b)) with true by (symmetry; apply qltb_iff; auto). cbn [andb].
    replace (qltb 0 (cross a b q)) with true; [replace (qltb 0 (cross a b q')) with false; [reflexivity|]|]; symmetry.
    - destruct (qltb 0 (cross a b q')) eqn:E; auto. exfalso. apply qltb_iff in E. rewrite (C q' X') in E. set (u := cx b - cx a) in *. assert (V : cy q' - cy m < 0) by (clear - Y'; qcl). set (v := cy q' - cy m) in *. clearbody u v. clear - E P V. qc.
    - apply qltb_iff. rewrite (C q X). set (u := cx b - cx a) in *. assert (V : 0 < cy q - cy m) by (clear - Y; qcl). set (v := cy q - cy m) in *. clearbody u v. clear - P V. qc. }
  intros a b m q q' N S X X' Y Y'. destruct (Qc_trichotomy (cx a) (cx b)) as [[H|H]|H]; [apply (G a b m); auto|contradiction|].
  rewrite (P_OpPoly.ray_sym q), (P_OpPoly.ray_sym q'). apply (G b a m); auto. destruct S as (O & A & B). split; auto. apply on_seg_sym; auto.
Qed.

(** ** Rings *)
Lemma ring_all : forall (f : pt -> bool) r, (forall a b, In (a, b) (edges r) -> f a = f b) -> forall v w, In v r -> In w r -> f v = f w.
Proof.
  intros f r H. assert (G : forall x l, (forall a b, In (a, b) (edges (x :: l)) -> f a = f b) -> forall v, In v (x :: l) -> f v = f x).
  { intros x l. revert x. induction l as [|y l IH]; intros x Hx v [<-|I]; auto; try (destruct I; fail). rewrite (IH y); auto; [symmetry; apply Hx; left; auto|]. intros a b J. apply Hx. right; auto. }
  destruct r as [|x l]; [intros v w []|]. intros v w V W. rewrite (G x l H v V), (G x l H w W). reflexivity.
Qed.
Lemma inside_ring : forall s q, inside [mkPolygon s []] q = ring_in s q.
Proof. intros s q. unfold inside, ring_in, all_edges, rings_in. cbn [flat_map pg_exterior pg_interiors app]. rewrite app_nil_r. reflexivity. Qed.
Lemma inside_rings : forall p q, inside [p] q = odd (map (fun s => ring_in s q) (rings_of_polygon p)).
Proof. intros p q. unfold inside, all_edges, rings_in. cbn [flat_map]. rewrite app_nil_r, P_OpPoly.odd_flat. reflexivity. Qed.
Lemma inside_polygons : forall M q, inside M q = odd (map (fun p => inside [p] q) M).
Proof.
  intros M q. induction M as [|p M IH]; [reflexivity|]. unfold inside, all_edges, rings_in in *. cbn [flat_map map]. rewrite flat_map_app, map_app, P_OpLab.odd_app, IH. cbn [flat_map]. rewrite app_nil_r. reflexivity.
Qed.
Lemma in_edges_l : forall l a b, In (a, b) (edges l) -> In a l /\ In b l.
Proof. intros l a b I. apply edges_in in I as (x & y & ->). split; apply in_or_app; right; [left|right; left]; auto. Qed.

Section Valid.
Variable M : list polygon.
Hypothesis VM : valid_multi M.

Lemma m_proper : forall r, In r (rings_in M) -> proper_ring r.
Proof. intros r I. apply in_rings in I as (p & I & J). apply (vp_rings _ (vm_each _ VM p I)). unfold rings_in. cbn [flat_map]. rewrite app_nil_r. exact J. Qed.
Lemma m_winding : forall r, In r (rings_in M) -> ls_winding_order r <> None.
Proof.
  intros r I. apply in_rings in I as (p & I & J). apply (simple_area r). apply (ring_valid p); [apply (vm_each _ VM); auto|]. unfold rings_in. cbn [flat_map]. rewrite app_nil_r. exact J.
Qed.
Lemma m_closed : all_closed M.
Proof. intros r I. apply P_LamSpec.proper_closed, m_proper, I. Qed.
Lemma m_edge : forall e, In e (all_edges M) <-> exists r, In r (rings_in M) /\ In e (edges r).
Proof. intros e. unfold all_edges. rewrite in_flat_map. reflexivity. Qed.
Lemma m_neq : forall a b, In (a, b) (all_edges M) -> a <> b.
Proof. intros a b I. apply m_edge in I as (r & I & J). apply (P_LamSpec.proper_neq r); auto. apply m_proper; auto. Qed.
Lemma m_ends : forall e e' x, In e (all_edges M) -> In e' (all_edges M) -> e <> e' -> on_seg (fst e) (snd e) x -> on_seg (fst e') (snd e') x -> (x = fst e \/ x = snd e) /\ (x = fst e' \/ x = snd e').
Proof.
  intros e e' x I I' N O O'. destruct (ForallOrdPairs_In (vm_edges _ VM) _ _ I I') as [Q|[Q|Q]]; [contradiction|apply Q; auto|]. destruct (Q x O' O). auto.
Qed.
Lemma m_proper_edges : forall e, In e (proper_edges M) <-> In e (all_edges M).
Proof.
  intros e. unfold proper_edges. rewrite in_flat_map, m_edge. split; intros (r & I & J); exists r; split; auto; pose proof (m_proper r I) as P; unfold ring_edges in *;
    (assert (L : (List.length r <=? 3)%nat = false) by (apply Nat.leb_gt; destruct P as (p & l & -> & _ & L); cbn; rewrite app_length; cbn; lia)); rewrite L in *.
  - apply filter_In in J. apply J.
  - apply filter_In. split; auto. destruct e as [a b]. apply negb_true_iff. destruct (pt_eqb a b) eqn:E; auto. exfalso. apply P_Rings.pt_eqb_iff in E. apply (P_LamSpec.proper_neq r a b); auto.
Qed.
(** Different rings do not meet. *)
Lemma m_apart : forall r s e e' x, In r (rings_in M) -> In s (rings_in M) -> r <> s -> In e (edges r) -> In e' (edges s) -> on_seg (fst e) (snd e) x -> on_seg (fst e') (snd e') x -> False.
Proof.
  intros r s e e' x I J N Ie Ie' O O'. destruct e as [a b], e' as [c d]. cbn [fst snd] in *. pose proof (in_edges_l _ _ _ Ie) as [A B]. pose proof (in_edges_l _ _ _ Ie') as [C D].
  assert (Ne : (a, b) <> (c, d)) by (intros Q; injection Q as -> ->; apply N; apply (one_in (rings_in M) r s c (vm_apart _ VM)); auto).
  destruct (m_ends (a, b) (c, d) x) as [E1 E2]; auto; [apply m_edge; eauto|apply m_edge; eauto|]. cbn [fst snd] in *. apply N. apply (one_in (rings_in M) r s x (vm_apart _ VM)); auto; [destruct E1; subst; auto|destruct E2; subst; auto].
Qed.
Lemma m_const : forall r s v w, In r (rings_in M) -> In s (rings_in M) -> r <> s -> In v r -> In w r -> ring_in s v = ring_in s w.
Proof.
  intros r s v w I J N V W. apply (ring_all (ring_in s) r); auto. intros a b K. rewrite <- !inside_ring. apply C48_inside_is_constant_off_the_edges.
  - intros t [<-|[]]. apply m_closed; auto.
  - intros x c d O Ic O'. unfold all_edges, rings_in in Ic. cbn [flat_map pg_exterior pg_interiors app] in Ic. rewrite app_nil_r in Ic. apply (m_apart r s (a, b) (c, d) x); auto.
Qed.

(** Above and below an inner point of an edge that is not vertical. *)
Lemma m_alone : forall a b m l1 l2, all_edges M = l1 ++ (a, b) :: l2 -> strictly_inside a b m -> forall c d, In (c, d) (l1 ++ l2) -> ~ on_seg c d m.
Proof.
  intros a b m l1 l2 Q (O & Na & Nb) c d I O'. pose proof (vm_edges _ VM) as F. rewrite Q in F.
  destruct (fop_app _ _ _ F) as (_ & F2 & F3). inversion F2 as [|? ? F4 F5]; subst. rewrite Forall_forall in F4. apply in_app_iff in I as [I|I].
  - destruct (F3 (c, d) (a, b) I (or_introl eq_refl) m O' O) as [_ [E|E]]; cbn in E; auto.
  - destruct (F4 (c, d) I m O O') as [[E|E] _]; cbn in E; auto.
Qed.
Lemma m_only : forall a b m c d, In (a, b) (all_edges M) -> strictly_inside a b m -> In (c, d) (all_edges M) -> on_seg c d m -> (c, d) = (a, b).
Proof.
  intros a b m c d I S J O. apply in_split in I as (l1 & l2 & Q). rewrite Q in J. apply in_app_iff in J as [J|[J|J]]; auto; exfalso; apply (m_alone a b m l1 l2 Q S c d); auto; apply in_app_iff; auto.
Qed.
Lemma m_sides : forall a b m, In (a, b) (all_edges M) -> cx a <> cx b -> strictly_inside a b m ->
  exists q q', visible (all_edges M) m q /\ visible (all_edges M) m q' /\ cx q = cx m /\ cx q' = cx m /\ cy m < cy q /\ cy q' < cy m /\ inside M q = negb (inside M q').
Proof.
  intros a b m I X S. assert (W : forall k : Qc, k <> 0 -> exists t, 0 < t /\ visible (all_edges M) m (shift m (mkC 0 k) t)).
  { intros k K. apply (clear_way (all_edges M)); [intros c d; apply m_neq|]. intros c d J O Z. assert (Q : (c, d) = (a, b)) by (apply (m_only a b m); auto). injection Q as -> ->.
    rewrite cross_shift, (on_seg_cross a b m) in Z by auto. cbn [cx cy] in Z. assert (Z' : (cx b - cx a) * k = 0) by (transitivity (0 + ((cx b - cx a) * k - (cy b - cy a) * 0) * 1); [ring|auto]).
    apply Qc_mul_0 in Z' as [Z'|Z']; auto. apply X. clear - Z'. qcl. }
  destruct (W 1) as (t & T & V); [discriminate|]. destruct (W (- (1))) as (t' & T' & V'); [discriminate|]. set (q := shift m (mkC 0 1) t) in *. set (q' := shift m (mkC 0 (- (1))) t') in *.
  assert (Xq : cx q = cx m) by (unfold q, shift; cbn [cx cy]; ring). assert (Xq' : cx q' = cx m) by (unfold q', shift; cbn [cx cy]; ring).
  assert (Yq : cy m < cy q) by (unfold q, shift; cbn [cx cy]; clear - T; qcl). assert (Yq' : cy q' < cy m) by (unfold q', shift; cbn [cx cy]; clear - T'; qcl).
  exists q, q'. do 6 (split; auto). apply in_split in I as (l1 & l2 & Q). unfold inside. rewrite Q, !map_app. cbn [map]. rewrite !P_OpLab.odd_app. 
  assert (St : forall c d, In (c, d) (l1 ++ l2) -> ray_crosses q (c, d) = ray_crosses q' (c, d)).
  { intros c d J. apply still; [congruence|clear - Yq Yq'; qcl|]. intros r O O'. assert (Lq : lex_lt q' q) by (right; split; [congruence|clear - Yq Yq'; qcl]).
    assert (J' : In (c, d) (all_edges M)) by (rewrite Q; apply in_app_iff in J as [J|J]; apply in_app_iff; [left|right; right]; auto).
    assert (Xr : cx r = cx m). { destruct O as (u & _ & _ & Ux & _). rewrite Ux, Xq, Xq'. ring. }
    apply on_seg_iff in O as (_ & O1 & O2); auto. destruct (Qc_trichotomy (cy r) (cy m)) as [[C|C]|C].
    - apply (V' r) with c d; auto; [|intros ->; revert C; apply Qclt_not_eq_refl || (intros C; clear - C; qcl)]. apply on_seg_sym. apply on_seg_iff; [right; auto|]. split; [unfold cross; rewrite Xr, Xq'; ring|]. split; auto. left; right; auto.
    - assert (r = m) by (apply pt_eq; auto). subst r. apply (m_alone a b m l1 l2 Q S c d); auto.
    - apply (V r) with c d; auto; [|intros ->; clear - C; qcl]. apply on_seg_iff; [right; auto|]. split; [unfold cross; rewrite Xr, Xq; ring|]. split; auto. left; right; auto. }
  rewrite (P_OpLab.odd_ext (ray_crosses q) (ray_crosses q') l1) by (intros [c d] J; apply St, in_app_iff; auto).
  change (ray_crosses q (a, b) :: map (ray_crosses q) l2) with ([ray_crosses q (a, b)] ++ map (ray_crosses q) l2). change (ray_crosses q' (a, b) :: map (ray_crosses q') l2) with ([ray_crosses q' (a, b)] ++ map (ray_crosses q') l2).
  rewrite !P_OpLab.odd_app. rewrite (P_OpLab.odd_ext (ray_crosses q) (ray_crosses q') l2) by (intros [c d] J; apply St, in_app_iff; auto).
  match goal with |- context [odd [ray_crosses q ?e]] => replace (ray_crosses q e) with (negb (ray_crosses q' e)) by (symmetry; exact (flips a b m q q' X S Xq Xq' Yq Yq')) end.
  match goal with |- context [odd [ray_crosses q' ?e]] => destruct (odd (map (ray_crosses q') l1)), (odd (map (ray_crosses q') l2)), (ray_crosses q' e); reflexivity end.
Qed.
Lemma m_flat : forall r, In r (rings_in M) -> exists a b, In (a, b) (edges r) /\ cx a <> cx b.
Proof.
  intros r I. pose proof (m_winding r I) as W. destruct (winding_least r (m_proper r I)) as (a & u & b & E1 & E2 & _ & Q). rewrite Q in W.
  destruct (Qc_eq_dec (cx a) (cx u)) as [A|A]; [|eauto]. destruct (Qc_eq_dec (cx u) (cx b)) as [B|B]; [|eauto]. exfalso.
  assert (Z : cross a u b = 0) by (unfold cross; rewrite A, B; ring). destruct (orient2d_spec a u b) as [L|L|L]; try (rewrite Z in L; clear - L; qcl). apply W; reflexivity.
Qed.
Lemma middle : forall a b : pt, cx a <> cx b -> exists m, strictly_inside a b m.
Proof.
  intros a b N. exists (mkC ((cx a + cx b) / (1 + 1)) ((cy a + cy b) / (1 + 1))). split; [|split].
  - exists (1 / (1 + 1)). split; [discriminate|]. split; [discriminate|]. cbn [cx cy]. split; field; discriminate.
  - intros Q. apply (f_equal cx) in Q. cbn [cx] in Q. apply N. assert (Z : cx a + cx b = cx a * (1 + 1)) by (rewrite <- Q at 2; field; discriminate). clear - Z. qcl.
  - intros Q. apply (f_equal cx) in Q. cbn [cx] in Q. apply N. assert (Z : cx a + cx b = cx b * (1 + 1)) by (rewrite <- Q at 2; field; discriminate). clear - Z. qcl.
Qed.
(** A vertex of a polygon is in no other polygon. *)
Lemma m_other : forall p p' r v, In p M -> In p' M -> p <> p' -> In r (rings_of_polygon p) -> In v r -> inside [p'] v = false.
Proof.
  intros p p' r v I I' N R V. assert (Ir : In r (rings_in M)) by (apply in_rings; eauto).
  assert (Far : forall s, In s (rings_of_polygon p') -> In s (rings_in M) /\ r <> s).
  { intros s J. split; [apply in_rings; eauto|]. intros ->. apply N. apply (one_polygon M p p' s s v (vm_apart _ VM)); auto. }
  destruct (m_flat r Ir) as (a & b & E & X). destruct (middle a b X) as (m & S). assert (Ea : In (a, b) (all_edges M)) by (apply m_edge; eauto).
  destruct (m_sides a b m Ea X S) as (q & q' & Vq & Vq' & _ & _ & _ & _ & D).
  assert (Cp : all_closed [p']) by (intros s J; unfold rings_in in J; cbn [flat_map] in J; rewrite app_nil_r in J; apply m_closed; apply Far; auto).
  assert (Sub : forall c d, In (c, d) (all_edges [p']) -> exists s, In s (rings_of_polygon p') /\ In (c, d) (edges s)).
  { intros c d J. unfold all_edges, rings_in in J. cbn [flat_map] in J. rewrite app_nil_r in J. apply in_flat_map in J. exact J. }
  assert (Go : forall z, visible (all_edges M) m z -> inside [p'] m = inside [p'] z).
  { intros z Vz. apply C48_inside_is_constant_off_the_edges; auto. intros x c d O J O'. destruct (Sub c d J) as (s & Is & Js). destruct (Far s Is) as [Is' Ns]. destruct (pt_dec x m) as [->|Nx].
    - apply (m_apart r s (a, b) (c, d) m); auto. apply S.
    - apply (Vz x O Nx c d); auto. apply m_edge; eauto. }
  assert (Am : inside [p'] a = inside [p'] m).
  { apply C48_inside_is_constant_off_the_edges; auto. intros x c d O J O'. destruct (Sub c d J) as (s & Is & Js). destruct (Far s Is) as [Is' Ns]. apply (m_apart r s (a, b) (c, d) x); auto. cbn [fst snd].
    eapply inner_on; [apply on_seg_start|apply S|exact O]. }
  assert (Va : inside [p'] v = inside [p'] a).
  { rewrite !inside_rings. apply P_OpLab.odd_ext. intros s J. destruct (Far s J). apply (m_const r s); auto. apply (in_edges_l _ _ _ E). }
  assert (K : forall z, inside M z = false -> inside [p'] z = false).
  { intros z Z. rewrite inside_polygons in Z. pose proof (vm_once _ VM z) as L. destruct (inside [p'] z) eqn:B; auto. exfalso. revert Z L. apply in_split in I' as (l1 & l2 & ->). rewrite map_app, filter_app, app_length. cbn [map filter]. rewrite B. cbn [List.length].
    intros Z L. assert (O : forall l, List.length (filter (fun p => inside [p] z) l) = 0%nat -> odd (map (fun p => inside [p] z) l) = false).
    { intros l Q. apply P_OpLab.odd_none. intros x Jx. destruct (inside [x] z) eqn:Y; auto. exfalso. assert (In x (filter (fun p => inside [p] z) l)) by (apply filter_In; auto). destruct (filter (fun p => inside [p] z) l); [auto|discriminate]. }
    change (true :: map (fun p => inside [p] z) l2) with ([true] ++ map (fun p => inside [p] z) l2) in Z. rewrite !P_OpLab.odd_app, (O l1), (O l2) in Z by lia. discriminate. }
  rewrite Va, Am. destruct (inside M q') eqn:E'; [rewrite (Go q Vq)|rewrite (Go q' Vq')]; apply K; auto.
Qed.
End Valid.

(** Being an exterior or a hole can be seen from the parity at a vertex. *)
Lemma m_parity : forall M p v, valid_multi M -> In p M -> (exists r, In r (rings_of_polygon p) /\ In v r) -> inside M v = inside [p] v.
Proof.
  intros M p v VM I (r & R & V). rewrite inside_polygons. destruct (in_split _ _ I) as (l1 & l2 & Q). rewrite Q, map_app. cbn [map].
  assert (D : forall p', In p' (l1 ++ l2) -> inside [p'] v = false).
  { intros p' J. assert (J' : In p' M) by (rewrite Q; apply in_app_iff in J as [J|J]; apply in_app_iff; [left|right; right]; auto). apply (m_other M VM p p' r v); auto.
    intros <-. pose proof (vm_apart _ VM) as F. rewrite Q in F. replace (rings_in (l1 ++ p :: l2)) with (rings_in l1 ++ rings_of_polygon p ++ rings_in l2) in F by (unfold rings_in; rewrite flat_map_app; reflexivity).
    destruct (fop_app _ _ _ F) as (_ & F2 & F3). destruct (fop_app _ _ _ F2) as (_ & _ & F4). apply in_app_iff in J as [J|J].
    - apply (F3 r r) with v; auto; [apply in_rings; eauto|apply in_or_app; auto].
    - apply (F4 r r) with v; auto. apply in_rings; eauto. }
  change (inside [p] v :: map (fun p0 => inside [p0] v) l2) with ([inside [p] v] ++ map (fun p0 => inside [p0] v) l2). rewrite !P_OpLab.odd_app.
  rewrite (P_OpLab.odd_none (fun p0 => inside [p0] v) l1), (P_OpLab.odd_none (fun p0 => inside [p0] v) l2) by (intros p' J; apply D, in_app_iff; auto). rewrite xorb_false_l, xorb_false_r. unfold odd. cbn [fold_right]. apply xorb_false_r.
Qed.
Lemma m_ext : forall M p v, valid_multi M -> not_mutual M -> In p M -> In v (pg_exterior p) -> inside M v = ring_in (pg_exterior p) v.
Proof.
  intros M p v VM NM I V. rewrite (m_parity M p v VM I) by (exists (pg_exterior p); split; [left|]; auto). rewrite inside_rings. unfold rings_of_polygon. cbn [map].
  change (ring_in (pg_exterior p) v :: map (fun s => ring_in s v) (pg_interiors p)) with ([ring_in (pg_exterior p) v] ++ map (fun s => ring_in s v) (pg_interiors p)). rewrite P_OpLab.odd_app, (P_OpLab.odd_none _ (pg_interiors p)).
  - rewrite xorb_false_r. unfold odd. cbn [fold_right]. apply xorb_false_r.
  - intros h H. destruct (ring_in h v) eqn:E; auto. exfalso. assert (Rh : In h (rings_in M)) by (apply in_rings; exists p; split; auto; right; auto). assert (Re : In (pg_exterior p) (rings_in M)) by (apply in_rings; exists p; split; auto; left; auto).
    destruct (some_vertex h (m_proper M VM h Rh)) as (w & W). pose proof (vp_in _ (vm_each _ VM p I) h w H W) as Z. apply (NM (pg_exterior p) h v w); auto. intros <-.
    pose proof (vp_apart _ (vm_each _ VM p I)) as F. unfold rings_in in F. cbn [flat_map] in F. rewrite app_nil_r in F. inversion F as [|? ? F1 F2]; subst. rewrite Forall_forall in F1. apply (F1 _ H v); auto.
Qed.
Lemma m_hole : forall M p h v, valid_multi M -> In p M -> In h (pg_interiors p) -> In v h -> inside M v = negb (ring_in h v).
Proof.
  intros M p h v VM I H V. rewrite (m_parity M p v VM I) by (exists h; split; [right|]; auto). rewrite inside_rings. unfold rings_of_polygon. cbn [map].
  change (ring_in (pg_exterior p) v :: map (fun s => ring_in s v) (pg_interiors p)) with ([ring_in (pg_exterior p) v] ++ map (fun s => ring_in s v) (pg_interiors p)). rewrite P_OpLab.odd_app.
  rewrite (vp_in _ (vm_each _ VM p I) h v H V). destruct (in_split _ _ H) as (l1 & l2 & Q). pose proof (vp_out _ (vm_each _ VM p I) l1 h l2 v Q V) as D. rewrite Q, map_app. cbn [map].
  change (ring_in h v :: map (fun s => ring_in s v) l2) with ([ring_in h v] ++ map (fun s => ring_in s v) l2). rewrite !P_OpLab.odd_app.
  rewrite (P_OpLab.odd_none _ l1), (P_OpLab.odd_none _ l2) by (intros s J; apply D, in_app_iff; auto). unfold odd. cbn [fold_right]. destruct (ring_in h v); reflexivity.
Qed.

(** ** The boundary of a valid collection *)
Section Boundary.
Variable A : list polygon.
Hypothesis VA : valid_multi A.
Variable E : list (pt * pt).
Hypothesis HE : forall e, In e E <-> In e (all_edges A).
Variable out : list (lop * winding).
Hypothesis Bd : boundary E (inside A) out.

Lemma k_plain : forall a b m, In (a, b) (all_edges A) -> strictly_inside a b m -> S_Boundary.plain E m.
Proof.
  intros a b m I S. assert (K : forall c d, In (c, d) E -> on_seg c d m -> (c, d) = (a, b)) by (intros c d J O; apply (m_only A VA a b m); auto; apply HE; auto). destruct S as (O & Na & Nb). split.
  - intros c d J. split; intros ->.
    + assert (Q : (c, d) = (a, b)) by (apply K; auto; apply on_seg_start). injection Q as -> ->. auto.
    + assert (Q : (c, d) = (a, b)) by (apply K; auto; apply on_seg_end). injection Q as -> ->. auto.
  - intros c d c' d' J J' O1 O2. assert (Q : (c, d) = (a, b)) by auto. assert (Q' : (c', d') = (a, b)) by auto. injection Q as -> ->. injection Q' as -> ->. exists a. split; auto. split; apply on_seg_start.
Qed.
Lemma k_piece : forall g w, In (g, w) out -> exists e, In e (all_edges A) /\ P_LamSpec.und e = g.
Proof.
  intros g w I. destruct (bd_piece _ _ _ Bd g w I) as (x & y & -> & L & (a & b & J & O1 & O2) & N1 & N2 & _). apply HE in J. exists (a, b). split; auto.
  assert (K : forall z, on_seg a b z -> ~ S_Boundary.plain E z -> z = a \/ z = b).
  { intros z O N. destruct (pt_dec z a); auto. destruct (pt_dec z b); auto. exfalso. apply N, (k_plain a b); auto. split; auto. }
  destruct (K x O1 N1) as [Q1|Q1], (K y O2 N2) as [Q2|Q2]; subst; try (exfalso; exact (lex_irrefl _ L)); apply P_LamSpec.und_lt; auto.
Qed.
Lemma k_cover : forall a b, In (a, b) (all_edges A) -> cx a <> cx b -> In (P_LamSpec.und (a, b)) (map fst out).
Proof.
  intros a b I X. destruct (middle a b X) as (m & S). destruct (m_sides A VA a b m I X S) as (q & q' & Vq & Vq' & X1 & X2 & Y1 & Y2 & D).
  assert (VE : forall z, visible (all_edges A) m z -> visible E m z) by (intros z V r O N c d J; apply (V r O N c d), HE; auto).
  assert (Cr : forall z, cx z = cx m -> cross a b z = (cx b - cx a) * (cy z - cy m)).
  { intros z Z. transitivity (cross a b z - cross a b m); [rewrite (on_seg_cross a b m) by apply S; ring|unfold cross; rewrite Z; ring]. }
  assert (Z : exists x y w, In (Line x y, w) out /\ strictly_inside x y m).
  { assert (P1 : 0 < cy q - cy m) by (clear - Y1; qcl). assert (P2 : cy q' - cy m < 0) by (clear - Y2; qcl). pose proof (Cr q X1) as C1. pose proof (Cr q' X2) as C2.
    destruct (Qc_trichotomy (cx a) (cx b)) as [[H|H]|H]; [|contradiction|].
    - assert (H' : 0 < cx b - cx a) by (clear - H; qcl). apply (bd_all _ _ _ Bd a b m q q'); auto; [apply HE; auto|apply S|apply (k_plain a b); auto| | |rewrite D; destruct (inside A q'); discriminate].
      + rewrite C1. set (u := cx b - cx a) in *. set (v := cy q - cy m) in *. clearbody u v. clear - P1 H'. qc.
      + rewrite C2. set (u := cx b - cx a) in *. set (v := cy q' - cy m) in *. clearbody u v. clear - P2 H'. qc.
    - assert (H' : cx b - cx a < 0) by (clear - H; qcl). apply (bd_all _ _ _ Bd a b m q' q); auto; [apply HE; auto|apply S|apply (k_plain a b); auto| | |rewrite D; destruct (inside A q'); discriminate].
      + rewrite C2. set (u := cx b - cx a) in *. set (v := cy q' - cy m) in *. clearbody u v. clear - P2 H'. qc.
      + rewrite C1. set (u := cx b - cx a) in *. set (v := cy q - cy m) in *. clearbody u v. clear - P1 H'. qc. }
  destruct Z as (x & y & w & J & (O & Nx & Ny)). destruct (k_piece _ _ J) as ([c d] & Ie & U). destruct (P_LamSpec.und_line c d (m_neq A VA c d Ie)) as (x' & y' & U' & _ & Q). rewrite U in U'. injection U' as <- <-.
  assert (Oc : on_seg c d m) by (destruct Q as [Q|Q]; injection Q as -> ->; auto; apply on_seg_sym; auto). pose proof (m_only A VA a b m c d I S Ie Oc) as Qe. rewrite Qe in U. rewrite U. apply in_map_iff. exists (Line x y, w). auto.
Qed.
(** Two edges at every vertex. *)
Definition NbA (v a : pt) : Prop := In (v, a) (all_edges A) \/ In (a, v) (all_edges A).
Lemma NbA_sym : forall a b, NbA a b -> NbA b a.
Proof. intros a b [I|I]; [right|left]; auto. Qed.
Lemma NbA_ring : forall v a r, In r (rings_in A) -> In v r -> NbA v a -> In (v, a) (edges r) \/ In (a, v) (edges r).
Proof.
  intros v a r R V [I|I]; apply (m_edge A) in I as (s & S & I); pose proof (in_edges_l _ _ _ I) as [I1 I2]; assert (s = r) by (apply (one_in (rings_in A) s r v (vm_apart _ VA)); auto); subst s; auto.
Qed.
Lemma NbA_two : forall v a b c, NbA v a -> NbA v b -> NbA v c -> a = b \/ b = c \/ a = c.
Proof.
  intros v a b c H1 H2 H3. assert (exists r, In r (rings_in A) /\ In v r) as (r & R & V).
  { destruct H1 as [I|I]; apply (m_edge A) in I as (s & S & I); pose proof (in_edges_l _ _ _ I) as [I1 I2]; eauto. }
  pose proof (m_proper A VA r R) as P. destruct (NbA_ring v a r R V H1) as [K1|K1], (NbA_ring v b r R V H2) as [K2|K2], (NbA_ring v c r R V H3) as [K3|K3];
    first [left; apply (next_unique r v a b P K1 K2) | left; apply (prev_unique r a b v P K1 K2) | right; left; apply (next_unique r v b c P K2 K3) | right; left; apply (prev_unique r b c v P K2 K3)
          | right; right; apply (next_unique r v a c P K1 K3) | right; right; apply (prev_unique r a c v P K1 K3)].
Qed.
Lemma k_turns : forall v, (List.length (S_Rings.turns v out) <= 2)%nat.
Proof.
  intros v. set (at_v := fun e : lop * winding => if pt_dec (lop_first (fst e)) v then true else if pt_dec (lop_second (fst e)) v then true else false).
  assert (T : List.length (S_Rings.turns v out) = List.length (filter at_v out)).
  { pose proof (bd_piece _ _ _ Bd) as Pc. revert Pc. generalize out. clear - Bd. intros l Pc. induction l as [|[g w] l IH]; [reflexivity|]. cbn [filter]. unfold S_Rings.turns. cbn [flat_map]. fold (S_Rings.turns v l). rewrite app_length, IH by (intros; apply (Pc g0 w0); right; auto).
    destruct (Pc g w (or_introl eq_refl)) as (x & y & -> & L & _). unfold at_v at 2. cbn [fst lop_first lop_second].
    assert (N : x <> y) by (intros ->; exact (lex_irrefl _ L)).
    assert (Pe : forall a b, pt_eqb a b = if pt_dec a b then true else false) by (intros a b; destruct (pt_dec a b) as [Q|Q]; [apply P_Rings.pt_eqb_iff; auto|destruct (pt_eqb a b) eqn:B; auto; apply P_Rings.pt_eqb_iff in B; contradiction]).
    rewrite !Pe. destruct w; unfold directed; cbn [fst snd lop_first lop_second]; destruct (pt_dec x v), (pt_dec y v); cbn [app List.length]; try lia; congruence. }
  rewrite T. destruct (in_dec pt_dec v (flat_map (fun r => r) (rings_in A))) as [V|V].
  - apply in_flat_map in V as (r & R & V). 
    assert (H : forall l : list lop, NoDup l -> (forall g, In g l -> exists a, NbA v a /\ g = P_LamSpec.und (v, a)) -> (List.length l <= 2)%nat).
    { intros l Nd F. destruct l as [|g1 [|g2 [|g3 l]]]; cbn; try lia. exfalso. destruct (F g1) as (a & Na & ->); [left; auto|]. destruct (F g2) as (b & Nb & ->); [right; left; auto|]. destruct (F g3) as (c & Nc & ->); [right; right; left; auto|].
      apply NoDup_cons_iff in Nd as [D1 Nd]. apply NoDup_cons_iff in Nd as [D2 _]. destruct (NbA_two v a b c Na Nb Nc) as [Q|[Q|Q]]; subst; [apply D1; left; auto|apply D2; left; auto|apply D1; right; left; auto]. }
    rewrite <- (map_length fst). apply H.
    + pose proof (bd_once _ _ _ Bd) as Nd. revert Nd. generalize out. intros l. induction l as [|e l IH]; intros Nd; [constructor|]. cbn [map] in Nd. apply NoDup_cons_iff in Nd as [D1 D2]. cbn [filter]. destruct (at_v e); auto. cbn [map]. constructor; auto.
      intros J. apply D1. apply in_map_iff in J as (e' & Q & J). apply filter_In in J as [J _]. apply in_map_iff. eauto.
    + intros g J. apply in_map_iff in J as ([g' w] & Q & J). cbn in Q. subst g'. apply filter_In in J as [J B]. unfold at_v in B. cbn [fst] in B. destruct (k_piece g w J) as ([c d] & Ie & U). destruct (P_LamSpec.und_line c d (m_neq A VA c d Ie)) as (x & y & U' & _ & Q). rewrite U in U'. subst g. rewrite U' in *. cbn [lop_first lop_second] in B.
      assert (Vx : x = v \/ y = v) by (destruct (pt_dec x v); auto; destruct (pt_dec y v); auto; discriminate).
      assert (Vc : c = v \/ d = v) by (destruct Q as [Q|Q]; injection Q as -> ->; tauto). rewrite <- U'. destruct Vc as [->| ->]; [exists d|exists c]; split; auto; [left; auto|right; auto|]. change (v, c) with (reversed (c, v)). rewrite P_LamSpec.und_rev. auto.
  - replace (filter at_v out) with (@nil (lop * winding)); [cbn; lia|]. symmetry.
    destruct (filter at_v out) as [|[g w] l] eqn:F; auto. exfalso. assert (J : In (g, w) (filter at_v out)) by (rewrite F; left; auto). apply filter_In in J as [J B]. unfold at_v in B. cbn [fst] in B. destruct (k_piece g w J) as ([c d] & Ie & U). destruct (P_LamSpec.und_line c d (m_neq A VA c d Ie)) as (x & y & U' & _ & Q). rewrite U in U'. subst g. rewrite U' in *. cbn [lop_first lop_second] in B.
    assert (Vx : x = v \/ y = v) by (destruct (pt_dec x v); auto; destruct (pt_dec y v); auto; discriminate).
    assert (Vc : c = v \/ d = v) by (destruct Q as [Q|Q]; injection Q as -> ->; tauto). apply V. apply (m_edge A) in Ie as (r & R & Ie). apply in_edges_l in Ie as [I1 I2]. apply in_flat_map. exists r. split; auto. destruct Vc; subst; auto.
Qed.

(** ** The layout of the valid collection is that of the result *)
Variable mp : list polygon.
Hypothesis Vm : valid_multi mp.
Hypothesis Ins : forall q, inside mp q = inside A q.
Hypothesis La : laid_out out mp.
Hypothesis NM : not_mutual mp.
Hypothesis Ne : nested mp.

Lemma k_there : forall r', In r' (rings_in mp) -> exists r, In r (rings_in A) /\ same_ring r r'.
Proof.
  intros r' I. assert (Pm : forall s, In s (rings_in mp) -> path NbA s).
  { intros s S a b J. assert (G : In (P_LamSpec.und (a, b)) (map fst out)) by (apply (lo_cover _ _ La); exists (a, b); split; auto; apply (m_edge mp); eauto). apply in_map_iff in G as ([g w] & Q & G). cbn in Q. subst g.
    destruct (k_piece _ _ G) as ([c d] & Ie & U). destruct (und_eq a b c d) as [Q|Q]; [apply (m_neq mp Vm), (m_edge mp); eauto|congruence| |]; injection Q as -> ->; [left|right]; auto. }
  pose proof (m_proper mp Vm r' I) as P. pose proof P as (a & [|b l] & Q & _ & Ln); [cbn in Ln; lia|]. cbn in Q. subst r'. pose proof (Pm _ I a b (or_introl eq_refl)) as Nab.
  assert (exists r, In r (rings_in A) /\ (In (a, b) (edges r) \/ In (b, a) (edges r))) as (r & R & J) by (destruct Nab as [J|J]; apply (m_edge A) in J as (r & R & J); eauto).
  exists r. split; auto. apply (one_ring NbA NbA_sym NbA_two); auto; [apply (m_proper A VA); auto|]. intros c d K. left. apply (m_edge A). eauto.
Qed.
Lemma k_back : forall r, In r (rings_in A) -> exists r', In r' (rings_in mp) /\ same_ring r r'.
Proof.
  intros r I. destruct (m_flat A VA r I) as (a & b & J & X). assert (G : In (P_LamSpec.und (a, b)) (map fst out)) by (apply k_cover; auto; apply (m_edge A); eauto).
  apply (lo_cover _ _ La) in G as ([c d] & G & U). apply (m_edge mp) in G as (r' & R & G). destruct (k_there r' R) as (r2 & I2 & S). assert (Z : r2 = r); [|subst r2; eauto].
  apply (one_in (rings_in A) r2 r a (vm_apart _ VA)); auto; [|apply (in_edges_l _ _ _ J)]. apply (same_mem _ _ S). apply in_edges_l in G as [G1 G2].
  destruct (und_eq a b c d) as [Q|Q]; [apply (m_neq A VA), (m_edge A); eauto|auto| |]; injection Q as -> ->; auto.
Qed.
Lemma k_mutual : not_mutual A.
Proof.
  intros r s v w I J N V W E1 E2. destruct (k_back r I) as (r' & I' & S). destruct (k_back s J) as (s' & J' & S'). apply (NM r' s' v w); auto.
  - intros Q. apply N. apply (one_in (rings_in A) r s v (vm_apart _ VA)); auto. apply (same_mem _ _ S'). rewrite <- Q. apply (same_mem _ _ S). auto.
  - apply (same_mem _ _ S); auto.
  - apply (same_mem _ _ S'); auto.
  - rewrite <- (ring_in_same _ _ v S'). auto.
  - rewrite <- (ring_in_same _ _ w S). auto.
Qed.
Lemma k_ext : forall p r', In p A -> In r' (rings_in mp) -> same_ring (pg_exterior p) r' -> exists p', In p' mp /\ pg_exterior p' = r'.
Proof.
  intros p r' I J S. apply in_rings in J as (p' & J & [K|K]); [eauto|]. exfalso. destruct (some_vertex (pg_exterior p)) as (v & V); [apply (m_proper A VA), in_rings; exists p; split; auto; left; auto|].
  pose proof (m_ext A p v VA k_mutual I V) as Q1. pose proof (m_hole mp p' r' v Vm J K (proj1 (same_mem _ _ S v) V)) as Q2. rewrite Ins, Q1, (ring_in_same _ _ v S) in Q2. destruct (ring_in r' v); discriminate.
Qed.
Lemma k_int : forall p h r', In p A -> In h (pg_interiors p) -> In r' (rings_in mp) -> same_ring h r' -> exists p', In p' mp /\ In r' (pg_interiors p').
Proof.
  intros p h r' I H J S. apply in_rings in J as (p' & J & [K|K]); [|eauto]. exfalso. subst r'. destruct (some_vertex h) as (v & V); [apply (m_proper A VA), in_rings; exists p; split; auto; right; auto|].
  pose proof (m_hole A p h v VA I H V) as Q1. pose proof (m_ext mp p' v Vm NM J (proj1 (same_mem _ _ S v) V)) as Q2. rewrite Ins, Q1, (ring_in_same _ _ v S) in Q2. destruct (ring_in (pg_exterior p') v); discriminate.
Qed.
Lemma k_ext' : forall p' r, In p' mp -> In r (rings_in A) -> same_ring r (pg_exterior p') -> exists p, In p A /\ pg_exterior p = r.
Proof.
  intros p' r I J S. pose proof J as J0. apply in_rings in J as (p & J & [K|K]); [eauto|]. exfalso. destruct (k_int p r (pg_exterior p') J K) as (p2 & I2 & H2); auto; [apply in_rings; exists p'; split; auto; left; auto|].
  destruct (some_vertex (pg_exterior p')) as (v & V); [apply (m_proper mp Vm), in_rings; exists p'; split; auto; left; auto|].
  pose proof (m_hole mp p2 _ v Vm I2 H2 V) as Q1. pose proof (m_ext mp p' v Vm NM I V) as Q2. rewrite Q1 in Q2. destruct (ring_in (pg_exterior p') v); discriminate.
Qed.
Lemma k_parent : forall p h p2 h' , In p A -> In h (pg_interiors p) -> In p2 mp -> In h' (pg_interiors p2) -> same_ring h h' -> same_ring (pg_exterior p) (pg_exterior p2).
Proof.
  intros p h p2 h' I H I2 H' S.
  assert (Rx : forall m q, In q m -> In (pg_exterior q) (rings_in m)) by (intros m q Q; apply in_rings; exists q; split; auto; left; auto).
  assert (Ri : forall m q g, In q m -> In g (pg_interiors q) -> In g (rings_in m)) by (intros m q g Q G; apply in_rings; exists q; split; auto; right; auto).
  destruct (k_back _ (Rx _ _ I)) as (r1 & J1 & S1). destruct (k_ext p r1 I J1 S1) as (p1 & I1 & <-).
  destruct (some_vertex h (m_proper A VA h (Ri _ _ _ I H))) as (v & V). pose proof (proj1 (same_mem _ _ S v) V) as V'.
  destruct (lo_hole _ _ La p2 h' v I2 H' V') as [B1 B2]. destruct (B2 p1 I1) as [Q|Q]; [|subst p1; auto|].
  { rewrite <- (ring_in_same _ _ v S1). apply (vp_in _ (vm_each _ VA p I) h v H V). }
  destruct (k_there _ (Rx _ _ I2)) as (r3 & J3 & S3). destruct (k_ext' p2 r3 I2 J3 S3) as (p3 & I3 & <-).
  destruct (list_eq_dec pt_dec (pg_exterior p3) (pg_exterior p)) as [Z|Z]; [rewrite <- Z; auto|]. exfalso.
  assert (N3 : p3 <> p) by (intros ->; apply Z; auto).
  destruct (some_vertex _ (m_proper A VA _ J3)) as (w & W). pose proof (m_other A VA p3 p (pg_exterior p3) w I3 I N3 (or_introl eq_refl) W) as O.
  assert (Ow : ring_in (pg_exterior p) w = true) by (rewrite (ring_in_same _ _ w S1); apply Q; apply (same_mem _ _ S3); auto).
  rewrite inside_rings in O. unfold rings_of_polygon in O. cbn [map] in O.
  change (ring_in (pg_exterior p) w :: map (fun s => ring_in s w) (pg_interiors p)) with ([ring_in (pg_exterior p) w] ++ map (fun s => ring_in s w) (pg_interiors p)) in O. rewrite P_OpLab.odd_app, Ow in O.
  assert (exists h4, In h4 (pg_interiors p) /\ ring_in h4 w = true) as (h4 & H4 & E4).
  { destruct (existsb (fun s => ring_in s w) (pg_interiors p)) eqn:X; [apply existsb_exists in X; exact X|]. exfalso. rewrite (P_OpLab.odd_none _ (pg_interiors p)) in O; [discriminate|].
    intros s Sx. destruct (ring_in s w) eqn:Y; auto. assert (existsb (fun s => ring_in s w) (pg_interiors p) = true) by (apply existsb_exists; eauto). congruence. }
  assert (N4 : h4 <> pg_exterior p3) by (intros Q4; apply N3; apply (one_polygon A p3 p (pg_exterior p3) h4 w (vm_apart _ VA)); auto; [left; auto|right; auto|rewrite Q4; auto]).
  destruct (list_eq_dec pt_dec h4 h) as [->|Nh].
  - apply (k_mutual (pg_exterior p3) h w v); eauto. rewrite (ring_in_same _ _ v S3). auto.
  - destruct (k_back h4 (Ri _ _ _ I H4)) as (h5 & J5 & S5). assert (E5 : ring_in h5 v = true).
    { apply (Ne p2 h' h5 v); auto.
      - intros ->. apply Nh. apply (one_in (rings_in A) h4 h v (vm_apart _ VA)); eauto. apply (same_mem _ _ S5). auto.
      - intros x X. rewrite <- (ring_in_same _ _ x S5). rewrite <- E4. apply (m_const A VA (pg_exterior p3) h4); eauto. apply (same_mem _ _ S3); auto. }
    rewrite <- (ring_in_same _ _ v S5) in E5. destruct (in_split _ _ H) as (l1 & l2 & Q'). rewrite (vp_out _ (vm_each _ VA p I) l1 h l2 v Q' V h4) in E5; [discriminate|].
    rewrite Q' in H4. apply in_app_iff in H4 as [H4|[H4|H4]]; [apply in_app_iff; auto|congruence|apply in_app_iff; auto].
Qed.
Lemma roles_same : forall r r' h e, proper_ring r -> same_ring r r' -> In e (region_left (mkRing r h)) -> In e (region_left (mkRing r' h)) \/ ls_winding_order r = None.
Proof.
  intros r r' h e P S J. pose proof (proper_same _ _ P S) as P'. pose proof (same_mem _ _ S) as V. destruct (ls_winding_order r) as [w|] eqn:W; auto. left. unfold region_left in *. cbn [r_coords r_hole] in *. rewrite W in J.
  destruct (same_edges _ _ S) as [Q|Q].
  - rewrite <- (winding_same r r'), W by (auto; intros x X; apply (Permutation_in _ Q); auto). destruct w, h; try (apply (Permutation_in _ Q); auto); apply (Permutation_in _ (Permutation_map reversed Q)); auto.
  - assert (Q' : forall e, In e (edges r) -> In (reversed e) (edges r')).
    { intros x X. apply (Permutation_in _ Q) in X. apply in_map_iff in X as ([y z] & <- & X). exact X. }
    rewrite (winding_reversed r r' P P' Q' V), W.
    assert (G1 : In e (edges r) -> In e (map reversed (edges r'))) by (intros X; apply (Permutation_in _ Q); auto).
    assert (G2 : In e (map reversed (edges r)) -> In e (edges r')) by (intros X; apply in_map_iff in X as (y & <- & X); apply Q'; auto).
    destruct w, h; auto.
Qed.
Theorem k_laid_out : laid_out out A.
Proof.
  assert (Rx : forall m q, In q m -> In (pg_exterior q) (rings_in m)) by (intros m q Q; apply in_rings; exists q; split; auto; left; auto).
  assert (Ri : forall m q g, In q m -> In g (pg_interiors q) -> In g (rings_in m)) by (intros m q g Q G; apply in_rings; exists q; split; auto; right; auto).
  constructor.
  - intros r I. split; [apply (m_proper A VA); auto|apply (m_winding A VA); auto].
  - apply (vm_apart _ VA).
  - intros g. split; intros I.
    + apply in_map_iff in I as ([g' w] & Q & I). cbn in Q. subst g'. apply (k_piece g w I).
    + destruct I as ([a b] & I & <-). apply (m_edge A) in I as (r & R & I). destruct (k_back r R) as (r' & R' & S). apply (lo_cover _ _ La). destruct (same_edges _ _ S) as [Q|Q]; apply (Permutation_in _ Q) in I.
      * exists (a, b). split; auto. apply (m_edge mp). eauto.
      * apply in_map_iff in I as (e & <- & I). exists e. rewrite P_LamSpec.und_rev. split; auto. apply (m_edge mp). eauto.
  - intros p e I J. destruct (k_back _ (Rx _ _ I)) as (r' & R' & S). destruct (k_ext p r' I R' S) as (p' & I' & <-). destruct (roles_same _ _ false e (m_proper A VA _ (Rx _ _ I)) S J) as [K|K]; [apply (lo_ext _ _ La p'); auto|exfalso; apply (m_winding A VA _ (Rx _ _ I)); auto].
  - intros p h e I H J. destruct (k_back _ (Ri _ _ _ I H)) as (r' & R' & S). destruct (k_int p h r' I H R' S) as (p' & I' & H'). destruct (roles_same _ _ true e (m_proper A VA _ (Ri _ _ _ I H)) S J) as [K|K]; [apply (lo_int _ _ La p' r'); auto|exfalso; apply (m_winding A VA _ (Ri _ _ _ I H)); auto].
  - intros p h v I H V. split; [apply (vp_in _ (vm_each _ VA p I) h v H V)|]. intros p' I' E'. destruct (k_back _ (Ri _ _ _ I H)) as (h' & R' & S). destruct (k_int p h h' I H R' S) as (p2 & I2 & H'). pose proof (k_parent p h p2 h' I H I2 H' S) as Sp.
    destruct (k_back _ (Rx _ _ I')) as (r1 & R1 & S1). destruct (k_ext p' r1 I' R1 S1) as (p1 & I1 & <-). destruct (lo_hole _ _ La p2 h' v I2 H' (proj1 (same_mem _ _ S v) V)) as [_ B]. destruct (B p1 I1) as [Q|Q]; [rewrite <- (ring_in_same _ _ v S1); auto| |].
    + left. subst p1. destruct (some_vertex _ (m_proper A VA _ (Rx _ _ I))) as (w & W). apply (one_polygon A p' p (pg_exterior p') (pg_exterior p) w (vm_apart _ VA)); auto; [left; auto|left; auto|]. apply (same_mem _ _ S1), (same_mem _ _ Sp). auto.
    + right. intros w W. rewrite (ring_in_same _ _ w S1). apply Q. apply (same_mem _ _ Sp). auto.
  - intros p p' v v' I I' N V V' E1 E2. apply (k_mutual (pg_exterior p) (pg_exterior p') v v'); auto. intros Q. apply N. apply (one_polygon A p p' (pg_exterior p) (pg_exterior p') v (vm_apart _ VA)); auto; [left; auto|left; auto|rewrite <- Q; auto].
Qed.
End Boundary.
