(** Areas of the pieces of the monotone decomposition. *)
Require Import List Bool Arith String QArith Permutation Lia.
From Verif Require Import Base Scalar M_Events M_Geo M_LineOrPoint M_Slab M_MonoPoly S_Geo P_Geo S_Mono P_Mono Props_Mono M_Rings M_Op S_Rings S_Op P_OpPoly Props_Op3 M_MonoSweep M_Chains Props_Chains.
From Verif Require Import S_Laminar S_Chains P_MonoAbove P_MonoTotal P_EdgeTotal Props_Decomp.
Import Datatypes.
Import ListNotations.
Local Open Scope list_scope.
Local Open Scope Qc_scope.
Local Notation sum := S_Mono.sum.

(** On every vertical line the top chain of a piece is nowhere below its bottom chain. *)
Theorem C63_top_over_bottom : forall presort pick P ms, (forall l, Permutation (presort l) l) -> valid_polygon P ->
  monotone_chains presort pick P = Ok ms -> forall m, In m ms -> S_Mono.above (mp_top m) (mp_bot m).
Proof.
  intros presort pick P ms Ps VP E m I. apply ordered_above; [apply (C41_pieces_are_monotone _ _ _ _ E m I)|].
  intros q. destruct (decompose P VP presort pick Ps) as (D & d & E' & _ & Or & _). rewrite E in E'. injection E' as ->. auto.
Qed.
(** ** Sums over directed edges *)
Definition term (e : pt * pt) : Qc := cx (fst e) * cy (snd e) - cx (snd e) * cy (fst e).
Lemma sum_cons : forall {A} (f : A -> Qc) x l, sum f (x :: l) = f x + sum f l. Proof. reflexivity. Qed.
Lemma sum_perm : forall {A} (f : A -> Qc) l l', Permutation l l' -> sum f l = sum f l'.
Proof. intros A f l l' P. induction P; rewrite ?sum_cons; try congruence. ring. Qed.
Lemma sum_map : forall {A B} (g : A -> B) f l, sum f (map g l) = sum (fun a => f (g a)) l.
Proof. intros A B g f l. induction l as [|x l IH]; auto. cbn [map]. rewrite !sum_cons, IH. reflexivity. Qed.
Lemma sum_flat : forall {A B} (g : A -> list B) f l, sum f (flat_map g l) = sum (fun a => sum f (g a)) l.
Proof. intros A B g f l. induction l as [|x l IH]; auto. cbn [flat_map]. rewrite sum_app, sum_cons, IH. reflexivity. Qed.
Lemma sum_scale : forall {A} (f : A -> Qc) c l, sum (fun a => c * f a) l = c * sum f l.
Proof. intros A f c l. induction l as [|x l IH]; [cbn; ring|]. rewrite !sum_cons, IH. ring. Qed.
Lemma sum_ext : forall {A} (f g : A -> Qc) l, (forall x, In x l -> f x = g x) -> sum f l = sum g l.
Proof. intros A f g l. induction l as [|x l IH]; intros E; auto. rewrite !sum_cons, IH by (intros; apply E; right; auto). rewrite (E x) by (left; auto). reflexivity. Qed.
Lemma sum_rev : forall l, sum term (map reversed l) = - sum term l.
Proof. intros l. induction l as [|x l IH]; [cbn; ring|]. cbn [map]. rewrite !sum_cons, IH. unfold term, reversed. cbn [fst snd]. ring. Qed.
Lemma sum_real : forall l, sum term (filter real_edge l) = sum term l.
Proof.
  intros l. induction l as [|[a b] l IH]; auto. cbn [filter]. rewrite sum_cons. destruct (real_edge (a, b)) eqn:R; [rewrite sum_cons; congruence|].
  unfold real_edge in R. cbn [fst snd] in R. apply negb_false_iff, peqb_iff in R. subst b. rewrite IH. unfold term. cbn [fst snd]. ring.
Qed.
Lemma piece_term : forall m pg, mono_pair (mp_top m) (mp_bot m) -> mp_into_polygon m = Ok pg -> sum term (piece_edges m) = (1 + 1) * shoelace (pg_exterior pg).
Proof.
  intros m pg MP E. rewrite into_polygon_ok in E by auto. injection E as <-. cbn [pg_exterior]. unfold shoelace. fold term. rewrite into_polygon_edges by auto. unfold piece_edges.
  rewrite sum_app, (sum_app term), <- (sum_perm term _ _ (Permutation_rev _)). field. discriminate.
Qed.
(** The edges of a ring as directed by the decomposition. *)
Lemma shoelace_term : forall l, sum term (edges l) = (1 + 1) * shoelace l.
Proof. intros l. change (shoelace l) with (sum term (edges l) / (1 + 1)). field. discriminate. Qed.
Definition turned (l : list pt) (hole : bool) : bool := match ls_winding_order l, hole with Some Ccw, false | Some Cw, true => true | _, _ => false end.
Lemma ring_term : forall l hole, sum term (map reversed (region_left (mkRing l hole))) = (1 + 1) * (if turned l hole then - shoelace l else shoelace l).
Proof.
  intros l hole. pose proof (shoelace_term l) as Z. unfold region_left, turned. cbn [r_coords r_hole]. destruct (ls_winding_order l) as [[|]|], hole; rewrite !sum_rev, Z; ring.
Qed.
(** Area of a piece. *)
Definition piece_area (m : mono_poly) : Qc := - sum term (piece_edges m) / (1 + 1).
Lemma areas_kept : forall presort pick P ms, (forall l, Permutation (presort l) l) -> monotone_chains presort pick P = Ok ms ->
  sum piece_area ms = - sum term (region_right P) / (1 + 1).
Proof.
  intros presort pick P ms Ps E. destruct (C42_edges_of_the_pieces presort pick P ms Ps E) as (d & Pm). apply (sum_perm term) in Pm. rewrite sum_flat, !sum_app, sum_rev, sum_real in Pm.
  unfold piece_area. rewrite (sum_ext _ (fun m => (- / (1 + 1)) * sum term (piece_edges m))) by (intros; field; discriminate). rewrite sum_scale, Pm. field. discriminate.
Qed.
Lemma half_cancel : forall x : Qc, - ((1 + 1) * x) / (1 + 1) = - x. Proof. intros x. field. discriminate. Qed.
Lemma piece_area_eq : forall m pg, mono_pair (mp_top m) (mp_bot m) -> mp_into_polygon m = Ok pg -> piece_area m = - shoelace (pg_exterior pg).
Proof. intros m pg MP E. unfold piece_area. rewrite (piece_term m pg) by auto. apply half_cancel. Qed.
Lemma sum_nonneg : forall {A} (f : A -> Qc) l, (forall x, In x l -> 0 <= f x) -> 0 <= sum f l.
Proof. intros A f l. induction l as [|x l IH]; intros E; [apply Qcle_refl|]. rewrite sum_cons. assert (0 <= f x) by (apply E; left; auto). assert (0 <= sum f l) by (apply IH; intros; apply E; right; auto). qcl. Qed.
Lemma piece_nonneg : forall m, mono_pair (mp_top m) (mp_bot m) -> S_Mono.above (mp_top m) (mp_bot m) -> 0 <= piece_area m.
Proof.
  intros m MP A. destruct (new_ok m MP) as (s & Es). destruct MP as (p & q & S1 & S2 & E1 & E2 & R). assert (MP : mono_pair (mp_top m) (mp_bot m)) by (exists p, q; auto).
  destruct (C37_scanned_area (mp_top m) (mp_bot m) m [cx q] q s) as (s' & zs & ar & pg & _ & Ep & F & Su); auto.
  - apply mp_new_ok. split; auto. destruct m; reflexivity.
  - exists (cx q). split; [left; auto|apply Qcle_refl].
  - rewrite (piece_area_eq m pg), <- Su by auto. apply sum_nonneg. clear - F. induction F as [|z a zs ar [_ K] F IH]; intros x I; [destruct I|]. destruct I as [<-|I]; auto.
Qed.
Lemma cross_mix : forall a b c d r, on_seg c d r -> exists t, cx r = cx c + t * (cx d - cx c) /\ cross a b r = cross a b c + t * (cross a b d - cross a b c).
Proof. intros a b c d r (t & _ & _ & X & Y). exists t. split; [rewrite X; ring|]. unfold cross. rewrite X, Y. ring. Qed.
Lemma two_common : forall a b c d A B, on_seg a b A -> on_seg a b B -> on_seg c d A -> on_seg c d B -> cx A < cx B -> cross a b c = 0 /\ cross a b d = 0.
Proof.
  intros a b c d A B H1 H2 H3 H4 L. destruct (cross_mix a b c d A H3) as (t & X1 & C1). destruct (cross_mix a b c d B H4) as (u & X2 & C2). rewrite (on_seg_cross _ _ _ H1) in C1. rewrite (on_seg_cross _ _ _ H2) in C2.
  assert (N : u - t <> 0). { intros Q. assert (u = t) by qcl. subst u. rewrite X1, X2 in L. apply Qclt_not_eq in L. auto. }
  set (f := cross a b c) in *. set (g := cross a b d) in *. clearbody f g.
  assert (Z : (u - t) * (g - f) = 0) by (replace ((u - t) * (g - f)) with ((f + u * (g - f)) - (f + t * (g - f))) by ring; rewrite <- C1, <- C2; reflexivity).
  apply Qcmult_integral in Z as [Z|Z]; [contradiction|]. rewrite Z in C1. assert (f = 0) by (rewrite C1; ring). split; auto. subst f. replace g with (g - 0) by ring. exact Z.
Qed.
Lemma flat_first : forall l p q, increasing l -> starts_at l p -> ends_at l q -> p <> q -> cx q <= cx p -> exists u, In (p, u) (edges l) /\ lex_lt p u /\ cx u = cx p.
Proof.
  intros l p q Si [k E] [k' E'] N X. destruct k as [|u k]; [rewrite E in E'; destruct k' as [|x k']; [injection E' as ->; contradiction|destruct k'; discriminate]|].
  assert (I : In (p, u) (edges l)) by (rewrite E, edges_cons; left; auto). exists u. split; auto. pose proof (inc_edge l p u Si I) as L. split; auto.
  apply Qcle_antisym; [|apply lex_x, lex_lt_le; auto]. apply Qcle_trans with (cx q); auto. apply lex_x. destruct (chain_bounds l p q u Si) as [_ Z]; auto; [exists (u :: k); auto|exists k'; auto|]. exists p, u. split; auto. apply on_seg_end.
Qed.
(** A piece whose chains do not lie along each other has an area. *)
Lemma piece_pos : forall m, mono_pair (mp_top m) (mp_bot m) -> S_Mono.above (mp_top m) (mp_bot m) ->
  (forall u v u' v', In (u, v) (edges (mp_bot m)) -> In (u', v') (edges (mp_top m)) -> P_MonoChains.skew u v u' v') -> 0 < piece_area m.
Proof.
  intros m MP A Sk. destruct (new_ok m MP) as (s & Es). destruct (new_inv m s MP Es) as (_ & _ & p' & Sp & Xp). pose proof MP as (p & q & S1 & S2 & E1 & E2 & Npq & I1 & I2).
  assert (p' = p) by (destruct S1 as [k1 K1], Sp as [k2 K2]; congruence). subst p'.
  destruct (C37_scanned_area_signed (mp_top m) (mp_bot m) m [cx q] q s) as (s' & zs & pg & Ez & Ep & Su); auto.
  { apply mp_new_ok. split; auto. destruct m; reflexivity. } { exists (cx q). split; [left; auto|apply Qcle_refl]. }
  rewrite (piece_area_eq m pg), <- Su by auto. destruct (stops_ok [cx q] m s MP (reach_new m s Es)) as (s1 & zs1 & Ez1 & _ & Gf & Bt & _ & Xs & _). rewrite Ez in Ez1. injection Ez1 as <- <-.
  assert (Pos : forall z, between_chains (mp_top m) (mp_bot m) z -> t_x (z_left z) < t_x (z_right z) -> 0 < trapezoid_area z).
  { intros z (T & B) W. destruct T as (a' & b' & It & T1 & T2). destruct B as (a & b & Ib & B1 & B2).
    assert (K1 : t_bot (z_left z) <= t_top (z_left z)) by (apply (A (top_of (z_left z)) (bot_of (z_left z))); [exists a', b'; auto|exists a, b; auto|reflexivity]).
    assert (K2 : t_bot (z_right z) <= t_top (z_right z)) by (apply (A (top_of (z_right z)) (bot_of (z_right z))); [exists a', b'; auto|exists a, b; auto|reflexivity]).
    assert (K : 0 < (t_top (z_left z) - t_bot (z_left z)) + (t_top (z_right z) - t_bot (z_right z))).
    { destruct (Qclt_le_dec 0 ((t_top (z_left z) - t_bot (z_left z)) + (t_top (z_right z) - t_bot (z_right z)))) as [K|K]; auto. exfalso.
      assert (Q1 : t_bot (z_left z) = t_top (z_left z)) by (apply Qcle_antisym; auto; qcl). assert (Q2 : t_bot (z_right z) = t_top (z_right z)) by (apply Qcle_antisym; auto; qcl).
      unfold bot_of in B1, B2. rewrite Q1 in B1. rewrite Q2 in B2. fold (top_of (z_left z)) in B1. fold (top_of (z_right z)) in B2. set (P := top_of (z_left z)) in *. set (R := top_of (z_right z)) in *. assert (L : cx P < cx R) by exact W.
      pose proof (inc_edge _ _ _ I2 Ib) as Lb. pose proof (inc_edge _ _ _ I1 It) as Lt_. assert (PR : lex_lt P R) by (left; auto).
      destruct (two_common a b a' b' P R B1 B2 T1 T2 L) as [C1 C2]. destruct (two_common a' b' a b P R T1 T2 B1 B2 L) as [C3 C4].
      apply on_seg_between in T1 as [T1 _]; auto. apply on_seg_between in T2 as [_ T2]; auto. apply on_seg_between in B1 as [B1 _]; auto. apply on_seg_between in B2 as [_ B2]; auto.
      destruct (Sk a b a' b' Ib It) as [Z|[Z|[Z|[Z|[Z|Z]]]]]; try contradiction.
      - apply (lex_lt_not_le P R PR). apply (lex_le_trans _ b'); auto. apply (lex_le_trans _ a); auto.
      - apply (lex_lt_not_le P R PR). apply (lex_le_trans _ b); auto. apply (lex_le_trans _ a'); auto. }
    unfold trapezoid_area. set (w := t_x (z_right z) - t_x (z_left z)) in *. set (h := (t_top (z_left z) - t_bot (z_left z)) + _) in *. assert (W' : 0 < w) by (unfold w; qcl). clearbody w h. clear - W' K.
    assert (Z : w * h / (1 + 1) * (1 + 1) = w * h) by (field; discriminate). assert (Y : 0 < w * h) by qc. set (x := w * h / (1 + 1)) in *. clearbody x. qcl. }
  assert (All : forall a b l, gap_free a b l -> Forall (between_chains (mp_top m) (mp_bot m)) l -> 0 <= sum trapezoid_area l /\ (l <> [] -> 0 < sum trapezoid_area l)).
  { clear - Pos. intros a b l F. induction F as [a|z a b l K1 K2 F IH]; intros B; [split; [apply Qcle_refl|intros []; auto]|]. inversion B as [|? ? B1 B2]; subst. destruct (IH B2) as [J _]. assert (0 < trapezoid_area z) by (apply Pos; auto). rewrite sum_cons. split; [|intros _]; qcl. }
  destruct (All _ _ _ Gf Bt) as [_ Y]. destruct zs as [|z zs]; [|apply Y; discriminate]. exfalso. inversion Gf as [x Q1 Q2|]; subst. 
  assert (Xq : cx q <= cx p). { rewrite <- Xp, Q2. destruct E1 as [k K]. specialize (Xs q (cx q)). rewrite qmin_l in Xs by apply Qcle_refl. apply Xs; [rewrite K; apply last_opt_app|left; auto]. }
  destruct (flat_first _ _ _ I1 S1 E1 Npq Xq) as (u' & J1 & J2 & J3). destruct (flat_first _ _ _ I2 S2 E2 Npq Xq) as (u & J4 & J5 & J6).
  destruct (Sk p u p u' J4 J1) as [Z|[Z|[Z|[Z|[Z|Z]]]]]; try (apply Z; unfold cross; rewrite ?J3, ?J6; ring).
  - apply (lex_lt_not_le _ _ J2 Z).
  - apply (lex_lt_not_le _ _ J5 Z).
Qed.
Lemma region_right_terms : forall P, - sum term (region_right P) / (1 + 1) =
  - (if turned (pg_exterior P) false then - shoelace (pg_exterior P) else shoelace (pg_exterior P)) - sum (fun h => if turned h true then - shoelace h else shoelace h) (pg_interiors P).
Proof.
  intros P. unfold region_right. cbn [flat_map]. rewrite sum_app, ring_term, sum_flat, sum_map.
  rewrite (sum_ext _ (fun h => (1 + 1) * (if turned h true then - shoelace h else shoelace h))) by (intros; apply ring_term). rewrite sum_scale. field. discriminate.
Qed.

(** ** Rings of a valid polygon *)
Lemma FOP_incl : forall {X} (R : X -> X -> Prop) A l B, ForallOrdPairs R (A ++ l ++ B) -> ForallOrdPairs R l.
Proof.
  intros X R A l B F. induction A as [|a A IH]; [|inversion F; auto]. cbn [app] in F. induction l as [|x l IH]; [constructor|]. inversion F as [|? ? F1 F2]; subst. constructor; auto.
  rewrite Forall_forall in *. intros y I. apply F1. apply in_or_app; auto.
Qed.
Lemma ring_valid : forall P l, valid_polygon P -> In l (rings_in [P]) -> valid_polygon (mkPolygon l []).
Proof.
  intros P l [V1 V2 V3 V4 V5] I. constructor.
  - intros l' [<-|[]]. auto.
  - unfold all_edges in *. cbn [rings_in flat_map pg_exterior pg_interiors app]. rewrite app_nil_r. apply in_split in I as (A & B & E). rewrite E, flat_map_app in V2. cbn [flat_map] in V2. apply FOP_incl in V2. exact V2.
  - constructor; constructor.
  - intros h v [].
  - intros A h B v E. destruct A; discriminate E.
Qed.
Lemma valid_pieces : forall presort pick P ms, (forall l, Permutation (presort l) l) -> valid_polygon P -> monotone_chains presort pick P = Ok ms -> forall m, In m ms -> 0 < piece_area m.
Proof.
  intros presort pick P ms Ps VP E m I. apply piece_pos; [apply (C41_pieces_are_monotone _ _ _ _ E m I)|apply (C63_top_over_bottom _ _ _ _ Ps VP E m I)|].
  destruct (decompose P VP presort pick Ps) as (D & d & E' & _ & Or & _). rewrite E in E'. injection E' as ->. intros u v u' v' J J'. apply (Or m u I u v u' v' J J').
Qed.
Lemma simple_area : forall l, valid_polygon (mkPolygon l []) -> ls_winding_order l <> None /\ 0 < (if turned l false then shoelace l else - shoelace l).
Proof.
  intros l VP. set (presort := fun l : list event => l). set (pick := fun (_ : list nat) (_ _ : nat) => 0%nat).
  assert (Ps : forall l, Permutation (presort l) l) by (intros; apply Permutation_refl).
  destruct (C61_decomposition_succeeds presort pick _ Ps VP) as (ms & E). pose proof (areas_kept presort pick _ ms Ps E) as A. rewrite region_right_terms in A. cbn [pg_exterior pg_interiors sum fold_right] in A.
  assert (W : exists w, ls_winding_order l = Some w).
  { unfold monotone_chains, from_polygon in E. cbn [pg_exterior pg_interiors fold_res] in E. unfold ms_add_closed_ring in E. destruct (ls_winding_order l) as [w|]; eauto. exfalso.
    destruct (check _ _) in E; try discriminate E. cbn [bind] in E. destruct (slab_insert _ _) in E; try discriminate E. cbn [bind] in E. destruct (check _ _) in E; try discriminate E. cbn [bind] in E. destruct (check _ _) in E; try discriminate E. }
  destruct W as [w W]. split; [congruence|].
  assert (N : 0 < sum piece_area ms).
  { pose proof (valid_pieces presort pick _ ms Ps VP E) as V. destruct ms as [|m ms].
    - exfalso. destruct (C42_edges_of_valid_polygons presort pick _ _ Ps VP E) as (d & Pm). apply Permutation_nil in Pm. unfold region_right in Pm. cbn [flat_map pg_exterior pg_interiors map] in Pm.
      destruct (vp_rings _ VP l) as (p & l' & -> & _ & L); [left; auto|]. destruct l' as [|x l']; [cbn in L; lia|]. unfold region_left in Pm. cbn [r_coords r_hole] in Pm. rewrite W in Pm. cbn [app] in Pm. rewrite edges_cons in Pm. destruct w; discriminate Pm.
    - rewrite sum_cons. assert (0 < piece_area m) by (apply V; left; auto). assert (0 <= sum piece_area ms) by (apply sum_nonneg; intros x I; apply Qclt_le_weak, V; right; auto). qcl. }
  rewrite A in N. clear - N. destruct (turned l false); qcl.
Qed.

(** The winding order of a ring without self-intersections tells the sign of its area. *)
Theorem C64_winding_and_area : forall l, valid_polygon (mkPolygon l []) ->
  (ls_winding_order l = Some Ccw <-> 0 < shoelace l) /\ (ls_winding_order l = Some Cw <-> shoelace l < 0).
Proof.
  intros l VP. destruct (simple_area l VP) as [N A]. unfold turned in A. destruct (ls_winding_order l) as [[|]|]; [| |contradiction]; clear N; cbn iota in A; (split; split; intros Q; [try discriminate Q; auto; qcl|try reflexivity; exfalso; qcl|try discriminate Q; auto; qcl|try reflexivity; exfalso; qcl]).
Qed.
Lemma ring_area : forall P l, valid_polygon P -> In l (rings_in [P]) ->
  (if turned l false then - shoelace l else shoelace l) = - magnitude (shoelace l) /\ (if turned l true then - shoelace l else shoelace l) = magnitude (shoelace l).
Proof.
  intros P l VP I. destruct (simple_area l (ring_valid P l VP I)) as [N A].
  assert (M : magnitude (shoelace l) = if turned l false then shoelace l else - shoelace l).
  { unfold magnitude. destruct (turned l false), (qleb 0 (shoelace l)) eqn:Q; auto.
    - exfalso. apply Qclt_le_weak, qleb_iff in A. congruence.
    - apply qleb_iff in Q. exfalso. qcl. }
  rewrite M. unfold turned in *. destruct (ls_winding_order l) as [[|]|]; [| |contradiction]; split; ring.
Qed.
(** The areas of the pieces are positive and add up to the area of the polygon. *)
Theorem C64_areas_add_up : forall presort pick P ms, (forall l, Permutation (presort l) l) -> valid_polygon P ->
  monotone_chains presort pick P = Ok ms ->
  exists pgs, Forall2 (fun m pg => mp_into_polygon m = Ok pg /\ 0 < polygon_area pg) ms pgs /\
    sum polygon_area pgs = polygon_area P.
Proof.
  intros presort pick P ms Ps VP E.
  assert (Ex : exists pgs, Forall2 (fun m pg => mp_into_polygon m = Ok pg /\ 0 < polygon_area pg) ms pgs /\ sum polygon_area pgs = sum piece_area ms).
  { pose proof (valid_pieces presort pick P ms Ps VP E) as V. pose proof (C41_pieces_are_monotone presort pick P ms E) as M. clear E. induction ms as [|m ms IH]; [exists []; split; [constructor|reflexivity]|].
    destruct IH as (pgs & F & Su); [intros; apply V; right; auto|intros; apply M; right; auto|]. pose proof (M m (or_introl eq_refl)) as MP. pose proof (V m (or_introl eq_refl)) as Pm.
    pose proof (into_polygon_ok m MP) as Ep. set (pg := mkPolygon (mp_top m ++ tl (rev (mp_bot m))) []) in *. assert (Q : polygon_area pg = piece_area m).
    { rewrite (piece_area_eq m pg MP Ep) in *. unfold polygon_area, magnitude. cbn [pg pg_interiors]. unfold pg at 2. cbn [pg_interiors sum fold_right]. destruct (qleb 0 (shoelace (pg_exterior pg))) eqn:Z; [apply qleb_iff in Z; exfalso; qcl|ring]. }
    exists (pg :: pgs). split; [constructor; auto; rewrite Q; auto|]. rewrite !sum_cons, Su, Q. reflexivity. }
  destruct Ex as (pgs & F & Su). exists pgs. split; auto. rewrite Su, (areas_kept presort pick P ms Ps E), region_right_terms. unfold polygon_area.
  rewrite (proj1 (ring_area P (pg_exterior P) VP (or_introl eq_refl))). rewrite (sum_ext _ (fun h => magnitude (shoelace h))); [ring|]. intros h I. apply (ring_area P h VP). right. cbn [rings_in flat_map]. rewrite app_nil_r. auto.
Qed.
(** Hence scanning a piece from its left end to its right end never meets a trapezoid of
    negative area, and the areas add up to that of the piece. *)
Corollary C63_scanned_pieces : forall presort pick P ms, (forall l, Permutation (presort l) l) -> valid_polygon P ->
  monotone_chains presort pick P = Ok ms -> forall m us q, In m ms -> ends_at (mp_top m) q -> (exists u, In u us /\ cx q <= u) ->
  exists s s' zs areas pg, sc_new m = Ok s /\ scan_stops s us = Ok (s', zs) /\ mp_into_polygon m = Ok pg /\
    Forall2 (fun z a => trapz_area z = Ok a /\ 0 <= a) zs areas /\ sum (fun a => a) areas = magnitude (shoelace (pg_exterior pg)).
Proof.
  intros presort pick P ms Ps VP E m us q I Eq Hu. pose proof (C41_pieces_are_monotone _ _ _ _ E m I) as MP. destruct (new_ok m MP) as (s & Es).
  destruct (C37_scanned_area (mp_top m) (mp_bot m) m us q s) as (s' & zs & ar & pg & A1 & A2 & A3 & A4); auto.
  - apply mp_new_ok. split; auto. destruct m; reflexivity.
  - apply (C63_top_over_bottom _ _ _ _ Ps VP E m I).
  - exists s, s', zs, ar, pg. split; auto. split; auto. split; auto. split; auto. rewrite A4. pose proof (valid_pieces presort pick P ms Ps VP E m I) as Z. rewrite (piece_area_eq m pg MP A2) in Z.
    unfold magnitude. destruct (qleb 0 (shoelace (pg_exterior pg))) eqn:Q; auto. apply qleb_iff in Q. exfalso. qcl.
Qed.


(** A valid polygon with a hole, decomposed into three pieces. *)
Example C64_example : valid_polygon simple_merge /\
  match monotone_chains (fun l => l) (fun _ _ _ => 0%nat) simple_merge with
  | Ok ms => map (fun m => match mp_into_polygon m with Ok pg => this (polygon_area pg) | _ => 0%Q end) ms
  | _ => []
  end = [659#2; 100#1; 339#2]%Q /\ this (polygon_area simple_merge) = (599#1)%Q.
Proof. split; [exact simple_merge_valid|]. vm_compute. split; reflexivity. Qed.
