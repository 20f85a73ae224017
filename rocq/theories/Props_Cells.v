(** Rasterisation of a valid polygon: what the loop over the pieces and the columns of a
    grid adds to each cell. *)
Require Import List Bool Arith Lia Sorted Permutation ZArith QArith.
From Verif Require Import Base Scalar M_Events M_Geo M_MonoPoly S_Geo P_Geo S_Mono P_Mono Props_Mono S_Raster P_Raster P_RasterArea M_Raster Props_Raster M_Rings M_Op S_Rings S_Op P_OpLab P_OpPoly Props_Op3 M_MonoSweep M_Chains Props_Chains.
From Verif Require Import S_Laminar S_Chains P_MonoAbove P_MonoTotal P_EdgeTotal Props_Decomp Props_Area S_Cells P_Cells P_CellPieces M_RasterUse.
Import Datatypes.
Import ListNotations.
Local Open Scope list_scope.
Local Open Scope Qc_scope.
Local Notation sum := S_Mono.sum.

(** ** One column of one piece *)
Lemma scan_between : forall m p q a b c d zs, mono_pair (mp_top m) (mp_bot m) -> starts_at (mp_top m) p -> ends_at (mp_top m) q -> a <= b ->
  gap_free (cl (cx p) (cx q) a) (cl (cx p) (cx q) b) zs -> Forall (between_chains (mp_top m) (mp_bot m)) zs ->
  sum (fun z => area_between z c d) zs = between (cellf a b c d) m.
Proof.
  intros m p q a b c d zs MP Sp Eq L G F. destruct MP as (p' & q' & S1 & S2 & E1 & E2 & N & I1 & I2).
  assert (p' = p) by (destruct S1 as [k1 K1], Sp as [k2 K2]; congruence). assert (q' = q) by (destruct E1 as [k1 K1], Eq as [k2 K2]; rewrite K1 in K2; apply app_inj_tail in K2; tauto). subst p' q'.
  assert (Ft : Forall (fun z => on_one_edge (mp_top m) (mkC (t_x (z_left z)) (t_top (z_left z))) (mkC (t_x (z_right z)) (t_top (z_right z)))) zs) by (eapply Forall_impl; [|exact F]; intros z [K _]; exact K).
  assert (Fb : Forall (fun z => on_one_edge (mp_bot m) (mkC (t_x (z_left z)) (t_bot (z_left z))) (mkC (t_x (z_right z)) (t_bot (z_right z)))) zs) by (eapply Forall_impl; [|exact F]; intros z [_ K]; exact K).
  assert (K : forall y, sum (fun z => area_below z y) zs = sum (signed_over a b y) (edges (mp_bot m)) - sum (signed_over a b y) (edges (mp_top m))).
  { intros y. assert (R : forall l, increasing l -> sum (signed_over a b y) (edges l) = sum (over_edge a b y) (edges l)).
    { intros l I. apply sum_same. intros [u v] J. unfold signed_over. cbn [fst snd]. rewrite (proj2 (qleb_iff _ _) (lex_x _ _ (lex_lt_le _ _ (inc_edge l u v I J)))). reflexivity. }
    rewrite !R by auto. rewrite (chain_clamp (mp_bot m) p q), (chain_clamp (mp_top m) p q) by auto.
    rewrite (proj2 (chain_scan (mp_bot m) y t_bot _ _ zs I2 G Fb)), (proj2 (chain_scan (mp_top m) y t_top _ _ zs I1 G Ft)).
    clear. induction zs as [|z zs IH]; [cbn; ring|]. rewrite !sum_cons, IH. unfold area_below. cbv zeta. ring. }
  transitivity (sum (fun z => area_below z d) zs - sum (fun z => area_below z c) zs).
  - clear. induction zs as [|z zs IH]; [cbn; ring|]. rewrite !sum_cons, IH. unfold area_between. ring.
  - rewrite !K. unfold between, cellf. assert (S1' : forall (f g : pt * pt -> Qc) l, sum (fun e => f e - g e) l = sum f l - sum g l) by (intros f g l; induction l as [|e l IH]; [cbn; ring|]; rewrite !sum_cons, IH; ring).
    rewrite !S1'. ring.
Qed.
Lemma column_ok : forall m p q s a u lo hi slice, mono_pair (mp_top m) (mp_bot m) -> S_Mono.above (mp_top m) (mp_bot m) -> starts_at (mp_top m) p -> ends_at (mp_top m) q ->
  scan_reach m s -> t_x (sc_curr s) = cl (cx p) (cx q) a -> a <= u -> lo < hi -> slice <> [] ->
  exists s' slice', cross_area s u lo hi slice = Ok (s', slice') /\ scan_reach m s' /\ t_x (sc_curr s') = cl (cx p) (cx q) u /\ List.length slice' = List.length slice /\
    forall j, (j < List.length slice)%nat -> nth j slice' 0 = nth j slice 0 + between (cellf a u (row lo hi (List.length slice) j) (row lo hi (List.length slice) (S j))) m.
Proof.
  intros m p q s a u lo hi slice MP A Sp Eq R X L LH Ne.
  assert (E : mp_new (mp_top m) (mp_bot m) = Ok m) by (apply mp_new_ok; split; auto; destruct m; reflexivity).
  destruct (C40_cross_area_per_row _ _ m s u lo hi slice E A R LH Ne) as (s' & zs & slice' & E1 & E2 & E3 & E4).
  destruct (C36_scan_is_gap_free _ _ m s u q E Eq R) as (s1 & zs1 & E1' & R' & G & F & X1 & X2). rewrite E1 in E1'. injection E1' as <- <-.
  assert (PQ : cx p <= cx q). { pose proof MP as (p' & q' & S1 & S2 & T1 & T2 & N & I1 & I2). destruct (chain_bounds _ p q p I1 Sp Eq) as [_ B]; [|apply lex_x; auto]. apply (vertex_on_chain _ p' q'); auto. destruct Sp as [k ->]. left; auto. }
  assert (X' : t_x (sc_curr s') = cl (cx p) (cx q) u).
  { destruct (Qclt_le_dec (t_x (sc_curr s)) u) as [K|K].
    - rewrite (X1 K). rewrite X in K. destruct (cl_case (cx p) (cx q) a PQ) as [[A1 E0]|[[A1 [A1' E0]]|[A1 E0]]], (cl_case (cx p) (cx q) u PQ) as [[A0 E9]|[[A0 [A0' E9]]|[A0 E9]]]; rewrite E0 in K; rewrite E9; destruct (qmin_case u (cx q)) as [[Z ->]|[Z ->]]; auto; try (exfalso; qcl); apply Qcle_antisym; qcl.
    - destruct (X2 K) as [-> _]. rewrite X in K |- *. destruct (cl_case (cx p) (cx q) a PQ) as [[A1 E0]|[[A1 [A1' E0]]|[A1 E0]]], (cl_case (cx p) (cx q) u PQ) as [[A0 E9]|[[A0 [A0' E9]]|[A0 E9]]]; rewrite E0 in K |- *; rewrite E9; auto; apply Qcle_antisym; qcl. }
  exists s', slice'. split; auto. split; auto. split; auto. split; auto. intros j J. rewrite (E4 j J). f_equal. apply (scan_between m p q); auto. rewrite <- X, <- X'. auto.
Qed.
(** ** All columns of one piece *)
Definition added (lo hi left : Qc) (rights : list Qc) (arr arr' : list (list Qc)) (v : Qc -> Qc -> Qc -> Qc -> Qc) : Prop :=
  List.length arr' = List.length arr /\ forall i, (i < List.length arr)%nat -> List.length (nth i arr' []) = List.length (nth i arr []) /\
    forall j, (j < List.length (nth i arr []))%nat -> nth j (nth i arr' []) 0 = nth j (nth i arr []) 0 +
      v (nth i (left :: rights) 0) (nth i rights 0) (row lo hi (List.length (nth i arr [])) j) (row lo hi (List.length (nth i arr [])) (S j)).
Lemma columns_ok : forall m p q lo hi rights s a arr, mono_pair (mp_top m) (mp_bot m) -> S_Mono.above (mp_top m) (mp_bot m) -> starts_at (mp_top m) p -> ends_at (mp_top m) q ->
  scan_reach m s -> t_x (sc_curr s) = cl (cx p) (cx q) a -> StronglySorted Qcle (a :: rights) -> lo < hi -> List.length arr = List.length rights -> (forall r, In r arr -> r <> []) ->
  exists arr', raster_cols lo hi s rights arr = Ok arr' /\ added lo hi a rights arr arr' (fun a b c d => between (cellf a b c d) m).
Proof.
  intros m p q lo hi rights. induction rights as [|u rights IH]; intros s a arr MP A Sp Eq R X So LH Le Ne.
  - destruct arr; [|discriminate]. exists []. split; [reflexivity|]. split; [reflexivity|]. intros i L. inversion L.
  - destruct arr as [|slice arr]; [discriminate|]. inversion So as [|? ? So' Fo]; subst. inversion Fo as [|? ? L Fo']; subst.
    destruct (column_ok m p q s a u lo hi slice) as (s' & slice' & E1 & R' & X' & L1 & V); auto; [apply Ne; left; auto|].
    destruct (IH s' u arr) as (arr' & E2 & L2 & V2); auto; [intros r I; apply Ne; right; auto|].
    exists (slice' :: arr'). cbn [raster_cols]. rewrite E1. cbn [bind]. rewrite E2. cbn [bind]. split; auto. split; [cbn; lia|].
    intros [|i] Hi; cbn [nth]; [split; auto|]. apply V2. cbn in Hi. lia.
Qed.
(** ** All pieces *)
Lemma pieces_ok : forall lo hi left rights ms arr, (forall m, In m ms -> mono_pair (mp_top m) (mp_bot m) /\ S_Mono.above (mp_top m) (mp_bot m)) ->
  StronglySorted Qcle (left :: rights) -> lo < hi -> List.length arr = List.length rights -> (forall r, In r arr -> r <> []) ->
  exists arr', raster_pieces ms left rights lo hi arr = Ok arr' /\ added lo hi left rights arr arr' (fun a b c d => sum (between (cellf a b c d)) ms).
Proof.
  intros lo hi left rights. induction ms as [|m ms IH]; intros arr Hm So LH Le Ne.
  - exists arr. split; [reflexivity|]. split; auto. intros i Hi. split; auto. intros j Hj. cbn [sum fold_right]. ring.
  - destruct (Hm m) as [MP A]; [left; auto|]. pose proof MP as (p & q & S1 & S2 & E1 & E2 & N & I1 & I2).
    assert (E : mp_new (mp_top m) (mp_bot m) = Ok m) by (apply mp_new_ok; split; auto; destruct m; reflexivity).
    destruct (C36_scan_lines _ _ m left p q E S1 E1) as (s & Es & R & X).
    destruct (columns_ok m p q lo hi rights s left arr) as (arr1 & F1 & L1 & V1); auto.
    destruct (IH arr1) as (arr' & F2 & L2 & V2); auto; [intros; apply Hm; right; auto|lia| |].
    { intros r I Q. apply (In_nth _ _ []) in I as (i & Hi & <-). destruct (V1 i) as [V _]; [lia|]. rewrite Q in V. apply (Ne (nth i arr [])); [apply nth_In; lia|]. destruct (nth i arr []); auto. discriminate. }
    exists arr'. unfold raster_pieces in *. cbn [fold_res]. rewrite Es. cbn [bind]. rewrite F1. cbn [bind]. split; auto. split; [lia|]. intros i Hi. destruct (V1 i Hi) as [K1 K2]. destruct (V2 i) as [K3 K4]; [lia|]. split; [lia|].
    intros j Hj. rewrite K1 in K4. rewrite (K4 j Hj), (K2 j Hj), sum_cons. ring.
Qed.
(** Scanning all pieces of a valid polygon column by column adds to every cell of the grid
    exactly the area of the polygon in the cell. *)
Theorem C65_cells : forall presort pick P ms left rights lo hi arr, (forall l, Permutation (presort l) l) -> valid_polygon P ->
  monotone_chains presort pick P = Ok ms -> StronglySorted Qcle (left :: rights) -> lo < hi ->
  List.length arr = List.length rights -> (forall slice, In slice arr -> slice <> []) ->
  exists arr', raster_pieces ms left rights lo hi arr = Ok arr' /\ List.length arr' = List.length arr /\
    forall i, (i < List.length arr)%nat -> let n := List.length (nth i arr []) in
      List.length (nth i arr' []) = n /\
      forall j, (j < n)%nat -> nth j (nth i arr' []) 0 = nth j (nth i arr []) 0 +
        cell_area P (nth i (left :: rights) 0) (nth i rights 0) (row lo hi n j) (row lo hi n (S j)).
Proof.
  intros presort pick P ms left rights lo hi arr Ps VP E So LH Le Ne.
  destruct (pieces_ok lo hi left rights ms arr) as (arr' & F & L & V); auto.
  { intros m I. split; [apply (C41_pieces_are_monotone _ _ _ _ E m I)|apply (C63_top_over_bottom _ _ _ _ Ps VP E m I)]. }
  exists arr'. split; auto. split; auto. intros i Hi n. destruct (V i Hi) as [K1 K2]. split; auto. intros j Hj. rewrite (K2 j Hj). fold n. f_equal.
  rewrite (turns_pieces _ presort pick P ms (cellf_turns _ _ _ _) Ps E). symmetry. apply cell_part; auto.
  - clear - So Hi Le. rewrite Le in Hi. clear Le. revert left i So Hi. induction rights as [|u r IH]; intros left i So Hi; [cbn in Hi; lia|]. inversion So as [|? ? So' Fo]; subst. destruct i as [|i]; cbn [nth]; [inversion Fo; auto|]. apply IH; auto. cbn in Hi. lia.
  - apply Qclt_le_weak, row_lt; auto; unfold n in *; lia.
Qed.
(** What the area of a cell means: it is between 0 and the size of the cell, 0 if no point
    of the cell is in the polygon, the size of the cell if all its points are; the areas
    of the parts into which a cell is cut add up; and a cell around the whole polygon has
    the area of the polygon. *)
Theorem C65_area_of_a_cell : forall P, valid_polygon P -> forall a b c d, a < b -> c < d ->
  0 <= cell_area P a b c d /\ cell_area P a b c d <= (b - a) * (d - c) /\
  ((forall q, in_cell a b c d q -> inside [P] q = false) -> cell_area P a b c d = 0) /\
  ((forall q, in_cell a b c d q -> inside [P] q = true) -> cell_area P a b c d = (b - a) * (d - c)) /\
  (forall m, a <= m -> m <= b -> cell_area P a b c d = cell_area P a m c d + cell_area P m b c d) /\
  (forall m, c <= m -> m <= d -> cell_area P a b c d = cell_area P a b c m + cell_area P a b m d).
Proof.
  intros P VP a b c d L1 L2. pose proof (Qclt_le_weak _ _ L1) as L1'. pose proof (Qclt_le_weak _ _ L2) as L2'. destruct (part_ok _ (wind01 P VP) a b c d L1 L2) as (A1 & A2 & A3 & A4). rewrite cell_part by auto. split; auto. split; auto. split; [|split; [|split]].
  - intros H. apply A3. intros q I. unfold region. rewrite valid_wind, H by auto. reflexivity.
  - intros H. apply A4. intros q I. unfold region. rewrite valid_wind, H by auto. reflexivity.
  - intros m M1 M2. rewrite !cell_part by auto. apply part_cut_x; auto.
  - intros m M1 M2. rewrite !cell_part by auto. apply part_cut_y; auto.
Qed.
(** ** The rectangle around a polygon *)
Lemma over_whole : forall a b y (e : pt * pt), a <= cx (fst e) -> cx (fst e) <= cx (snd e) -> cx (snd e) <= b ->
  over_edge a b y e = area_above_0 (cx (snd e) - cx (fst e)) (y - cy (fst e)) (y - cy (snd e)) \/ over_edge a b y e = 0 /\ cx (fst e) = cx (snd e).
Proof.
  intros a b y e A L B. unfold over_edge. cbv zeta. destruct (qmax_case a (cx (fst e))) as [[K ->]|[K ->]], (qmin_case b (cx (snd e))) as [[K' ->]|[K' ->]];
  match goal with |- context [qltb ?u ?v] => destruct (qltb_case u v) as [[Z ->]|[Z ->]] end;
  try (right; split; [reflexivity|apply Qcle_antisym; qcl]); left; (assert (cx (snd e) - cx (fst e) <> 0) by (intros X; assert (cx (snd e) = cx (fst e)) by (transitivity (cx (snd e) - cx (fst e) + cx (fst e)); [ring|rewrite X; ring]); qcl));
  try (replace a with (cx (fst e)) in * by (apply Qcle_antisym; qcl)); try (replace b with (cx (snd e)) in * by (apply Qcle_antisym; qcl)); f_equal; unfold height_at; field; auto.
Qed.
Definition in_box (a b c d : Qc) (v : pt) : Prop := a <= cx v /\ cx v <= b /\ c <= cy v /\ cy v <= d.
Definition trapezoid (d : Qc) (e : pt * pt) : Qc := (cx (snd e) - cx (fst e)) * ((d - cy (fst e)) + (d - cy (snd e))) / (1 + 1).
Lemma cellf_box_right : forall a b c d (e : pt * pt), in_box a b c d (fst e) -> in_box a b c d (snd e) -> cx (fst e) <= cx (snd e) -> over_edge a b d e - over_edge a b c e = trapezoid d e.
Proof.
  intros a b c d e (A1 & A2 & A3 & A4) (B1 & B2 & B3 & B4) L. unfold trapezoid.
  destruct (over_whole a b d e A1 L B2) as [-> |[-> X]]; [|destruct (over_whole a b c e A1 L B2) as [-> |[-> X']]].
  - destruct (over_whole a b c e A1 L B2) as [-> |[-> X']]; rewrite aa_pos by qcl; [rewrite aa_neg by qcl|]; field; discriminate.
  - rewrite aa_neg by qcl. rewrite X. field; discriminate.
  - rewrite X. field; discriminate.
Qed.
Lemma cellf_box : forall a b c d (e : pt * pt), in_box a b c d (fst e) -> in_box a b c d (snd e) -> cellf a b c d e = trapezoid d e.
Proof.
  intros a b c d e H1 H2. unfold cellf, signed_over. destruct (qleb (cx (fst e)) (cx (snd e))) eqn:L; [apply qleb_iff in L; apply cellf_box_right; auto|].
  apply qleb_false in L. destruct e as [u v]. change (reversed (u, v)) with (v, u). cbn [fst snd] in *.
  transitivity (- (over_edge a b d (v, u) - over_edge a b c (v, u))); [ring|]. rewrite cellf_box_right; cbn [fst snd]; auto; [|apply Qclt_le_weak; auto]. unfold trapezoid. cbn [fst snd]. field; discriminate.
Qed.
Lemma trapezoids : forall d l u v, starts_at l u -> ends_at l v -> sum (trapezoid d) (edges l) = shoelace l + d * (cx v - cx u) - (cx v * cy v - cx u * cy u) / (1 + 1).
Proof.
  intros d. enough (H : forall l u v, starts_at l u -> ends_at l v -> (1 + 1) * sum (trapezoid d) (edges l) = sum term (edges l) + (1 + 1) * d * (cx v - cx u) - (cx v * cy v - cx u * cy u)).
  { intros l u v A B. specialize (H l u v A B). rewrite shoelace_term in H. transitivity ((1 + 1) * sum (trapezoid d) (edges l) / (1 + 1)); [field; discriminate|]. rewrite H. field; discriminate. }
  induction l as [|x l IH]; intros u v [k A] [k' B]; [discriminate|]. injection A as -> ->. destruct k as [|y l].
  - destruct k' as [|? [|? ?]]; try discriminate. injection B as ->. cbn. ring.
  - rewrite edges_cons, !sum_cons, Qcmult_plus_distr_r, (IH y v); [|exists l; auto|].
    + unfold trapezoid, term. cbn [fst snd]. field. discriminate.
    + destruct k' as [|z k']; [discriminate|]. injection B as -> B. exists k'. auto.
Qed.
Lemma ring_whole : forall a b c d l, (exists u, starts_at l u /\ ends_at l u) -> (forall v, In v l -> in_box a b c d v) -> sum (cellf a b c d) (edges l) = shoelace l.
Proof.
  intros a b c d l (u & A & B) H. rewrite (sum_ext _ (trapezoid d)).
  - rewrite (trapezoids d l u u A B). field; discriminate.
  - intros [x y] I. destruct (proj1 (P_LamGeo.edges_in _ _ _) I) as (k1 & k2 & ->). apply cellf_box; apply H; cbn [fst snd]; rewrite in_app_iff; cbn; auto.
Qed.
(** A cell around the whole polygon has the area of the polygon. *)
Theorem C65_whole_area : forall P a b c d, valid_polygon P ->
  (forall r v, In r (pg_exterior P :: pg_interiors P) -> In v r -> a <= cx v /\ cx v <= b /\ c <= cy v /\ cy v <= d) ->
  cell_area P a b c d = polygon_area P.
Proof.
  intros P a b c d VP H.
  assert (K : forall r, In r (pg_exterior P :: pg_interiors P) -> ring_cell a b c d r = magnitude (shoelace r)).
  { intros r I. unfold ring_cell. f_equal. apply ring_whole; [|intros v J; apply (H r v I J)].
    destruct (vp_rings _ VP r) as (p & l' & -> & _); [|exists p; split; [exists (l' ++ [p])|exists (p :: l')]; reflexivity].
    destruct I as [I|I]; [left; auto|right; cbn [rings_in flat_map]; rewrite app_nil_r; auto]. }
  unfold cell_area, polygon_area. rewrite (K (pg_exterior P)) by (left; auto). rewrite (sum_ext (ring_cell a b c d) (fun h => magnitude (shoelace h))); auto. intros h I. apply K. right. auto.
Qed.

(** ** The bounding rectangle *)
Lemma grow_ok : forall l r, cx (r_min r) <= cx (r_max r) -> cy (r_min r) <= cy (r_max r) -> let r' := fold_left grow l r in
  (forall v, in_box (cx (r_min r)) (cx (r_max r)) (cy (r_min r)) (cy (r_max r)) v \/ In v l -> in_box (cx (r_min r')) (cx (r_max r')) (cy (r_min r')) (cy (r_max r')) v).
Proof.
  induction l as [|c l IH]; intros r X Y r' v H; [destruct H as [H|[]]; auto|]. subst r'. cbn [fold_left].
  assert (B : forall a b x : Qc, a <= b -> qmin a x <= qmax b x /\ qmin a x <= a /\ qmin a x <= x /\ b <= qmax b x /\ x <= qmax b x).
  { intros a b x L. destruct (qmin_case a x) as [[Z ->]|[Z ->]], (qmax_case b x) as [[Z' ->]|[Z' ->]]; repeat split; qcl. }
  destruct (B _ _ (cx c) X) as (X1 & X2 & X3 & X4 & X5), (B _ _ (cy c) Y) as (Y1 & Y2 & Y3 & Y4 & Y5).
  apply IH; unfold grow; cbn [r_min r_max cx cy]; auto. destruct H as [(H1 & H2 & H3 & H4)|[<- |H]]; [left; repeat split; qcl|left; repeat split; auto|right; auto].
Qed.
Lemma bounds_ok : forall P r, poly_bounding_rect P = Some r -> forall v, In v (pg_exterior P) -> in_box (cx (r_min r)) (cx (r_max r)) (cy (r_min r)) (cy (r_max r)) v.
Proof.
  intros P r E v I. unfold poly_bounding_rect in E. destruct (pg_exterior P) as [|c l]; [discriminate|]. injection E as <-. apply grow_ok; cbn [r_min r_max cx cy]; try apply Qcle_refl.
  destruct I as [<- |I]; [left; repeat split; apply Qcle_refl|right; auto].
Qed.
Lemma exterior_closed : forall P r, valid_polygon P -> In r (pg_exterior P :: pg_interiors P) -> exists u, In u r /\ starts_at r u /\ ends_at r u.
Proof.
  intros P r VP I. destruct (vp_rings _ VP r) as (p & l' & -> & _); [|exists p; split; [left; auto|split; [exists (l' ++ [p])|exists (p :: l')]; reflexivity]].
  destruct I as [I|I]; [left; auto|right; cbn [rings_in flat_map]; rewrite app_nil_r; auto].
Qed.
Lemma bounds_some : forall P, valid_polygon P -> exists r, poly_bounding_rect P = Some r /\ cx (r_min r) < cx (r_max r) /\ cy (r_min r) < cy (r_max r).
Proof.
  intros P VP. destruct (exterior_closed P (pg_exterior P) VP (or_introl eq_refl)) as (u & I & S1 & E1).
  assert (Ex : exists r, poly_bounding_rect P = Some r) by (unfold poly_bounding_rect; destruct (pg_exterior P); [destruct I|eauto]). destruct Ex as [r E].
  exists r. split; auto. pose proof (bounds_ok P r E) as B. destruct (B u I) as (B1 & B2 & B3 & B4).
  destruct (simple_area _ (ring_valid P (pg_exterior P) VP (or_introl eq_refl))) as [_ A].
  assert (Z : shoelace (pg_exterior P) <> 0) by (intros Z; rewrite Z in A; destruct (turned _ _); revert A; apply Qcle_not_lt; apply Qcle_refl).
  assert (Q : sum (cellf (cx (r_min r)) (cx (r_max r)) (cy (r_min r)) (cy (r_max r))) (edges (pg_exterior P)) <> 0) by (rewrite ring_whole; auto; exists u; auto).
  split; apply Qcnot_le_lt; intros L; apply Q; apply sum_zero; intros e _; [|replace (cy (r_max r)) with (cy (r_min r)) by (apply Qcle_antisym; qcl); unfold cellf; ring].
  assert (K : forall y (e : pt * pt), over_edge (cx (r_min r)) (cx (r_max r)) y e = 0).
  { intros y e'. unfold over_edge. cbv zeta. destruct (qmax_case (cx (r_min r)) (cx (fst e'))) as [[K ->]|[K ->]], (qmin_case (cx (r_max r)) (cx (snd e'))) as [[K' ->]|[K' ->]]; match goal with |- context [qltb ?u ?v] => destruct (qltb_case u v) as [[Z' ->]|[Z' ->]] end; auto; exfalso; qcl. }
  unfold cellf, signed_over. rewrite !K. destruct (qleb _ _); ring.
Qed.
Lemma parity_high : forall q l u v, starts_at l u -> ends_at l v -> (forall w, In w l -> cy w < cy q) -> odd (map (ray_crosses q) (edges l)) = xorb (qleb (cx u) (cx q)) (qleb (cx v) (cx q)).
Proof.
  intros q. induction l as [|x l IH]; intros u v [k A] [k' B] H; [discriminate|]. injection A as -> ->. destruct k as [|y l].
  - destruct k' as [|? [|? ?]]; try discriminate. injection B as ->. cbn. rewrite xorb_nilpotent. reflexivity.
  - rewrite edges_cons. cbn [map]. unfold odd. cbn [fold_right]. fold (odd (map (ray_crosses q) (edges (y :: l)))). rewrite (IH y v); [|exists l; auto| |intros w I; apply H; right; auto].
    2: { destruct k' as [|z k']; [discriminate|]. injection B as -> B. exists k'. auto. }
    rewrite <- xorb_assoc. f_equal.
    assert (Hu : cy u < cy q) by (apply H; left; auto). assert (Hy : cy y < cy q) by (apply H; right; left; auto). clear - Hu Hy.
    assert (K : forall a b : pt, cy a < cy q -> cy b < cy q -> cx a <= cx q -> cx q < cx b -> qltb 0 (cross a b q) = true).
    { intros a b A B X X'. apply qltb_iff. unfold cross. qc. }
    unfold ray_crosses. destruct (qleb (cx u) (cx q)) eqn:E1, (qleb (cx y) (cx q)) eqn:E2; cbn [andb xorb];
    repeat match goal with E : qleb _ _ = true |- _ => apply qleb_iff in E | E : qleb _ _ = false |- _ => apply qleb_false in E end.
    + destruct (qltb (cx q) (cx y)) eqn:E3; [apply qltb_iff in E3; exfalso; qcl|]. destruct (qltb (cx q) (cx u)) eqn:E4; [apply qltb_iff in E4; exfalso; qcl|]. reflexivity.
    + rewrite (proj2 (qltb_iff _ _) E2). rewrite K; auto.
    + rewrite (proj2 (qltb_iff _ _) E1). rewrite K; auto.
    + reflexivity.
Qed.
Lemma inside_box : forall P r q, valid_polygon P -> poly_bounding_rect P = Some r -> ring_in (pg_exterior P) q = true -> in_box (cx (r_min r)) (cx (r_max r)) (cy (r_min r)) (cy (r_max r)) q.
Proof.
  intros P r q VP E I. pose proof (bounds_ok P r E) as B. unfold ring_in in I.
  assert (C : exists x y : pt, In x (pg_exterior P) /\ In y (pg_exterior P) /\ cx x <= cx q /\ cx q < cx y /\ 0 < cross x y q).
  { apply P_CellPieces.odd_true in I as ([a b] & J & R). destruct (proj1 (P_LamGeo.edges_in _ _ _) J) as (k1 & k2 & Q). assert (Ia : In a (pg_exterior P)) by (rewrite Q, in_app_iff; cbn; auto). assert (Ib : In b (pg_exterior P)) by (rewrite Q, in_app_iff; cbn; auto).
    unfold ray_crosses in R. destruct (qleb (cx a) (cx q) && qltb (cx q) (cx b)) eqn:T; [|destruct (qleb (cx b) (cx q) && qltb (cx q) (cx a)) eqn:T'; [|discriminate]].
    - apply andb_true_iff in T as [T1 T2]. apply qleb_iff in T1. apply qltb_iff in T2, R. exists a, b. auto.
    - apply andb_true_iff in T' as [T1 T2]. apply qleb_iff in T1. apply qltb_iff in T2, R. exists b, a. auto. }
  destruct C as (x & y & Ix & Iy & X1 & X2 & Cr). destruct (B x Ix) as (A1 & A2 & A3 & A4), (B y Iy) as (D1 & D2 & D3 & D4).
  split; [qcl|]. split; [qcl|]. split.
  - apply Qcnot_lt_le. intros L. revert Cr. apply Qcle_not_lt. unfold cross. assert (cy q < cy x) by qcl. assert (cy q < cy y) by qcl. clear - X1 X2 H H0. qc.
  - apply Qcnot_lt_le. intros L. destruct (exterior_closed P (pg_exterior P) VP (or_introl eq_refl)) as (u & _ & S1 & E1).
    rewrite (parity_high q _ u u S1 E1) in I; [rewrite xorb_nilpotent in I; discriminate|]. intros w J. destruct (B w J) as (_ & _ & _ & K). qcl.
Qed.
Lemma box_area : forall P r, valid_polygon P -> poly_bounding_rect P = Some r -> cell_area P (cx (r_min r)) (cx (r_max r)) (cy (r_min r)) (cy (r_max r)) = polygon_area P.
Proof.
  intros P r VP E. apply C65_whole_area; auto. intros l v [<- |I] J; [apply (bounds_ok P r E v J)|]. apply (inside_box P r v VP E). apply (vp_in _ VP l v I J).
Qed.
(** ** All slices together *)
Lemma between_cut_x : forall m a x b c d, a <= x -> x <= b -> between (cellf a b c d) m = between (cellf a x c d) m + between (cellf x b c d) m.
Proof.
  intros m a x b c d L1 L2. unfold between, cellf. pose proof (part_cut_x (edges (mp_bot m)) a x b c d L1 L2) as A. pose proof (part_cut_x (edges (mp_top m)) a x b c d L1 L2) as B. unfold part in A, B. rewrite A, B. ring.
Qed.
Lemma between_cut_y : forall m a b c y d, between (cellf a b c d) m = between (cellf a b c y) m + between (cellf a b y d) m.
Proof.
  intros m a b c y d. unfold between, cellf. assert (S1' : forall (f g : pt * pt -> Qc) l, sum (fun e => f e - g e) l = sum f l - sum g l) by (intros f g l; induction l as [|e l IH]; [cbn; ring|]; rewrite !sum_cons, IH; ring).
  rewrite !S1'. ring.
Qed.
Lemma nth_sum : forall (f : nat -> Qc) l l' k, List.length l' = List.length l -> (forall j, (j < List.length l)%nat -> nth j l' 0 = nth j l 0 + f (k + j)%nat) ->
  sum (fun x => x) l' = sum (fun x => x) l + sum f (seq k (List.length l)).
Proof.
  intros f. induction l as [|x l IH]; intros [|x' l'] k L H; try discriminate; [cbn; ring|]. cbn [List.length seq]. rewrite !sum_cons, (IH l' (S k)).
  - pose proof (H 0%nat ltac:(cbn; lia)) as Z. cbn [nth] in Z. rewrite Z, Nat.add_0_r. ring.
  - cbn in L. lia.
  - intros j J. specialize (H (S j)). cbn [nth List.length] in H. rewrite H by lia. f_equal. f_equal. lia.
Qed.
Lemma rows_sum : forall m a b lo hi n k j, sum (fun i => between (cellf a b (row lo hi n i) (row lo hi n (S i))) m) (seq j k) = between (cellf a b (row lo hi n j) (row lo hi n (j + k))) m.
Proof.
  intros m a b lo hi n. induction k as [|k IH]; intros j; cbn [seq].
  - rewrite Nat.add_0_r. cbn. unfold between, cellf. assert (Z : forall y l, sum (fun e => signed_over a b y e - signed_over a b y e) l = 0) by (intros y l; apply sum_zero; intros; ring). rewrite !Z. ring.
  - rewrite sum_cons, IH, <- between_cut_y. do 3 f_equal. lia.
Qed.
Lemma slices_ok : forall m p q lo hi rights s a arr, mono_pair (mp_top m) (mp_bot m) -> S_Mono.above (mp_top m) (mp_bot m) -> starts_at (mp_top m) p -> ends_at (mp_top m) q ->
  scan_reach m s -> t_x (sc_curr s) = cl (cx p) (cx q) a -> StronglySorted Qcle (a :: rights) -> lo < hi -> arr <> [] ->
  exists arr', slice_cols lo hi s rights arr = Ok arr' /\ sum (fun x => x) arr' = sum (fun x => x) arr + between (cellf a (last rights a) lo hi) m.
Proof.
  intros m p q lo hi. induction rights as [|u rights IH]; intros s a arr MP A Sp Eq R X So LH Ne.
  - exists arr. split; auto. cbn [last]. enough (Z : between (cellf a a lo hi) m = 0) by (rewrite Z; ring). pose proof (between_cut_x m a a a lo hi (Qcle_refl a) (Qcle_refl a)) as Z. set (z := between _ _) in *. clearbody z.
    transitivity (z + z - z); [ring|rewrite <- Z; ring].
  - inversion So as [|? ? So' Fo]; subst. inversion Fo as [|? ? L Fo']; subst.
    destruct (column_ok m p q s a u lo hi arr) as (s' & arr1 & E1 & R' & X' & L1 & V); auto.
    destruct (IH s' u arr1) as (arr' & E2 & V2); auto; [intros ->; destruct arr; [auto|discriminate]|].
    exists arr'. cbn [slice_cols]. rewrite E1. cbn [bind]. split; auto.
    rewrite V2, (nth_sum (fun i => between (cellf a u (row lo hi (List.length arr) i) (row lo hi (List.length arr) (S i))) m) arr arr1 0 L1 V), rows_sum.
    assert (N : (0 < List.length arr)%nat) by (destruct arr; [contradiction|cbn; lia]). rewrite row_0, Nat.add_0_l, row_n by auto.
    assert (Z : last (u :: rights) a = last rights u) by (clear; revert a u; induction rights as [|v r IH]; intros; auto; change (last (v :: r) a = last (v :: r) u); clear IH; revert v; induction r as [|w r IH]; intros; auto; apply IH).
    rewrite Z, (between_cut_x m a u (last rights u)); auto; [ring|]. clear - So'. revert u So'. induction rights as [|v r IH]; intros u So; [apply Qcle_refl|].
    inversion So as [|? ? So' Fo]; subst. inversion Fo; subst. apply Qcle_trans with v; auto. assert (Z : last (v :: r) u = last r v) by (clear; revert u v; induction r as [|w r IH]; intros; auto; change (last (w :: r) u = last (w :: r) v); clear IH; revert w; induction r as [|w' r IH]; intros; auto; apply IH). rewrite Z. apply IH; auto.
Qed.
Lemma stops_sorted : forall lo hi n k i, lo < hi -> (0 < n)%nat -> StronglySorted Qcle (map (row lo hi n) (seq i k)).
Proof.
  intros lo hi n k. induction k as [|k IH]; intros i LH N; [constructor|]. cbn [seq map]. constructor; auto. apply Forall_forall. intros x I. apply in_map_iff in I as (j & <- & J). apply in_seq in J. apply row_le; auto; lia.
Qed.
Lemma fold_left_sum : forall l x, fold_left Qcplus l x = x + sum (fun y => y) l.
Proof. induction l as [|y l IH]; intros x; [cbn; ring|]. cbn [fold_left]. rewrite IH, sum_cons. ring. Qed.
(** The areas that the scanners of all pieces report, in slices over the bounding
    rectangle, add up to the area of the polygon. *)
Theorem C66_scanned_area : forall presort pick P n, (forall l, Permutation (presort l) l) -> valid_polygon P -> (0 < n)%nat ->
  scanned_area presort pick P n = Ok (polygon_area P).
Proof.
  intros presort pick P n Ps VP N. destruct (bounds_some P VP) as (r & E & LX & LY). unfold scanned_area. rewrite E. cbn [expect bind].
  destruct (C61_decomposition_succeeds presort pick P Ps VP) as (ms & Em). rewrite Em. cbn [bind].
  set (left := cx (r_min r)) in *. set (right_ := cx (r_max r)) in *. set (lo := cy (r_min r)) in *. set (hi := cy (r_max r)) in *.
  assert (Q : map (fun i => qmin right_ (left + of_nat (i + 1) * ((right_ - left) / of_nat n))) (seq 0 n) = map (row left right_ n) (seq 1 n)).
  { rewrite <- seq_shift, map_map. apply map_ext_in. intros i I. apply in_seq in I. rewrite Nat.add_1_r. change (left + of_nat (S i) * ((right_ - left) / of_nat n)) with (row left right_ n (S i)).
    assert (K : row left right_ n (S i) <= right_) by (rewrite <- (row_n left right_ n) at 2 by auto; apply row_le; auto; lia).
    destruct (qmin_case right_ (row left right_ n (S i))) as [[Z ->]|[Z ->]]; auto. apply Qcle_antisym; auto. }
  rewrite Q. clear Q.
  assert (H : forall ms' t, (forall m, In m ms' -> In m ms) -> fold_res (fun total m => let* s := mp_scan_lines m left in let* arr := slice_cols lo hi s (map (row left right_ n) (seq 1 n)) (repeat 0 n) in Ok (total + fold_left Qcplus arr 0)) t ms' = Ok (t + sum (between (cellf left right_ lo hi)) ms')).
  { induction ms' as [|m ms' IH]; intros t Im; [cbn [fold_res]; f_equal; cbn; ring|].
    assert (I : In m ms) by (apply Im; left; auto). pose proof (C41_pieces_are_monotone _ _ _ _ Em m I) as MP. pose proof (C63_top_over_bottom _ _ _ _ Ps VP Em m I) as A. pose proof MP as (p & q & S1 & S2 & E1 & E2 & Nn & I1 & I2).
    assert (En : mp_new (mp_top m) (mp_bot m) = Ok m) by (apply mp_new_ok; split; auto; destruct m; reflexivity).
    destruct (C36_scan_lines _ _ m left p q En S1 E1) as (s & Es & R & X).
    destruct (slices_ok m p q lo hi (map (row left right_ n) (seq 1 n)) s left (repeat 0 n)) as (arr' & F & V); auto.
    { rewrite <- (row_0 left right_ n) at 1 by auto. change (StronglySorted Qcle (map (row left right_ n) (seq 0 (S n)))). apply stops_sorted; auto. }
    { destruct n; [lia|discriminate]. }
    cbn [fold_res]. rewrite Es. cbn [bind]. rewrite F. cbn [bind]. rewrite IH by (intros; apply Im; right; auto). f_equal. rewrite fold_left_sum, V, sum_cons.
    assert (La : last (map (row left right_ n) (seq 1 n)) left = right_). { destruct n as [|n]; [lia|]. rewrite seq_S, map_app. cbn [map]. rewrite last_last. change (1 + n)%nat with (S n). apply row_n; auto. }
    rewrite La. assert (Z : sum (fun x : Qc => x) (repeat 0 n) = 0) by (apply sum_zero; intros x Ix; apply repeat_spec in Ix; auto). rewrite Z. ring. }
  rewrite H by auto. f_equal. rewrite (turns_pieces _ presort pick P ms (cellf_turns _ _ _ _) Ps Em).
  change (0 + part (region P) left right_ lo hi = polygon_area P). rewrite <- cell_part by (auto; apply Qclt_le_weak; auto). unfold left, right_, lo, hi. rewrite (box_area P r VP E). ring.
Qed.
Lemma cell_none : forall P a c d, cell_area P a a c d = 0.
Proof.
  intros P a c d. assert (K : forall y (e : pt * pt), over_edge a a y e = 0).
  { intros y e'. unfold over_edge. cbv zeta. destruct (qmax_case a (cx (fst e'))) as [[K ->]|[K ->]], (qmin_case a (cx (snd e'))) as [[K' ->]|[K' ->]]; match goal with |- context [qltb ?u ?v] => destruct (qltb_case u v) as [[Z' ->]|[Z' ->]] end; auto; exfalso; qcl. }
  assert (R : forall l, ring_cell a a c d l = 0).
  { intros l. unfold ring_cell. rewrite sum_zero; [reflexivity|]. intros e _. unfold signed_over. rewrite !K. destruct (qleb _ _); ring. }
  unfold cell_area. rewrite R, sum_zero by auto. ring.
Qed.
(** The rasteriser of the benchmarks is one column late: the first column of its array is
    empty, every other one has the areas of the cells of the column before, and those of
    the last column of cells are nowhere. *)
Theorem C67_benchmark_areas : forall presort pick P width height r, (forall l, Permutation (presort l) l) -> valid_polygon (swap_poly P) -> (0 < width)%nat ->
  poly_bounding_rect (swap_poly P) = Some r ->
  exists arr, our_area presort pick P width height = Ok arr /\ List.length arr = height /\
    forall i j, (i < height)%nat -> (j < width)%nat ->
      let column := row (cx (r_min r)) (cx (r_max r)) height in
      let line := row (cy (r_min r)) (cy (r_max r)) width in
      List.length (nth i arr []) = width /\
      (i = 0%nat -> nth j (nth i arr []) 0 = 0) /\
      (forall i', i = S i' -> nth j (nth i arr []) 0 = cell_area (swap_poly P) (column i') (column i) (line j) (line (S j))).
Proof.
  intros presort pick P width height r Ps VP W E. destruct (bounds_some _ VP) as (r' & E' & LX & LY). rewrite E in E'. injection E' as <-.
  unfold our_area. rewrite E. cbn [expect bind]. destruct (C61_decomposition_succeeds presort pick _ Ps VP) as (ms & Em). rewrite Em. cbn [bind].
  set (left := cx (r_min r)) in *. set (right_ := cx (r_max r)) in *. set (lo := cy (r_min r)) in *. set (hi := cy (r_max r)) in *.
  assert (Q : map (fun i => left + (right_ - left) / of_nat height * of_nat i) (seq 0 height) = map (row left right_ height) (seq 0 height)).
  { apply map_ext. intros i. rewrite Qcmult_comm. reflexivity. }
  rewrite Q. clear Q.
  destruct (C65_cells presort pick (swap_poly P) ms left (map (row left right_ height) (seq 0 height)) lo hi (repeat (repeat 0 width) height)) as (arr & F & L & V); auto.
  { destruct height as [|h]; [cbn; constructor; constructor|]. constructor; [apply stops_sorted; auto; lia|]. apply Forall_forall. intros x I. apply in_map_iff in I as (k & <- & _). rewrite <- (row_0 left right_ (S h)) at 1 by (auto; lia). apply row_le; auto; lia. }
  { rewrite repeat_length, map_length, seq_length. reflexivity. }
  { intros sl I. apply repeat_spec in I. subst sl. destruct width; [lia|discriminate]. }
  rewrite repeat_length in L, V. exists arr. split; [exact F|]. split; [exact L|]. intros i j Hi Hj. set (column := row left right_ height). destruct (V i Hi) as [V1 V2]. assert (Nr : nth i (repeat (repeat 0 width) height) [] = repeat 0 width) by (rewrite (nth_indep _ _ (repeat 0 width)) by (rewrite repeat_length; auto); apply nth_repeat). rewrite Nr, repeat_length in V1, V2. split; auto.
  rewrite (V2 j Hj), nth_repeat, Qcplus_0_l. clear V V1 V2. fold column. assert (Nt : forall k, (k < height)%nat -> nth k (map column (seq 0 height)) 0 = column k).
  { intros k K. rewrite (nth_indep _ _ (column 0%nat)) by (rewrite map_length, seq_length; auto). rewrite map_nth, seq_nth by auto. reflexivity. }
  rewrite (Nt i Hi). split; [intros -> |intros i' ->]; cbn [nth]; [|rewrite Nt by lia; reflexivity].
  unfold column. rewrite row_0 by auto. apply cell_none.
Qed.
(** ** Examples *)
Local Open Scope nat_scope.
Definition whole (x : Z) : Qc := Q2Qc (x # 1).
(** Six cells of the polygon of the tests, with the right area in each. *)
Example C65_example : valid_polygon simple_merge /\
  match monotone_chains (fun l => l) (fun _ _ _ => 0) simple_merge with
  | Ok ms => match raster_pieces ms (whole (-10)) (map whole [0; 10; 20]%Z) (whole (-20)) (whole 20) (repeat (repeat (whole 0) 2) 3) with
             | Ok arr => map (map this) arr | _ => [] end
  | _ => []
  end = [[100; 100]; [150; 149]; [50; 50]]%Q.
Proof. split; [exact simple_merge_valid|]. vm_compute. reflexivity. Qed.
(** The whole area in 16 slices, as in the tests. *)
Example C66_example : valid_polygon simple_merge /\
  match scanned_area (fun l => l) (fun _ _ _ => 0) simple_merge 16 with Ok a => this a | _ => 0%Q end = (599 # 1)%Q.
Proof. split; [exact simple_merge_valid|]. vm_compute. reflexivity. Qed.
(** The benchmark's array for the same polygon, with three columns: an empty one, then
    those of the first and the second column of cells. *)
Example C67_example : valid_polygon (swap_poly (swap_poly simple_merge)) /\
  match our_area (fun l => l) (fun _ _ _ => 0) (swap_poly simple_merge) 2 3 with Ok arr => map (map this) arr | _ => [] end = [[0; 0]; [100; 100]; [150; 149]]%Q.
Proof. split; [exact simple_merge_valid|]. vm_compute. reflexivity. Qed.
(** So the areas do not add up to that of the polygon. *)
Theorem C67_total_refuted : exists P width height arr, valid_polygon (swap_poly P) /\ 0 < width /\ 0 < height /\
  our_area (fun l => l) (fun _ _ _ => 0) P width height = Ok arr /\ sum (fun r => sum (fun x => x) r) arr <> polygon_area (swap_poly P).
Proof.
  exists (swap_poly simple_merge), 2, 3. destruct (our_area (fun l => l) (fun _ _ _ => 0) (swap_poly simple_merge) 2 3) as [arr| |] eqn:E; [|exfalso; vm_compute in E; discriminate E|exfalso; vm_compute in E; discriminate E]. exists arr. split; [exact simple_merge_valid|]. split; [auto|]. split; [auto|]. split; [reflexivity|].
  vm_compute in E. injection E as <-. intros Q. apply (f_equal this) in Q. vm_compute in Q. discriminate Q.
Qed.
