(** How many pieces a decomposition has; polygons that are monotone already. *)
Require Import List String Bool Arith Lia Permutation ZArith QArith.
From Verif Require Import Base Scalar M_Events M_Geo M_LineOrPoint M_Rings M_Op.
From Verif Require Import S_Geo P_Geo S_Boundary M_MonoPoly S_Mono P_Mono S_Rings S_Op S_Laminar P_OpLab P_OpPoint P_OpPoly P_Order.
From Verif Require Import M_MonoSweep M_Chains S_Chains P_MonoTotal Props_Chains Props_Decomp Props_Area P_Pieces P_MonoGeo P_ChainStep P_LamGeo P_MonoAbove P_OpTotal S_Corners P_PieceTotal Props_Pieces.
Import Datatypes.
Import ListNotations.
Local Open Scope list_scope.
Local Open Scope nat_scope.

(** ** C81 *)
(** There are at most as many pieces as vertices before both their neighbours. *)
Theorem C81_number_of_pieces : forall presort pick P ms L, (forall l, Permutation (presort l) l) -> valid_polygon P -> monotone_chains presort pick P = Ok ms ->
  (forall v, first_corner P v -> In v L) -> 0 < List.length ms <= List.length L.
Proof.
  intros presort pick P ms L Ps VP E HL. split.
  - destruct ms as [|m ms]; [|cbn; lia]. exfalso. destruct (C42_edges_of_valid_polygons _ _ _ _ Ps VP E) as (d & Pm). apply Permutation_length in Pm. rewrite app_length in Pm. cbn [flat_map List.length] in Pm.
    assert (Z : region_right P = []) by (destruct (region_right P); [auto|cbn in Pm; lia]). destruct (vp_rings _ VP (pg_exterior P)) as (p & l' & El & _ & Ln); [left; auto|]. destruct l' as [|x l']; [cbn in Ln; lia|].
    unfold region_right, region_left in Z. cbn [flat_map r_coords r_hole] in Z. apply app_eq_nil in Z as [Z _]. rewrite El in Z. cbn [app] in Z. destruct (ls_winding_order _) as [[|]|] in Z; rewrite edges_cons in Z; discriminate Z.
  - destruct (total_count P VP presort pick Ps L (doubles P (P_OpLab.ez (P_LamSpec.ln (P_MonoInit.prs P)))) ms) as [T _]; auto.
    + intros v c1 c2 L1 L2 N E1 E2. apply HL. apply (first_two P VP v c1 c2); auto.
    + intros v c1 c2. apply doubles_in.
Qed.
(** With the vertices after both their neighbours, they also bound how many sides the
    pieces have together. *)
Theorem C81_number_of_sides : forall presort pick P ms L R, (forall l, Permutation (presort l) l) -> valid_polygon P -> monotone_chains presort pick P = Ok ms ->
  (forall v, first_corner P v -> In v L) -> (forall v, last_corner P v -> In v R) ->
  List.length (flat_map piece_edges ms) <= List.length (all_edges [P]) + 2 * List.length L + 2 * List.length R.
Proof.
  intros presort pick P ms L R Ps VP E HL HR. destruct (total_count P VP presort pick Ps L R ms) as [_ T]; auto.
  - intros v c1 c2 L1 L2 N E1 E2. apply HL. apply (first_two P VP v c1 c2); auto.
  - intros v c1 c2 L1 L2 N E1 E2. apply HR. apply (last_two P VP v c1 c2); auto.
  - rewrite <- pieces_len, n_len in T; [lia|]. intros m I. destruct (C41_pieces_are_monotone _ _ _ _ E m I) as (p & q & [k ->] & [k' ->] & _). split; discriminate.
Qed.
(** A polygon with [n] sides has at most [n / 2] pieces, with at most [3 n] sides. *)
Theorem C81_linear : forall presort pick P ms, (forall l, Permutation (presort l) l) -> valid_polygon P -> monotone_chains presort pick P = Ok ms ->
  2 * List.length ms <= List.length (all_edges [P]) /\ List.length (flat_map piece_edges ms) <= 3 * List.length (all_edges [P]).
Proof.
  intros presort pick P ms Ps VP E. set (A := doubles P (P_OpLab.ea (P_LamSpec.ln (P_MonoInit.prs P)))). set (Z := doubles P (P_OpLab.ez (P_LamSpec.ln (P_MonoInit.prs P)))).
  destruct (total_count P VP presort pick Ps A Z ms) as [T1 T2]; auto; [intros v c1 c2; apply doubles_in|intros v c1 c2; apply doubles_in|].
  pose proof (doubles_len P (P_OpLab.ea (P_LamSpec.ln (P_MonoInit.prs P)))) as D1. pose proof (doubles_len P (P_OpLab.ez (P_LamSpec.ln (P_MonoInit.prs P)))) as D2. fold A in D1. fold Z in D2.
  rewrite <- pieces_len in T2; [rewrite n_len in *; lia|]. intros m I. destruct (C41_pieces_are_monotone _ _ _ _ E m I) as (p & q & [k ->] & [k' ->] & _). split; discriminate.
Qed.

(** ** C82 *)
Lemma sorted_same : forall {X} (R : X -> X -> Prop) l l', (forall a b, R a b -> R b a -> False) -> ForallOrdPairs R l -> ForallOrdPairs R l' -> Permutation l l' -> l = l'.
Proof.
  intros X R l l' As F. revert l'. induction F as [|a l Fa F IH]; intros l' F' P; [symmetry; apply Permutation_nil; auto|]. destruct l' as [|a' l']; [apply Permutation_sym, Permutation_nil in P; discriminate|]. inversion F' as [|? ? Fa' F'']; subst.
  rewrite Forall_forall in Fa, Fa'. assert (Q : a = a').
  { assert (I : In a (a' :: l')) by (apply (Permutation_in _ P); left; auto). assert (I' : In a' (a :: l)) by (apply (Permutation_in _ (Permutation_sym P)); left; auto). destruct I as [I|I]; auto. destruct I' as [I'|I']; auto. exfalso. eauto. }
  subst a'. f_equal. apply IH; auto. apply Permutation_cons_inv in P. exact P.
Qed.
Lemma edges_snd : forall (l : list pt) a, map snd (edges (a :: l)) = l.
Proof. induction l as [|b l IH]; intros a; [reflexivity|]. rewrite edges_cons. cbn [map snd]. f_equal. apply IH. Qed.
Lemma chain_same : forall l l' p q p' q', S_Mono.starts_at l p -> S_Mono.ends_at l q -> p <> q -> S_Mono.starts_at l' p' -> S_Mono.ends_at l' q' -> p' <> q' -> increasing l -> increasing l' -> Permutation (edges l) (edges l') -> l = l'.
Proof.
  assert (Two : forall l p q, S_Mono.starts_at l p -> S_Mono.ends_at l q -> p <> q -> exists b r, l = p :: b :: r).
  { intros l p q [k ->] [k' E] N. destruct k as [|b r]; eauto. destruct k' as [|? [|? ?]]; cbn in E; injection E as E; congruence. }
  intros l l' p q p' q' S1 E1 N1 S2 E2 N2 I I' Pm. pose proof (edges_sorted l I) as F. pose proof (edges_sorted l' I') as F'. apply (sorted_same (fun e e' => lex_lt (fst e) (snd e) /\ lex_lt (fst e') (snd e') /\ lex_le (snd e) (fst e'))) in Pm; auto.
  - destruct (Two l p q S1 E1 N1) as (b & r & ->). destruct (Two l' p' q' S2 E2 N2) as (b' & r' & ->). pose proof (f_equal (map snd) Pm) as M. rewrite !edges_snd in M. rewrite !edges_cons in Pm. injection Pm as -> _ _. congruence.
  - intros [a b] [c d]. cbn [fst snd]. intros (L1 & L2 & L3) (L4 & L5 & L6). lord.
Qed.
Definition onward (e : pt * pt) : bool := pltb (fst e) (snd e).
Lemma onward_top : forall m, mono_pair (mp_top m) (mp_bot m) -> filter onward (piece_edges m) = edges (mp_top m) /\ filter (fun e => negb (onward e)) (piece_edges m) = map reversed (edges (mp_bot m)).
Proof.
  intros [t b] (p & q & _ & _ & _ & _ & _ & I1 & I2). unfold piece_edges. cbn [mp_top mp_bot] in *. rewrite !filter_app.
  assert (A : forall x, In x (edges t) -> onward x = true) by (intros [u v] I; apply pltb_iff; apply (inc_edge t); auto).
  assert (B : forall x, In x (map reversed (edges b)) -> onward x = false).
  { intros x I. apply in_map_iff in I as ([u v] & <- & I). apply not_true_iff_false. intros Z. apply pltb_iff in Z. cbn in Z. pose proof (inc_edge b u v I2 I). lord. }
  rewrite (P_ChainDesc.filter_all onward (edges t)), (P_ChainDesc.filter_none onward (map reversed _)), (P_ChainDesc.filter_none (fun e => negb (onward e)) (edges t)), (P_ChainDesc.filter_all (fun e => negb (onward e)) (map reversed _)); [rewrite app_nil_r; auto| | | |]; intros x I; rewrite ?(A x I), ?(B x I); reflexivity.
Qed.
Lemma filter_perm : forall {X} (f : X -> bool) l l', Permutation l l' -> Permutation (filter f l) (filter f l').
Proof.
  intros X f l l' P. induction P as [|x l l' P IH|x y l|l l1 l2 P1 IH1 P2 IH2]; cbn [filter]; auto.
  - destruct (f x); auto.
  - destruct (f x), (f y); auto. apply perm_swap.
  - eapply perm_trans; eauto.
Qed.
(** A piece is known from its boundary. *)
Lemma same_piece : forall m m', mono_pair (mp_top m) (mp_bot m) -> mono_pair (mp_top m') (mp_bot m') -> Permutation (piece_edges m) (piece_edges m') -> m = m'.
Proof.
  intros m m' M M' Pm. destruct (onward_top m M) as [T B]. destruct (onward_top m' M') as [T' B']. pose proof (filter_perm onward _ _ Pm) as P1. pose proof (filter_perm (fun e => negb (onward e)) _ _ Pm) as P2. rewrite T, T' in P1. rewrite B, B' in P2.
  apply (Permutation_map reversed) in P2. rewrite !map_map in P2. assert (Id : forall l, map (fun x => reversed (reversed x)) l = l) by (intros l; rewrite <- (map_id l) at 2; apply map_ext; intros [a b]; reflexivity). rewrite !Id in P2.
  destruct M as (p & q & S1 & S2 & E1 & E2 & N & I1 & I2). destruct M' as (p' & q' & S1' & S2' & E1' & E2' & N' & I1' & I2'). destruct m as [t b], m' as [t' b']. cbn [mp_top mp_bot] in *. f_equal; [apply (chain_same t t' p q p' q')|apply (chain_same b b' p q p' q')]; auto.
Qed.
(** No edge of a valid polygon is also one in the other direction. *)
Lemma no_return : forall P a b, valid_polygon P -> In (a, b) (all_edges [P]) -> In (b, a) (all_edges [P]) -> False.
Proof.
  intros P a b VP I J. destruct (pt_dec a b) as [->|N].
  - unfold all_edges in I. apply in_flat_map in I as (r & R & I). apply (P_LamSpec.proper_neq _ _ _ (vp_rings _ VP r R) I). reflexivity.
  - assert (K : forall l, ForallOrdPairs meet_at_ends l -> In (a, b) l -> In (b, a) l -> meet_at_ends (a, b) (b, a)).
    { intros l F. induction F as [|x l Fx F IH]; intros A B; [destruct A|]. rewrite Forall_forall in Fx. destruct A as [->|A], B as [B|B]; auto; [congruence|]. subst x. apply meet_sym. auto. }
    pose proof (K _ (vp_edges _ VP) I J) as M.
    assert (H : forall a b, lex_lt a b -> meet_at_ends (a, b) (b, a) -> False).
    { clear. intros a b L M. destruct (inner _ _ L) as (r & R1 & R2 & R3). destruct (M r) as [[Q|Q] _]; cbn [fst snd] in *; auto. apply on_seg_sym. auto. }
    destruct (lex_total a b) as [[L|L]|L]; [apply (H a b); auto|congruence|]. apply (H b a); auto. apply meet_sym. auto.
Qed.
(** The only vertex of a monotone polygon before both its neighbours is its first. *)
Lemma one_corner : forall m pg p, mono_pair (mp_top m) (mp_bot m) -> mp_into_polygon m = Ok pg -> S_Mono.starts_at (mp_top m) p -> forall v, first_corner pg v -> In v [p].
Proof.
  intros m pg p MP E Sp v ((a & b & I & D) & F). rewrite into_polygon_ok in E by auto. injection E as <-. unfold all_edges, rings_in in *. cbn [flat_map pg_exterior pg_interiors app] in *. rewrite !app_nil_r in *. rewrite into_polygon_edges in * by auto.
  destruct MP as (p0 & q & S1 & S2 & E1 & E2 & N & I1 & I2). assert (p0 = p) by (destruct S1 as [k1 K1], Sp as [k2 K2]; congruence). subst p0.
  assert (H : forall l a b, S_Mono.starts_at l p -> In (a, b) (edges l) -> a = p \/ exists u, In (u, a) (edges l)).
  { clear. intros l a b [k ->] I. apply edges_in in I as (x & y & Q). destruct x as [|x0 x]; [injection Q as -> _; auto|]. right. destruct (exists_last (l := x0 :: x)) as (x' & u & Z); [discriminate|]. exists u. apply edges_in. exists x', (b :: y). rewrite Q, Z, <- app_assoc. reflexivity. }
  assert (T : forall u, In (u, v) (edges (mp_top m)) -> False).
  { intros u J. pose proof (inc_edge _ u v I1 J). destruct (F u v) as [_ Z]; [apply in_or_app; auto|]. specialize (Z eq_refl). lord. }
  assert (B : forall u, In (u, v) (edges (mp_bot m)) -> False).
  { intros u J. pose proof (inc_edge _ u v I2 J). destruct (F v u) as [Z _]; [apply in_or_app; right; rewrite <- in_rev; apply in_map_iff; exists (u, v); auto|]. specialize (Z eq_refl). lord. }
  left. symmetry. apply in_app_iff in I as [I|I].
  - destruct D as [<-|<-]; [|destruct (T a I)]. destruct (H _ a b S1 I) as [Z|[u Z]]; auto. destruct (T u Z).
  - apply in_rev, in_map_iff in I as ([c d] & Q & I). injection Q as <- <-. destruct D as [<-|<-]; [destruct (B c I)|]. destruct (H _ c d S2 I) as [Z|[u Z]]; auto. destruct (B u Z).
Qed.
(** A polygon with one such vertex is one piece. *)
Theorem C82_one_piece : forall presort pick P v, (forall l, Permutation (presort l) l) -> valid_polygon P -> (forall u, first_corner P u -> u = v) ->
  exists m, monotone_chains presort pick P = Ok [m] /\ Permutation (piece_edges m) (region_right P).
Proof.
  intros presort pick P v Ps VP U. destruct (decompose_all P VP presort pick Ps) as (D & d & E & Ti & Pd & Or & _). set (ms := map P_MonoRun.piece D) in *. clearbody ms.
  destruct (C81_number_of_pieces presort pick P ms [v] Ps VP E) as [K1 K2]; [intros u Fu; left; symmetry; auto|]. destruct ms as [|m [|m' ms]]; cbn [List.length] in K1, K2; try lia. exists m. split; auto.
  cbn [flat_map] in Pd. rewrite app_nil_r in Pd. destruct d as [|[a b] d]; [cbn [app map] in Pd; rewrite app_nil_r in Pd; exact Pd|]. exfalso.
  pose proof (C41_pieces_are_monotone _ _ _ _ E m (or_introl eq_refl)) as MP. pose proof (piece_valid m MP (fun q => Or m q (or_introl eq_refl)) (Ti m (or_introl eq_refl))) as VM.
  assert (H : forall x, In x (piece_edges m) -> In x (all_edges [mkPolygon (mp_top m ++ tl (rev (mp_bot m))) []])).
  { intros x I. unfold all_edges, rings_in. cbn [flat_map pg_exterior pg_interiors app]. rewrite !app_nil_r, into_polygon_edges by auto. apply in_app_iff in I. apply in_app_iff. rewrite <- in_rev. exact I. }
  apply (no_return _ a b VM); apply H; apply (Permutation_in _ (Permutation_sym Pd)); apply in_or_app; right; cbn; auto. right. apply in_or_app. right. left. reflexivity.
Qed.
(** A monotone polygon is given back as it is. *)
Theorem C82_monotone_polygons_stay : forall presort pick m pg, (forall l, Permutation (presort l) l) -> mono_pair (mp_top m) (mp_bot m) -> S_Mono.above (mp_top m) (mp_bot m) ->
  mp_into_polygon m = Ok pg -> valid_polygon pg -> monotone_chains presort pick pg = Ok [m].
Proof.
  intros presort pick m pg Ps MP Ab E VP. pose proof MP as (p & q & S1 & _). destruct (C82_one_piece presort pick pg p Ps VP) as (m' & R & Pm).
  - intros u Fu. destruct (one_corner m pg p MP E S1 u Fu) as [Z|[]]. auto.
  - rewrite R. do 2 f_equal. pose proof (C41_pieces_are_monotone _ _ _ _ R m' (or_introl eq_refl)) as MP'. apply same_piece; auto. rewrite Pm. pose proof (piece_area_eq m pg MP E) as A. pose proof (piece_nonneg m MP Ab) as A0.
    rewrite into_polygon_ok in E by auto. injection E as <-. cbn [pg_exterior] in A. destruct (C64_winding_and_area _ VP) as [W1 W2]. destruct (simple_area _ VP) as [W0 _].
    assert (W : ls_winding_order (mp_top m ++ tl (rev (mp_bot m))) = Some Cw).
    { destruct (ls_winding_order _) as [[|]|]; auto; [|contradiction]. exfalso. pose proof (proj1 W1 eq_refl). qcl. }
    unfold region_right, region_left. cbn [flat_map map pg_exterior pg_interiors r_coords r_hole]. rewrite W, app_nil_r, map_map. rewrite (map_ext _ (fun x => x)) by (intros [a b]; reflexivity). rewrite map_id, into_polygon_edges by auto. unfold piece_edges. apply Permutation_app_head. symmetry. apply Permutation_rev.
Qed.
(** Decomposing a piece again gives the piece. *)
Theorem C82_pieces_stay : forall presort pick P ms presort' pick', (forall l, Permutation (presort l) l) -> (forall l, Permutation (presort' l) l) -> valid_polygon P -> monotone_chains presort pick P = Ok ms ->
  forall m, In m ms -> exists pg, mp_into_polygon m = Ok pg /\ monotone_chains presort' pick' pg = Ok [m].
Proof.
  intros presort pick P ms presort' pick' Ps Ps' VP E m I. pose proof (C41_pieces_are_monotone _ _ _ _ E m I) as MP. exists (mkPolygon (mp_top m ++ tl (rev (mp_bot m))) []). split; [apply into_polygon_ok; auto|].
  apply C82_monotone_polygons_stay; auto; [apply (C63_top_over_bottom _ _ _ _ Ps VP E m I)|apply into_polygon_ok; auto|].
  destruct (decompose_all P VP presort pick Ps) as (D & d & E' & Ti & _ & Or & _). rewrite E in E'. injection E' as ->. apply piece_valid; auto.
Qed.

(** The vertices before both their neighbours, computed. *)
Definition firsts (P : polygon) : list pt :=
  filter (fun v => forallb (fun e => (negb (peqb (fst e) v) || pltb v (snd e)) && (negb (peqb (snd e) v) || pltb v (fst e))) (all_edges [P])) (map fst (all_edges [P])).
Lemma firsts_all : forall P, valid_polygon P -> forall v, first_corner P v -> In v (firsts P).
Proof.
  intros P VP v ((a & b & I & D) & F). apply filter_In. split.
  - unfold all_edges in *. apply in_flat_map in I as (r & R & I). apply edges_mem in I as [I1 I2]. destruct (P_MonoInit.ring_both r v (vp_rings _ VP r R)) as (x & y & _ & J); [destruct D; subst; auto|]. apply in_map_iff. exists (v, y). split; auto. apply in_flat_map. eauto.
  - apply forallb_forall. intros [x y] J. destruct (F x y J) as [F1 F2]. cbn [fst snd]. apply andb_true_iff. split.
    + destruct (peqb_spec x v) as [Z|Z]; [|reflexivity]. apply pltb_iff. auto.
    + destruct (peqb_spec y v) as [Z|Z]; [|reflexivity]. apply pltb_iff. auto.
Qed.
(** The bound is attained: three such vertices, three pieces. *)
Example C81_example : valid_polygon simple_merge /\ monotone_chains (fun l => l) (fun _ _ _ => 0) simple_merge = Ok merge_chains /\
  (forall v, first_corner simple_merge v -> In v (firsts simple_merge)) /\ List.length (firsts simple_merge) = 3 /\ List.length merge_chains = 3 /\
  List.length (all_edges [simple_merge]) = 10 /\ List.length (flat_map piece_edges merge_chains) = 16.
Proof.
  split; [exact simple_merge_valid|]. split; [vm_compute; reflexivity|]. split; [apply firsts_all; exact simple_merge_valid|]. split; [vm_compute; reflexivity|]. split; [reflexivity|]. split; vm_compute; reflexivity.
Qed.
(** Its pieces, decomposed again with the equal events and the B-tree the other way
    round. *)
Example C82_example : forall m, In m merge_chains -> exists pg, mp_into_polygon m = Ok pg /\ monotone_chains (@rev event) (fun _ _ _ => 1) pg = Ok [m].
Proof.
  destruct C81_example as (V & E & _). apply (C82_pieces_stay (fun l => l) (fun _ _ _ => 0) simple_merge merge_chains); auto. intros l. symmetry. apply Permutation_rev.
Qed.
