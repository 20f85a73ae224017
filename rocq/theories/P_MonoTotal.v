(** Monotone decomposition of a valid polygon: the whole computation. *)
Require Import List String Bool Arith Lia Permutation Sorted.
From Verif Require Import Base Scalar M_Events M_Geo M_LineOrPoint M_Slab M_Active M_MonoPoly M_Rings M_Op M_MonoSweep M_Chains.
From Verif Require Import S_Geo P_Geo P_LineOrPoint P_Tilt P_Chain P_Bundle P_Order P_Inv P_Slab.
From Verif Require Import S_Mono S_Rings P_Rings S_Op Props_Op1 P_OpLab P_OpPlane P_OpPoly P_LamRun P_LamGeo P_LamSpec.
From Verif Require Import P_MonoGeo P_MonoSweep P_ChainDesc P_ChainEvent P_MonoChains P_ChainStep P_MonoRun S_Chains P_MonoAbove P_MonoCount P_MonoInit.
Import Datatypes.
Import ListNotations.
Local Open Scope nat_scope.
Notation above := P_OpPlane.above.
Notation redges := P_LamSpec.redges.

(** * Sorting the events *)
Lemma insert_event_perm : forall ev l, Permutation (insert_event ev l) (ev :: l).
Proof.
  induction l as [|x l IH]; [reflexivity|]. cbn [insert_event]. destruct (ev_cmp ev x); try reflexivity. rewrite IH. apply perm_swap.
Qed.
Lemma sort_perm : forall l, Permutation (sort_events l) l.
Proof. induction l as [|x l IH]; [reflexivity|]. cbn [sort_events fold_right]. fold (sort_events l). rewrite insert_event_perm, IH. reflexivity. Qed.
Lemma ev_cmp_le : forall a b, match ev_cmp a b with Lt => ev_le b a | _ => ev_le a b end.
Proof.
  intros a b. unfold ev_cmp, ev_le. destruct (pcmp_spec (ev_point a) (ev_point b)) as [Q|Q|Q]; cbn [CompOpp].
  - rewrite Q. destruct (CompOpp (ty_cmp (ev_ty a) (ev_ty b))); lord.
  - apply lex_lt_le. exact Q.
  - apply lex_lt_le. exact Q.
Qed.
Lemma insert_sorted : forall ev l, StronglySorted ev_le l -> StronglySorted ev_le (insert_event ev l).
Proof.
  intros ev l. induction l as [|x l IH]; intros S; [constructor; [constructor|constructor]|]. cbn [insert_event]. pose proof (ev_cmp_le ev x) as C. inversion S as [|? ? S1 S2]; subst.
  assert (T : ev_le ev x -> Forall (ev_le ev) (x :: l)) by (intros Z; constructor; auto; eapply Forall_impl; [|exact S2]; intros y; unfold ev_le in *; intros Z'; eapply lex_le_trans; [exact Z|exact Z']).
  destruct (ev_cmp ev x); [constructor; auto| |constructor; auto]. constructor; [apply IH; auto|]. eapply Permutation_Forall; [symmetry; apply insert_event_perm|]. constructor; auto.
Qed.
Lemma sort_sorted : forall l, StronglySorted ev_le (sort_events l).
Proof. induction l as [|x l IH]; [constructor|]. apply insert_sorted. exact IH. Qed.

Section Poly.
Variable P : polygon.
Hypothesis VP : valid_polygon P.
Notation rs := (prs P).
Notation n := (n rs).
Notation ln := (ln rs).
Notation rc := (rc rs).
Notation tr := (tr rs).
Notation ea := (ea ln).
Notation ez := (ez ln).
Notation coords := (coords rs).
Notation ccw := (ccw rs).
Notation hole := (hole rs).
Notation top := (ptop P).
Notation seg_of := (@seg_of ln top).

Definition hf0 (c : nat) : helper := mkHelper (ea c) false.
Definition evs_of (k : nat) : list event := flat_map (fun c => [left_of (ea c) c; right_of (ez c) c]) (seq 0 k).
Record loaded (k : nat) (s : msweep) : Prop := {
  lo_seg : ms_segments s = mkSlab (map Occupied (segment_new_point 0 (mkC 0%Qc 0%Qc) :: map (seg_of hf0) (seq 0 k))) (S k);
  lo_key : ms_pt_key s = 0;
  lo_act : ms_active s = [];
  lo_ev : Permutation (ms_events s) (evs_of k) }.
Definition wnd (R : nat) : winding := if xorb (ccw R) (hole R) then Ccw else Cw.

Lemma add_line_ok : forall c s, c < n -> loaded c s -> exists s', add_ring_line (wnd (rc c)) s (mkLine (fst (tr c)) (snd (tr c))) = Ok s' /\ loaded (S c) s'.
Proof.
  intros c s L [Ls Lk La Le]. destruct (geo_ends rs (Pr P VP) c L) as (_ & Lt & D). unfold add_ring_line. cbn [l_start l_end].
  assert (N : peqb (fst (tr c)) (snd (tr c)) = false).
  { destruct (peqb_spec (fst (tr c)) (snd (tr c))) as [Q|Q]; auto. exfalso. destruct D as [D|D]; rewrite D in Q; cbn [fst snd] in Q; rewrite Q in Lt; lord. }
  rewrite N. rewrite Ls. unfold slab_vacant_key. cbn [s_next].
  assert (Sg : segment_new (S c) (mkLine (fst (tr c)) (snd (tr c))) (wnd (rc c)) = Ok (seg_of hf0 c)).
  { unfold segment_new. cbn [l_start l_end]. rewrite N. cbn [negb check bind]. unfold P_MonoSweep.seg_of, ptop, dirf, wnd, hf0. destruct D as [D|D]; rewrite D; cbn [fst snd].
    - assert (Q1 : pltb (ez c) (ea c) = false) by (apply pltb_false; apply lex_lt_le; auto). assert (Q2 : pltb (ea c) (ez c) = true) by (apply pltb_iff; auto). rewrite Q1, Q2. destruct (xorb (ccw (rc c)) (hole (rc c))); reflexivity.
    - assert (Q1 : pltb (ez c) (ea c) = false) by (apply pltb_false; apply lex_lt_le; auto). assert (Q2 : pltb (ea c) (ez c) = true) by (apply pltb_iff; auto). rewrite Q1, Q2. destruct (xorb (ccw (rc c)) (hole (rc c))); reflexivity. }
  rewrite Sg. cbn [bind]. unfold slab_insert. cbn [s_next s_entries]. rewrite map_length. cbn [length]. rewrite map_length, seq_length, Nat.eqb_refl. cbn [bind segment_events P_MonoSweep.seg_of m_geom is_line check lop_line M_MonoSweep.m_key].
  eexists. split; [reflexivity|]. constructor; cbn [ms_segments ms_pt_key ms_active ms_events]; auto.
  - rewrite seq_S. cbn [Nat.add]. rewrite (map_app (seg_of hf0)). cbn [map]. rewrite map_app. reflexivity.
  - unfold evs_of in *. rewrite seq_S, flat_map_app. cbn [Nat.add flat_map app rev l_start l_end]. rewrite Le. etransitivity; [apply (Permutation_app_comm [_; _])|]. apply Permutation_app_head. apply perm_swap.
Qed.
Lemma add_lines_ok : forall l R k s, (forall i x, nth_error l i = Some x -> nth_error (redges rs) (k + i) = Some (R, x)) -> loaded k s ->
  exists s', fold_res (add_ring_line (wnd R)) s (map (fun e => mkLine (fst e) (snd e)) l) = Ok s' /\ loaded (k + length l) s'.
Proof.
  induction l as [|x l IH]; intros R k s At Lo.
  - exists s. split; [reflexivity|]. cbn [length]. rewrite Nat.add_0_r. exact Lo.
  - pose proof (At 0 x eq_refl) as Q. rewrite Nat.add_0_r in Q. assert (L : k < n) by (apply nth_error_Some; congruence).
    assert (Q1 : rc k = R) by (unfold P_LamSpec.rc; rewrite Q; reflexivity). assert (Q2 : tr k = x) by (unfold P_LamSpec.tr; rewrite Q; reflexivity).
    destruct (add_line_ok k s L Lo) as (s1 & E & L1). rewrite Q1, Q2 in E. destruct (IH R (S k) s1) as (s2 & E2 & L2); auto.
    { intros i y Z. rewrite <- (At (S i) y Z). f_equal. lia. }
    exists s2. cbn [map fold_res]. rewrite E. cbn [bind]. split; [exact E2|]. cbn [length]. replace (k + S (length l)) with (S k + length l) by lia. exact L2.
Qed.
Lemma nth_coords : forall R r, nth_error rs R = Some r -> coords R = r_coords r /\ hole R = r_hole r.
Proof. intros R r Q. unfold P_LamGeo.coords, P_LamRun.hole. rewrite Q. auto. Qed.
Lemma add_ring_ok : forall A r B s, rs = A ++ r :: B -> loaded (length (redges_from 0 A)) s ->
  exists s', ms_add_closed_ring (r_coords r) (r_hole r) s = Ok s' /\ loaded (length (redges_from 0 (A ++ [r]))) s'.
Proof.
  intros A r B s E Lo. assert (Q : nth_error rs (length A) = Some r) by (rewrite E, nth_error_app2, Nat.sub_diag by lia; reflexivity).
  assert (LR : length A < length rs) by (apply nth_error_Some; congruence). destruct (nth_coords _ _ Q) as [Qc Qh].
  pose proof (Prp rs (Pr P VP) _ LR) as Pp. rewrite Qc in Pp. unfold ms_add_closed_ring. rewrite (proj2 (closed_iff _) (proper_closed _ Pp)). cbn [check bind].
  assert (L4 : 3 <? length (r_coords r) = true) by (destruct Pp as (p & l' & -> & _ & Z); apply Nat.ltb_lt; cbn [length]; rewrite app_length; cbn [length]; lia). rewrite L4. cbn [check bind].
  destruct (psetup P (mkC 0%Qc 0%Qc)) as (e & V' & s0 & H1 & H2 & H3 & H4 & _). pose proof (wound P VP e V' s0 H1 H2 H3 H4 _ LR) as W. rewrite Qc in W. rewrite W. cbn [expect bind].
  assert (Wn : (if r_hole r then winding_inverse (if ccw (length A) then Ccw else Cw) else if ccw (length A) then Ccw else Cw) = wnd (length A)).
  { unfold wnd. rewrite Qh. destruct (ccw (length A)), (r_hole r); reflexivity. }
  assert (Sp : forall X Y i, redges_from i (X ++ Y) = redges_from i X ++ redges_from (i + length X) Y).
  { induction X as [|x X IH]; intros Y i; [cbn [length app]; rewrite Nat.add_0_r; reflexivity|]. cbn [app length]. rewrite !P_LamSpec.redges_cons, IH, app_assoc. f_equal. f_equal. lia. }
  rewrite Wn, lines_edges. destruct (add_lines_ok (edges (r_coords r)) (length A) (length (redges_from 0 A)) s) as (s' & E' & L'); auto.
  - intros i x Z. unfold redges. rewrite E, Sp, nth_error_app2 by lia. replace (length (redges_from 0 A) + i - length (redges_from 0 A)) with i by lia. rewrite P_LamSpec.redges_cons, nth_error_app1.
    + rewrite nth_error_map, Z. reflexivity.
    + rewrite map_length. apply nth_error_Some. congruence.
  - exists s'. split; auto. rewrite Sp, app_length. unfold redges_from at 2. cbn [length seq combine flat_map fst snd]. rewrite app_nil_r, map_length. exact L'.
Qed.
Lemma add_holes_ok : forall B A s, rs = A ++ map (fun h => mkRing h true) B -> loaded (length (redges_from 0 A)) s ->
  exists s', fold_res (fun s h => ms_add_closed_ring h true s) s B = Ok s' /\ loaded n s'.
Proof.
  induction B as [|h B IH]; intros A s E Lo.
  - exists s. split; [reflexivity|]. cbn [map] in E. rewrite app_nil_r in E. unfold P_LamSpec.n, redges. rewrite E. exact Lo.
  - destruct (add_ring_ok A (mkRing h true) (map (fun h => mkRing h true) B) s E Lo) as (s1 & E1 & L1). cbn [r_coords r_hole] in E1. destruct (IH (A ++ [mkRing h true]) s1) as (s2 & E2 & L2); auto.
    { rewrite <- app_assoc. exact E. }
    exists s2. cbn [fold_res]. rewrite E1. cbn [bind]. auto.
Qed.

Section Run.
Variables (presort : list event -> list event) (pick : list nat -> nat -> nat -> nat).
Hypothesis Ps : forall l, Permutation (presort l) l.
Theorem from_polygon_ok : exists s, from_polygon presort P = Ok s /\ loaded n s /\ StronglySorted ev_le (ms_events s).
Proof.
  unfold from_polygon. change (slab_vacant_key (@slab_new segment) =? 0) with true. cbn [check bind].
  change (slab_insert slab_new (segment_new_point (slab_vacant_key (@slab_new segment)) (mkC 0%Qc 0%Qc))) with (Ok (mkSlab [Occupied (segment_new_point 0 (mkC 0%Qc 0%Qc))] 1)). cbn [bind].
  destruct (add_ring_ok [] (mkRing (pg_exterior P) false) (map (fun h => mkRing h true) (pg_interiors P)) (mkMsweep (mkSlab [Occupied (segment_new_point 0 (mkC 0%Qc 0%Qc))] 1) (slab_vacant_key (@slab_new segment)) [] [])) as (s1 & E1 & L1); [reflexivity|constructor; reflexivity|].
  cbn [r_coords r_hole] in E1. rewrite E1. cbn [bind]. destruct (add_holes_ok (pg_interiors P) [mkRing (pg_exterior P) false] s1 eq_refl L1) as (s2 & E2 & [A B C D]). rewrite E2. cbn [bind]. eexists. split; [reflexivity|]. split.
  - constructor; cbn [ms_segments ms_pt_key ms_active ms_events]; auto. rewrite sort_perm, Ps. exact D.
  - apply sort_sorted.
Qed.

Definition fdir (x : pt * pt * bool) : pt * pt := if snd x then fst x else reversed (fst x).
Lemma rev_rev : forall x : pt * pt, reversed (reversed x) = x. Proof. intros [a b]. reflexivity. Qed.
Lemma tag_right : map fdir (map (@tag ln top) (seq 0 n)) = region_right P.
Proof.
  assert (Rr : region_right P = map (fun x => let e := snd x in if xorb (ccw (fst x)) (hole (fst x)) then reversed e else e) (redges rs)).
  { destruct (psetup P (mkC 0%Qc 0%Qc)) as (e & V' & s0 & H1 & H2 & H3 & H4 & _). pose proof (wound P VP e V' s0 H1 H2 H3 H4) as W.
    assert (G : forall B A, rs = A ++ B -> flat_map (fun r => map reversed (region_left r)) B = map (fun x => let e := snd x in if xorb (ccw (fst x)) (hole (fst x)) then reversed e else e) (redges_from (length A) B)).
    { induction B as [|r B IH]; intros A E; [reflexivity|]. rewrite P_LamSpec.redges_cons, map_app, map_map. cbn [flat_map fst snd].
      assert (E' : rs = (A ++ [r]) ++ B) by (rewrite <- app_assoc; exact E). specialize (IH _ E'). rewrite app_length in IH. cbn [length] in IH. rewrite Nat.add_1_r in IH. rewrite IH. f_equal.
      assert (Q : nth_error rs (length A) = Some r) by (rewrite E, nth_error_app2, Nat.sub_diag by lia; reflexivity).
      assert (LR : length A < length rs) by (apply nth_error_Some; congruence). destruct (nth_coords _ _ Q) as [Qc Qh]. pose proof (W _ LR) as W'. rewrite Qc in W'. unfold region_left. rewrite W', Qh.
      assert (Rv : forall l, map reversed (map reversed l) = l) by (intros l; rewrite map_map; rewrite <- (map_id l) at 2; apply map_ext; apply rev_rev).
      destruct (ccw (length A)), (r_hole r); cbn [xorb]; rewrite ?Rv, ?map_id; reflexivity. }
    apply (G rs []). reflexivity. }
  rewrite Rr, map_map. apply nth_ext'. intros i. rewrite !nth_error_map. destruct (Nat.lt_ge_cases i n) as [L|L].
  - rewrite nth_error_seq by exact L. destruct (at_c rs i L) as (r & Q & _). rewrite Q. cbn [option_map fst snd Nat.add]. f_equal. unfold fdir, P_ChainStep.tag, ptop, dirf. cbn [fst snd].
    destruct (geo_ends rs (Pr P VP) i L) as (_ & Lt & [D|D]); rewrite D; cbn [fst snd].
    + assert (Q2 : pltb (ea i) (ez i) = true) by (apply pltb_iff; auto). rewrite Q2. destruct (xorb (ccw (rc i)) (hole (rc i))); reflexivity.
    + assert (Q1 : pltb (ez i) (ea i) = false) by (apply pltb_false; apply lex_lt_le; auto). rewrite Q1. destruct (xorb (ccw (rc i)) (hole (rc i))); reflexivity.
  - rewrite (proj2 (nth_error_None (seq 0 n) i)) by (rewrite seq_length; exact L). rewrite (proj2 (nth_error_None (redges rs) i)) by exact L. reflexivity.
Qed.
Lemma twice_dir : forall d, Permutation (map fdir (twice d)) (d ++ map reversed d).
Proof.
  induction d as [|x d IH]; [reflexivity|]. cbn [twice flat_map app map fdir fst snd]. fold (twice d). apply perm_skip. rewrite IH. apply Permutation_middle.
Qed.
Lemma tedges_dir : forall o, Permutation (map fdir (tedges o)) (piece_edges (piece o)).
Proof.
  intros o. unfold tedges, piece_edges, tagged, piece. cbn [mp_top mp_bot]. rewrite map_app, !map_map. cbn [fdir fst snd]. rewrite map_id, !edges_rev. rewrite map_rev, <- !Permutation_rev. apply Permutation_app_comm.
Qed.
Lemma tedges_all : forall D, Permutation (map fdir (flat_map tedges D)) (flat_map piece_edges (map piece D)).
Proof. induction D as [|o D IH]; [reflexivity|]. cbn [flat_map map]. rewrite map_app, tedges_dir, IH. reflexivity. Qed.
Lemma inside_odd : forall q, odd (map (@upc ln q) (seq 0 n)) = inside [P] q.
Proof.
  intros q. unfold inside. rewrite <- (edges_all P), map_map. unfold P_LamSpec.n. apply (odd_index (fun x => ray_crosses q (snd x)) (redges rs) (0, (q, q))).
  intros c x Q. assert (L : c < n) by (apply nth_error_Some; congruence). destruct (at_c rs c L) as (r & Q' & _). rewrite Q in Q'. injection Q' as ->. cbn [snd]. unfold upc.
  destruct (geo_ends rs (Pr P VP) c L) as (_ & Lt & D). destruct (ray_above q _ _ Lt) as [A B]. cbn [lop_first lop_second] in A, B. destruct D as [-> | ->]; auto.
Qed.
Lemma start_inv : forall e s0 s, (ms_segments s = mkSlab (map Occupied (segment_new_point 0 (mkC 0%Qc 0%Qc) :: map (seg_of hf0) (seq 0 n))) (S n) /\ ms_pt_key s = 0 /\ ms_active s = [] /\ Permutation (ms_events s) (evs_of n) /\ StronglySorted ev_le (ms_events s)) ->
  (forall v, In v (pV P) -> lex_lt s0 v) -> @sinv ln n e top hf0 s0 s [].
Proof.
  intros e s0 s (Ls & Lk & La & Le & So) H4. constructor; auto.
      - exists (mkC 0%Qc 0%Qc). rewrite Ls. constructor.
        + exists []. split; [constructor|]. cbn [free_chain s_entries s_next]. rewrite map_length. cbn [length]. rewrite map_length, seq_length. reflexivity.
        + reflexivity.
        + intros c L. unfold slab_get. cbn [s_entries nth_error map]. rewrite !nth_error_map, nth_error_seq by exact L. reflexivity.
      - rewrite Le. assert (Z : filter (after s0) (evs_of n) = evs_of n); [|fold (@all_events ln n); change (@all_events ln n) with (evs_of n); rewrite Z; reflexivity].
        apply filter_all. intros ev I. unfold evs_of in I. apply in_flat_map in I as (c & I & J). apply in_seq in I. unfold after. apply pltb_iff. apply H4. apply in_pV. exists c. split; [lia|]. destruct J as [<-|[<-|[]]]; auto.
      - constructor; [constructor|]. intros c. split; [intros []|]. intros (L & A). exfalso. apply actb_iff in A as [A _]. assert (Z : lex_lt s0 (ea c)) by (apply H4; apply in_pV; eauto). lord.
      - intros g [].
Qed.
Theorem decompose_all : exists D d, monotone_chains presort pick P = Ok (map piece D) /\
  (forall m, In m (map piece D) -> tight (mp_bot m) (mp_top m)) /\
  Permutation (flat_map piece_edges (map piece D)) (region_right P ++ d ++ map reversed d) /\
  (forall m q, In m (map piece D) -> ordered_at q (edges (mp_bot m)) (edges (mp_top m))) /\
  forall q, nb (fun m => piece_in m q) (map piece D) = bn (inside [P] q).
Proof.
  destruct from_polygon_ok as (s & E & [Ls Lk La Le] & So). unfold monotone_chains. rewrite E. cbn [bind].
  assert (Run : forall q, exists cs D, chains_loop pick (S (length (ms_events s))) s [] = Ok cs /\ chains_out cs = Ok (map piece D) /\
    (exists d, Permutation (flat_map piece_edges (map piece D)) (region_right P ++ d ++ map reversed d)) /\
    (forall m, In m (map piece D) -> ordered_at q (edges (mp_bot m)) (edges (mp_top m))) /\ (forall m, In m (map piece D) -> tight (mp_bot m) (mp_top m)) /\ nb (fun m => piece_in m q) (map piece D) = bn (inside [P] q)).
  { intros q. destruct (psetup P q) as (e & V' & s0 & H1 & H2 & H3 & H4 & H5). pose proof (poly_geo P VP e V' s0 H1 H2 H3 H4) as G.
    pose proof (start_inv e s0 s (conj Ls (conj Lk (conj La (conj Le So)))) H4) as Si.
    destruct (run_ok G pick hf0 s0 s H3 Si H4) as (cs & D & R & O & W & d & Pm). exists cs, D. split; auto. split; auto. split; [|split; [|split]].
    - exists d. rewrite <- tedges_all, (Permutation_map fdir Pm).
      rewrite (map_app fdir). 
      rewrite tag_right, twice_dir. reflexivity.
    - intros m I. apply in_map_iff in I as (o & <- & I). apply (piece_ordered G q H5). auto.
    - intros m I. apply in_map_iff in I as (o & <- & I). apply (piece_tight o (e := e) (V := pV P) (V' := V')). auto.
    - rewrite (cover_once G q H5 D d W Pm). rewrite inside_odd. reflexivity. }
  destruct (Run (mkC 0%Qc 0%Qc)) as (cs & D & R & O & (d & Pd) & _ & Ti & _). exists D, d. rewrite R. cbn [bind]. split; auto. split; auto. split; auto. split; [intros m q I|intros q]; destruct (Run q) as (cs' & D' & R' & O' & _ & M & _ & N); [rewrite R in R'; injection R' as <-; rewrite O in O'; injection O' as O'; apply M; rewrite <- O'; exact I|].
   rewrite R in R'. injection R' as <-. rewrite O in O'. injection O' as O'. rewrite O'. exact N.
Qed.
Theorem decompose : exists D d, monotone_chains presort pick P = Ok (map piece D) /\
  Permutation (flat_map piece_edges (map piece D)) (region_right P ++ d ++ map reversed d) /\
  (forall m q, In m (map piece D) -> ordered_at q (edges (mp_bot m)) (edges (mp_top m))) /\
  forall q, nb (fun m => piece_in m q) (map piece D) = bn (inside [P] q).
Proof. destruct decompose_all as (D & d & A & _ & B). exists D, d. auto. Qed.
End Run.
End Poly.
