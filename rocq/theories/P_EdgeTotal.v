(** The edges of the monotone decomposition of an arbitrary polygon: the polygon's segments. *)
Require Import List String Bool Arith Lia Permutation Sorted.
From Verif Require Import Base Scalar M_Events M_Geo M_LineOrPoint M_Slab M_Active M_MonoPoly M_Rings M_Op M_MonoSweep M_Chains.
From Verif Require Import S_Geo P_Geo P_Slab P_Rings S_Mono S_Rings S_Op Props_Op1 P_OpStep P_OpBoundary P_MonoSweep P_MonoChains P_MonoRun S_Chains P_MonoCount P_Mono Props_Mono P_MonoTotal P_EdgeSweep P_EdgeChains P_EdgeRun.
From Verif Require P_ChainDesc.
Import Datatypes.
Import ListNotations.
Local Open Scope nat_scope.

Definition proper_edge (e : pt * pt) : bool := negb (peqb (fst e) (snd e)).
Definition tri (w : winding) (e : pt * pt) : seg3 := if pltb (snd e) (fst e) then mk3 (snd e) (fst e) (winding_inverse w) else mk3 (fst e) (snd e) w.
Definition trs (w : winding) (l : list pt) : list seg3 := map (tri w) (filter proper_edge (edges l)).
Lemma dir_tri : forall w e, dir (tri w e) = ori w e.
Proof. intros w [a b]. unfold tri, dir. cbn [fst snd]. destruct (pltb b a); cbn [tw ta tz]; auto. rewrite ori_inv. destruct w; reflexivity. Qed.
Lemma tri_lt : forall w e, proper_edge e = true -> lex_lt (ta (tri w e)) (tz (tri w e)).
Proof.
  intros w [a b] P. unfold proper_edge in P. cbn [fst snd] in P. apply negb_true_iff in P. unfold tri. cbn [fst snd]. destruct (pltb_spec b a) as [L|L]; cbn [ta tz]; auto. destruct (peqb_spec a b) as [Z|N]; [discriminate|]. destruct (lex_total a b) as [[Z|Z]|Z]; auto; contradiction.
Qed.
Lemma ends_shift : forall l p, map fst (edges (p :: l)) ++ [last (p :: l) p] = p :: map snd (edges (p :: l)).
Proof.
  induction l as [|a l IH]; intros p; [reflexivity|]. rewrite P_Mono.edges_cons. cbn [map fst snd app]. f_equal. rewrite <- IH. f_equal. f_equal. destruct l; [reflexivity|]. change (last (p :: a :: p0 :: l) p) with (last (p0 :: l) p). change (last (a :: p0 :: l) a) with (last (p0 :: l) a). clear. revert p0. induction l as [|b l IH]; intros c; [reflexivity|]. cbn [last] in *. apply IH.
Qed.
Lemma ring_ends : forall l, closed l -> Permutation (map fst (edges l)) (map snd (edges l)).
Proof.
  intros [|p l] C; [reflexivity|]. unfold closed in C. pose proof (ends_shift l p) as Z. rewrite C in Z. apply (Permutation_cons_inv (a := p)). rewrite <- Z. symmetry. apply Permutation_sym. apply Permutation_cons_append.
Qed.
Lemma proper_ends : forall l, Permutation (map fst l) (map snd l) -> Permutation (map fst (filter proper_edge l)) (map snd (filter proper_edge l)).
Proof.
  intros l P. assert (Q : Permutation l (filter proper_edge l ++ filter (fun e => negb (proper_edge e)) l)).
  { rewrite <- (P_ChainDesc.filter_all (fun _ => true) l) at 1 by auto. apply part; intros x _; destruct (proper_edge x); reflexivity. }
  assert (Z : map fst (filter (fun e => negb (proper_edge e)) l) = map snd (filter (fun e => negb (proper_edge e)) l)).
  { apply map_ext_in. intros [a b] I. apply filter_In in I as [_ I]. unfold proper_edge in I. cbn [fst snd] in *. rewrite negb_involutive in I. apply peqb_iff in I. exact I. }
  apply (Permutation_app_inv_r (map fst (filter (fun e => negb (proper_edge e)) l))). rewrite Z at 2. rewrite <- !map_app. rewrite <- (Permutation_map fst Q), <- (Permutation_map snd Q). exact P.
Qed.
Lemma trs_bal : forall w l, closed l -> Permutation (map (fun t => fst (dir t)) (trs w l)) (map (fun t => snd (dir t)) (trs w l)).
Proof.
  intros w l C. unfold trs. rewrite !map_map. rewrite (map_ext _ (fun e => fst (ori w e))) by (intros e; rewrite dir_tri; reflexivity). rewrite (map_ext (fun x => snd (dir (tri w x))) (fun e => snd (ori w e))) by (intros e; rewrite dir_tri; reflexivity).
  pose proof (proper_ends _ (ring_ends l C)) as P. destruct w; cbn [ori fst snd]; [exact P|symmetry; exact P].
Qed.
Definition sg (k : nat) (t : seg3) : segment := mkSegment k (Line (ta t) (tz t)) (match tw t with Cw => Some (mkHelper (ta t) false) | Ccw => None end).
Fixpoint sgs (k : nat) (E : list seg3) : list segment := match E with [] => [] | t :: E' => sg (S k) t :: sgs (S k) E' end.
Lemma sgs_app : forall E k t, sgs k (E ++ [t]) = sgs k E ++ [sg (S (k + length E)) t].
Proof. induction E as [|x E IH]; intros k t; cbn [app sgs length]; [rewrite Nat.add_0_r; reflexivity|]. rewrite IH. replace (S k + length E) with (k + S (length E)) by lia. reflexivity. Qed.
Lemma all_app : forall E k t, all_from k (E ++ [t]) = all_from k E ++ [mkEvent (ta t) LineLeft (S (k + length E)); mkEvent (tz t) LineRight (S (k + length E))].
Proof. induction E as [|x E IH]; intros k t; cbn [app all_from length]; [rewrite Nat.add_0_r; reflexivity|]. rewrite IH. replace (S k + length E) with (k + S (length E)) by lia. reflexivity. Qed.
Lemma sgs_length : forall E k, length (sgs k E) = length E. Proof. induction E as [|x E IH]; intros k; cbn; auto. Qed.
Lemma sgs_nth : forall E k i, nth_error (sgs k E) i = option_map (sg (S (k + i))) (nth_error E i).
Proof. induction E as [|x E IH]; intros k [|i]; cbn; auto; [rewrite Nat.add_0_r; reflexivity|]. rewrite IH. replace (k + S i) with (S k + i) by lia. reflexivity. Qed.
Record loaded (E : list seg3) (s : msweep) : Prop := {
  ld_seg : ms_segments s = mkSlab (map Occupied (segment_new_point 0 (mkC 0%Qc 0%Qc) :: sgs 0 E)) (S (length E));
  ld_key : ms_pt_key s = 0;
  ld_ev : Permutation (ms_events s) (all_from 0 E) }.
Lemma line_inv : forall E w s e s', loaded E s -> add_ring_line w s (mkLine (fst e) (snd e)) = Ok s' -> loaded (E ++ (if proper_edge e then [tri w e] else [])) s'.
Proof.
  intros E w s [a b] s' [Ls Lk Le] Q. unfold add_ring_line in Q. cbn [fst snd l_start l_end] in Q. unfold proper_edge. cbn [fst snd]. destruct (peqb a b) eqn:Pab; cbn [negb]; [injection Q as <-; rewrite app_nil_r; constructor; auto|].
  bnd Q. unfold segment_new in E0. cbn [l_start l_end] in E0. rewrite Pab in E0. cbn [negb check bind] in E0.
  assert (X : x = sg (slab_vacant_key (ms_segments s)) (tri w (a, b))) by (unfold tri, sg; cbn [fst snd]; destruct (pltb b a); injection E0 as <-; reflexivity). subst x. clear E0. set (t := tri w (a, b)) in *.
  bnd Q. bnd Q. injection Q as <-. rewrite Ls in *. unfold slab_vacant_key, slab_insert in E0. cbn [s_next s_entries] in E0. rewrite map_length in E0. cbn [length] in E0. rewrite sgs_length, Nat.eqb_refl in E0. injection E0 as <-. unfold segment_events in E1. cbn in E1. injection E1 as <-.
  constructor; cbn [ms_segments ms_pt_key ms_events]; auto.
  - rewrite sgs_app, app_length. cbn [map app length Nat.add]. rewrite map_app, Nat.add_1_r. reflexivity.
  - rewrite all_app. cbn [rev app Nat.add]. rewrite Le. rewrite (perm_swap (mkEvent (ta t) _ _)). apply (Permutation_app_comm [_; _]).
Qed.
Lemma lines_inv : forall l E w s s', loaded E s -> fold_res (add_ring_line w) s (map (fun e => mkLine (fst e) (snd e)) l) = Ok s' -> loaded (E ++ map (tri w) (filter proper_edge l)) s'.
Proof.
  induction l as [|e l IH]; intros E w s s' L Q; [injection Q as <-; rewrite app_nil_r; exact L|]. cbn [map fold_res] in Q. bnd Q. apply (line_inv E w s e x L) in E0. apply (IH _ _ _ _ E0) in Q. cbn [filter]. destruct (proper_edge e); [rewrite <- app_assoc in Q; exact Q|rewrite app_nil_r in Q; exact Q].
Qed.
Lemma ring_inv : forall E ring hole s s', loaded E s -> ms_add_closed_ring ring hole s = Ok s' ->
  closed ring /\ exists w, ls_winding_order ring = Some w /\ loaded (E ++ trs (if hole then winding_inverse w else w) ring) s'.
Proof.
  intros E ring hole s s' L Q. unfold ms_add_closed_ring in Q. chk Q. chk Q. bnd Q. apply expect_inv in E2. split; [apply closed_iff; auto|]. exists x. split; auto. rewrite lines_edges in Q. apply (lines_inv _ _ _ _ _ L Q).
Qed.
Definition ring_right (r : ring) : list (pt * pt) := map reversed (region_left r).
Lemma right_trs : forall c (h : bool) w, ls_winding_order c = Some w -> map dir (trs (if h then winding_inverse w else w) c) = filter proper_edge (ring_right (mkRing c h)).
Proof.
  intros c h w W. unfold trs. rewrite map_map, (map_ext _ (ori (if h then winding_inverse w else w))) by (intros; apply dir_tri). unfold ring_right, region_left. cbn [r_coords r_hole]. rewrite W.
  assert (Rv : map reversed (map reversed (edges c)) = edges c) by (rewrite map_map; rewrite <- (map_id (edges c)) at 2; apply map_ext; intros [a b]; reflexivity).
  assert (F : forall l, map reversed (filter proper_edge l) = filter proper_edge (map reversed l)).
  { induction l as [|[a b] l IH]; auto. cbn [filter map]. assert (Z : proper_edge (reversed (a, b)) = proper_edge (a, b)) by (unfold proper_edge; cbn [reversed fst snd]; destruct (peqb_spec a b), (peqb_spec b a); congruence). rewrite Z. destruct (proper_edge (a, b)); cbn [map]; rewrite IH; reflexivity. }
  assert (Oc : forall l, map (ori Ccw) l = map reversed l) by reflexivity. assert (Oi : forall l, map (ori Cw) l = l) by (intros; apply map_id).
  destruct w, h; cbn [winding_inverse]; rewrite ?Oc, ?Oi, ?Rv, ?F; reflexivity.
Qed.
Lemma holes_inv : forall hs E s s', loaded E s -> (forall t, In t E -> lex_lt (ta t) (tz t)) -> Permutation (map (fun t => fst (dir t)) E) (map (fun t => snd (dir t)) E) -> fold_res (fun s h => ms_add_closed_ring h true s) s hs = Ok s' ->
  exists E', loaded E' s' /\ (forall t, In t E' -> lex_lt (ta t) (tz t)) /\ Permutation (map (fun t => fst (dir t)) E') (map (fun t => snd (dir t)) E') /\
    map dir E' = map dir E ++ filter proper_edge (flat_map (fun h => ring_right (mkRing h true)) hs).
Proof.
  induction hs as [|h hs IH]; intros E s s' L EL EB Q; [injection Q as <-; exists E; cbn [flat_map filter]; rewrite app_nil_r; auto|]. cbn [fold_res] in Q. bnd Q. destruct (ring_inv _ _ _ _ _ L E0) as (C & w & W & L1).
  destruct (IH _ _ s' L1) as (E' & L2 & EL2 & EB2 & D2); auto.
  - intros t I. apply in_app_or in I as [I|I]; auto. apply in_map_iff in I as (e & <- & I). apply filter_In in I as [_ I]. apply tri_lt. exact I.
  - rewrite !map_app. apply Permutation_app; auto. apply trs_bal. exact C.
  - exists E'. split; auto. split; auto. split; auto. rewrite D2, map_app, (right_trs h true w W). cbn [flat_map]. rewrite filter_app, <- app_assoc. reflexivity.
Qed.
Lemma poly_inv : forall presort P s, (forall l, Permutation (presort l) l) -> from_polygon presort P = Ok s ->
  exists E, loaded E s /\ StronglySorted ev_le (ms_events s) /\ (forall t, In t E -> lex_lt (ta t) (tz t)) /\ Permutation (map (fun t => fst (dir t)) E) (map (fun t => snd (dir t)) E) /\
    map dir E = filter proper_edge (region_right P).
Proof.
  intros presort P s Ps Q. unfold from_polygon in Q. chk Q. bnd Q. bnd Q. bnd Q. injection Q as <-. change (slab_insert slab_new (segment_new_point (slab_vacant_key (@slab_new segment)) (mkC 0%Qc 0%Qc))) with (Ok (mkSlab [Occupied (segment_new_point 0 (mkC 0%Qc 0%Qc))] 1)) in E0. injection E0 as <-.
  assert (L0 : loaded [] (mkMsweep (mkSlab [Occupied (segment_new_point 0 (mkC 0%Qc 0%Qc))] 1) (slab_vacant_key (@slab_new segment)) [] [])) by (constructor; reflexivity).
  destruct (ring_inv _ _ _ _ _ L0 E1) as (C & w & W & L1). cbn [app] in L1.
  destruct (holes_inv (pg_interiors P) _ _ x1 L1) as (E' & [Ls Lk Le] & EL2 & EB2 & D2).
  - intros t I. apply in_map_iff in I as (e & <- & I). apply filter_In in I as [_ I]. apply tri_lt. exact I.
  - apply trs_bal. exact C.
  - exact E2.
  - exists E'. split; [constructor; cbn [ms_segments ms_pt_key ms_events]; auto; rewrite sort_perm, Ps; exact Le|]. split; [apply sort_sorted|]. split; auto. split; auto. rewrite D2, (right_trs (pg_exterior P) false w W). unfold region_right. cbn [flat_map]. rewrite filter_app. f_equal. f_equal. clear. induction (pg_interiors P) as [|h hs IH]; auto. cbn [flat_map map]. rewrite IH. reflexivity.
Qed.
Theorem edges_kept : forall presort pick P ms, (forall l, Permutation (presort l) l) -> monotone_chains presort pick P = Ok ms ->
  exists d, Permutation (flat_map piece_edges ms) (filter proper_edge (region_right P) ++ d ++ map reversed d).
Proof.
  intros presort pick P ms Ps Q. unfold monotone_chains in Q. bnd Q. bnd Q. destruct (poly_inv _ _ _ Ps E) as (T & [Ls Lk Le] & Srt & EL & EB & <-).
  destruct (below_all (map ta T ++ map tz T)) as (p & Bp). assert (B1 : forall t, In t T -> lex_lt p (ta t)) by (intros t I; apply Bp, in_or_app; left; apply in_map; auto). assert (B2 : forall t, In t T -> lex_lt p (tz t)) by (intros t I; apply Bp, in_or_app; right; apply in_map; auto).
  destruct (loop_inv T EL EB pick (S (length (ms_events x))) p x [] x0) as [Pr (d & Pd)]; auto using inv_nil.
  - constructor; auto.
    + intros k g. rewrite Ls. unfold slab_get. cbn [s_entries]. rewrite nth_error_map. destruct k as [|k]; [intros Z; injection Z as <-; reflexivity|]. cbn [nth_error]. rewrite sgs_nth. destruct (nth_error T k) as [t|] eqn:N; [|discriminate]. intros Z. injection Z as <-. exists t. split; auto. split; auto. cbn [sg m_helper]. destruct (tw t); auto. split; auto. intros Z; discriminate.
    + rewrite Le. rewrite P_ChainDesc.filter_all; auto. intros ev I. destruct (in_all T 0 ev I) as (i & t & N & _ & A). unfold after. apply pltb_iff. apply nth_error_In in N. destruct A as [(_ & ->)|(_ & ->)]; auto.
  - exists d. rewrite (out_edges _ _ Pr Q). exact Pd.
Qed.
