(** Moving the operands of a boolean operation moves its result. *)
Require Import List String Bool Arith Lia.
From Verif Require Import Base Scalar M_Events M_Geo M_LineOrPoint M_Splay M_Slab M_Active M_Sweep M_Crossings M_MonoPoly M_Rings M_Op M_Laminar.
From Verif Require Import S_Move P_Param P_Move.
Import ListNotations.
Local Open Scope nat_scope.

Section Move.
Variable g : pt -> pt.
Hypothesis Gc : forall a b, pcmp (g a) (g b) = pcmp a b.
Hypothesis Go : forall a b c, orient2d (g a) (g b) (g c) = orient2d a b c.
Hypothesis Gl : forall l m, line_intersection (mvl g l) (mvl g m) = option_map (mvi g) (line_intersection l m).
Hypothesis Gx : forall a b, qeqb (cx (g a)) (cx (g b)) && qltb (cy (g a)) (cy (g b)) = qeqb (cx a) (cx b) && qltb (cy a) (cy b).
Let Geq := Geq g Gc.
Let Glt := Glt g Gc.
Notation mg := (mvg g).
Notation idn := (fun j0 : nat => j0).
Notation mc := (crm g idn).
Notation ms := (swm g idn).

Lemma rmap_id : forall {A} (m : res A), rmap (fun x : A => x) m = m.
Proof. intros A [a|s|]; reflexivity. Qed.
Lemma fold_map : forall {S S' A A'} (h : S -> S') (k : A -> A') (F : S -> A -> res S) (F' : S' -> A' -> res S'),
  (forall s a, F' (h s) (k a) = rmap h (F s a)) -> forall l s, fold_res F' (h s) (map k l) = rmap h (fold_res F s l).
Proof. intros S S' A A' h k F F' E. induction l as [|a l IH]; intros s; [reflexivity|]. cbn [map fold_res]. eapply bind_map; [apply E|]. intros; apply IH. Qed.
Lemma list_set_map : forall {X Y} (h : X -> Y) l i x, list_set i (h x) (map h l) = map h (list_set i x l).
Proof. intros X Y h. induction l as [|y l IH]; intros [|i] x; cbn [list_set map]; auto. rewrite IH. reflexivity. Qed.

(** ** Line strings *)
Lemma opt_eqb_mv : forall a b, opt_pt_eqb (option_map g a) (option_map g b) = opt_pt_eqb a b.
Proof. intros [a|] [b|]; cbn; auto; apply Geq. Qed.
Lemma closed_mv : forall l, ls_is_closed (map g l) = ls_is_closed l.
Proof. intros l. unfold ls_is_closed, first, last_opt. rewrite map_length, !nth_error_map. apply opt_eqb_mv. Qed.
Lemma close_mv : forall l, ls_close (map g l) = map g (ls_close l).
Proof. intros l. unfold ls_close. rewrite closed_mv. destruct (ls_is_closed l); auto. destruct l; auto. rewrite map_app. reflexivity. Qed.
Lemma lines_mv : forall l, ls_lines (map g l) = map (mvl g) (ls_lines l).
Proof. induction l as [|p [|q l] IH]; auto. cbn [map ls_lines] in *. rewrite IH. reflexivity. Qed.
Lemma least_from_mv : forall l best b i, least_index_from best (g b) i (map g l) = least_index_from best b i l.
Proof. induction l as [|a l IH]; intros best b i; cbn [map least_index_from]; auto. rewrite Glt. destruct (pltb a b); auto. Qed.
Lemma least_mv : forall l, least_index (map g l) = least_index l.
Proof. intros [|p l]; auto. apply least_from_mv. Qed.
Lemma other_mv : forall p l, first_other (g p) (map g l) = option_map g (first_other p l).
Proof. intros p. induction l as [|a l IH]; auto. cbn [map first_other find] in *. rewrite Geq. destruct (negb (peqb a p)); auto. Qed.
Lemma winding_mv : forall l, ls_winding_order (map g l) = ls_winding_order l.
Proof.
  intros l. unfold ls_winding_order. rewrite map_length, closed_mv, least_mv. destruct (_ || _); auto. cbv zeta. rewrite nth_error_map. destruct (nth_error l (least_index l)) as [p|]; auto. cbn [option_map].
  rewrite skipn_map, !firstn_map, <- !map_rev, <- !map_app, !other_mv. destruct (first_other p _) as [n|]; auto. destruct (first_other p _) as [q|]; auto. cbn [option_map]. rewrite Go. reflexivity.
Qed.

(** ** Rings *)
Definition mkk {V} (x : pt * V) : pt * V := (g (fst x), snd x).
Definition mch (c : chain) : chain := mkChain (ch_winding c) (map g (ch_items c)) (ch_nf c) (ch_nb c).
Definition mrings (r : rings) : rings := mkRings (map mch (rg_chains r)) (map mkk (rg_ends r)).
Definition mring (r : ring) : ring := mkRing (map g (r_coords r)) (r_hole r).
Lemma map_get_mv : forall {V} (m : list (pt * V)) p, map_get (map mkk m) (g p) = map_get m p.
Proof. intros V. induction m as [|[q v] m IH]; intros p; auto. cbn [map map_get mkk fst snd]. rewrite Geq, IH. reflexivity. Qed.
Lemma map_del_mv : forall {V} (m : list (pt * V)) p, map_del (map mkk m) (g p) = map mkk (map_del m p).
Proof. intros V. unfold map_del. induction m as [|[q v] m IH]; intros p; auto. cbn [map filter mkk fst snd]. rewrite Geq. destruct (negb (peqb p q)); cbn [map]; rewrite IH; reflexivity. Qed.
Lemma map_insert_mv : forall {V} (m : list (pt * V)) p v, map_insert (map mkk m) (g p) v = map mkk (map_insert m p v).
Proof. intros. unfold map_insert. rewrite map_del_mv. reflexivity. Qed.
Lemma map_remove_mv : forall {V} (m : list (pt * V)) p s, map_remove (map mkk m) (g p) s = rmap (map mkk) (map_remove m p s).
Proof. intros. unfold map_remove. rewrite map_get_mv. apply bind_same. intros _ _. cbn [rmap]. rewrite map_del_mv. reflexivity. Qed.
Lemma chain_at_mv : forall cs i, chain_at (map mch cs) i = rmap mch (chain_at cs i).
Proof. intros. unfold chain_at. rewrite nth_error_map. apply expect_map. Qed.
Lemma push_front_mv : forall c p, push_front (mch c) (g p) = rmap mch (push_front c p).
Proof. intros. unfold push_front. cbn [mch ch_nf]. apply bind_same. reflexivity. Qed.
Lemma push_back_mv : forall c p, push_back (mch c) (g p) = rmap mch (push_back c p).
Proof. intros. unfold push_back. cbn [mch ch_nb]. apply bind_same. intros _ _. unfold mch. cbn. rewrite map_app. reflexivity. Qed.
Lemma link_front_mv : forall c k, link_front (mch c) k = rmap mch (link_front c k).
Proof. intros. unfold link_front. cbn [mch ch_nf]. apply bind_same. reflexivity. Qed.
Lemma link_back_mv : forall c k, link_back (mch c) k = rmap mch (link_back c k).
Proof. intros. unfold link_back. cbn [mch ch_nb]. apply bind_same. reflexivity. Qed.
Lemma push_link_mv : forall cs l p w, push_link (map mch cs) l (g p) w = rmap (map mch) (push_link cs l p w).
Proof.
  intros. unfold push_link. eapply bind_map; [apply chain_at_mv|]. intros c _. destruct (k_front l).
  - eapply bind_map; [apply push_front_mv|]. intros c' _. apply bind_same. intros _ _. cbn [rmap]. rewrite list_set_map. reflexivity.
  - eapply bind_map; [apply push_back_mv|]. intros c' _. apply bind_same. intros _ _. cbn [rmap]. rewrite list_set_map. reflexivity.
Qed.
Lemma link_chains_mv : forall cs i j w, link_chains (map mch cs) i j w = rmap (map mch) (link_chains cs i j w).
Proof.
  intros. unfold link_chains. eapply bind_map; [apply chain_at_mv|]. intros c _.
  assert (L : forall (b : bool) (w1 w2 : winding) s1 s2 (i j : link) cs c,
    (if b then let* c' := link_front (mch c) j in let* _ := check (winding_eqb (ch_winding c') w1) s1 in Ok (list_set (k_idx i) c' (map mch cs))
     else let* c' := link_back (mch c) j in let* _ := check (winding_eqb (ch_winding c') w2) s2 in Ok (list_set (k_idx i) c' (map mch cs))) =
    rmap (map mch) (if b then let* c' := link_front c j in let* _ := check (winding_eqb (ch_winding c') w1) s1 in Ok (list_set (k_idx i) c' cs)
     else let* c' := link_back c j in let* _ := check (winding_eqb (ch_winding c') w2) s2 in Ok (list_set (k_idx i) c' cs))).
  { intros b w1 w2 s1 s2 i0 j0 cs0 c0. destruct b.
    - eapply bind_map; [apply link_front_mv|]. intros c' _. apply bind_same. intros _ _. cbn [rmap]. rewrite list_set_map. reflexivity.
    - eapply bind_map; [apply link_back_mv|]. intros c' _. apply bind_same. intros _ _. cbn [rmap]. rewrite list_set_map. reflexivity. }
  eapply bind_map; [apply L|]. intros cs1 _. eapply bind_map; [apply chain_at_mv|]. intros d _. apply L.
Qed.
Lemma add_edge_mv : forall r x w, add_edge (mrings r) (mg x) w = rmap mrings (add_edge r x w).
Proof.
  intros r x w. unfold add_edge. cbv zeta. cbn [mrings rg_ends rg_chains]. rewrite lop_first_mv, lop_second_mv, !map_get_mv, map_length.
  destruct (map_get (rg_ends r) (lop_first x)) as [i|], (map_get (rg_ends r) (lop_second x)) as [j|].
  - eapply bind_map; [apply link_chains_mv|]. intros cs _. eapply bind_map; [apply map_remove_mv|]. intros e _. eapply bind_map; [apply map_remove_mv|]. reflexivity.
  - eapply bind_map; [apply push_link_mv|]. intros cs _. eapply bind_map; [apply map_remove_mv|]. intros e _. cbn [rmap]. rewrite map_insert_mv. reflexivity.
  - eapply bind_map; [apply push_link_mv|]. intros cs _. eapply bind_map; [apply map_remove_mv|]. intros e _. cbn [rmap]. rewrite map_insert_mv. reflexivity.
  - cbn [rmap]. rewrite !map_insert_mv. unfold mrings. cbn [rg_chains rg_ends]. rewrite map_app. reflexivity.
Qed.
Lemma from_coords_mv : forall l w, from_coords (map g l) w = rmap mring (from_coords l w).
Proof. intros. unfold from_coords. cbv zeta. rewrite close_mv, winding_mv. apply bind_same. reflexivity. Qed.
Definition mwalk (k : walk) : walk := mkWalk (map g (wk_ls k)) (map mkk (wk_hist k)) (map mring (wk_out k)).
Lemma forget_mv : forall h l, forget (map mkk h) (map g l) = rmap (map mkk) (forget h l).
Proof. intros h l. unfold forget. apply fold_map. intros; apply map_remove_mv. Qed.
Lemma visit_mv : forall w k p, visit w (mwalk k) (g p) = rmap mwalk (visit w k p).
Proof.
  intros w k p. unfold visit. cbn [mwalk wk_hist wk_ls wk_out]. rewrite map_get_mv, !map_length. eapply (bind_map mwalk).
  - destruct (map_get (wk_hist k) p) as [i|]; [|reflexivity]. apply bind_same. intros _ _. cbv zeta. rewrite skipn_map, firstn_map. eapply bind_map; [apply forget_mv|]. intros h _. eapply bind_map; [apply from_coords_mv|]. intros r _.
    unfold mwalk. cbn [rmap wk_hist wk_ls wk_out]. rewrite map_app. reflexivity.
  - intros k1 _. unfold mwalk. cbn [rmap wk_hist wk_ls wk_out]. rewrite map_app, map_length, map_insert_mv. reflexivity.
Qed.
Definition fw (x : list chain * walk) : list chain * walk := (map mch (fst x), mwalk (snd x)).
Lemma follow_mv : forall fuel w start cs l k, follow fuel w start (map mch cs) l (mwalk k) = rmap fw (follow fuel w start cs l k).
Proof.
  induction fuel as [|fuel IH]; intros w start cs l k; [reflexivity|]. cbn [follow]. eapply bind_map; [apply chain_at_mv|]. intros c _. cbn [mch ch_items ch_winding ch_nf ch_nb].
  eapply (bind_map mwalk).
  { replace (if k_front l then map g (ch_items c) else rev (map g (ch_items c))) with (map g (if k_front l then ch_items c else rev (ch_items c))) by (destruct (k_front l); rewrite ?map_rev; reflexivity). apply fold_map. intros; apply visit_mv. }
  intros k' _. cbv zeta. apply bind_same. intros l' _. change (mkChain (ch_winding c) [] (ch_nf c) (ch_nb c)) with (mch (mkChain (ch_winding c) [] (ch_nf c) (ch_nb c))) at 1 2. rewrite !list_set_map.
  destruct (k_idx l' =? start); [apply bind_same; reflexivity|apply IH].
Qed.
Lemma finish_loop_mv : forall n cs out, finish_loop n (map mch cs) (map mring out) = rmap (map mring) (finish_loop n cs out).
Proof.
  induction n as [|n IH]; intros cs out; [reflexivity|]. cbn [finish_loop]. eapply bind_map; [apply chain_at_mv|]. intros c _. cbn [mch ch_items ch_winding].
  destruct (ch_items c) as [|p ps]; cbn [map]; [apply IH|]. rewrite map_length.
  eapply bind_map; [apply (follow_mv _ _ _ cs _ (mkWalk [] [] out))|]. intros [cs' k] _. cbn [fw fst snd mwalk wk_ls wk_out]. eapply bind_map; [apply from_coords_mv|]. intros r _.
  change [mring r] with (map mring [r]). rewrite <- map_app. apply IH.
Qed.
Lemma finish_mv : forall r, finish (mrings r) = rmap (map mring) (finish r).
Proof. intros r. unfold finish. cbn [mrings rg_chains]. rewrite map_length. apply (finish_loop_mv _ _ []). Qed.

(** ** The sweep of the operation *)
Definition medge (e : edge) : edge := mkEdge (mg (e_geom e)) (e_first e) (e_region e) (e_region2 e).
Definition mop (o : op) : op := mkOp (op_ty o) (map medge (op_edges o)).
Definition mpg (p : polygon) : polygon := moved_polygon g p.
Lemma get_region_mv : forall e x, get_region (medge e) (mg x) = get_region e x.
Proof. intros. unfold get_region. cbn [medge e_geom e_region e_region2]. rewrite lop_first_mv, lop_second_mv, Glt. reflexivity. Qed.
Lemma set_region_mv : forall r x e, set_region r (mg x) (medge e) = medge (set_region r x e).
Proof. intros. unfold set_region. cbn [medge e_geom e_first e_region e_region2]. rewrite lop_first_mv, lop_second_mv, Glt. destruct (pltb _ _); reflexivity. Qed.
Lemma add_line_mv : forall b o l, add_line b (mop o) (mvl g l) = mop (add_line b o l).
Proof.
  intros. unfold add_line. cbv zeta. rewrite (lop_of_line_mv g Gc), is_line_mv. destruct (is_line (lop_of_line l)); auto. unfold mop. cbn [op_ty op_edges]. rewrite map_app. reflexivity.
Qed.
Lemma add_ring_mv : forall r b o, add_closed_ring (map g r) b (mop o) = rmap mop (add_closed_ring r b o).
Proof.
  intros. unfold add_closed_ring. rewrite closed_mv, map_length. apply bind_same. intros _ _. destruct (_ <=? 3); auto. cbn [rmap]. f_equal. rewrite lines_mv. revert o. induction (ls_lines r) as [|l ls IH]; intros o; auto. cbn [map fold_left]. rewrite add_line_mv. apply IH.
Qed.
Lemma add_polygon_mv : forall p b o, add_polygon (mpg p) b (mop o) = rmap mop (add_polygon p b o).
Proof. intros. unfold add_polygon. cbn [mpg moved_polygon pg_exterior pg_interiors]. eapply bind_map; [apply add_ring_mv|]. intros o1 _. apply fold_map. intros; apply add_ring_mv. Qed.
Lemma add_multi_mv : forall mp b o, add_multi_polygon (map mpg mp) b (mop o) = rmap mop (add_multi_polygon mp b o).
Proof. intros. unfold add_multi_polygon. apply fold_map. intros; apply add_polygon_mv. Qed.
Lemma op_input_mv : forall ty a b, op_input ty (map mpg a) (map mpg b) = rmap mop (op_input ty a b).
Proof. intros. unfold op_input. eapply bind_map; [apply (add_multi_mv a true (op_new ty))|]. intros; apply add_multi_mv. Qed.

Lemma compare_mv : forall a b, compare_crossings (mc a) (mc b) = compare_crossings a b.
Proof. intros. unfold compare_crossings. cbn [crm cr_left cr_line]. rewrite (lop_cmp_mv g Gc Go). reflexivity. Qed.
Lemma insert_mv : forall x l, insert_crossing (mc x) (map mc l) = rmap (map mc) (insert_crossing x l).
Proof. intros x. induction l as [|y l IH]; [reflexivity|]. cbn [map insert_crossing]. rewrite compare_mv. apply bind_same. intros [| |] _; try reflexivity. eapply bind_map; [apply IH|]. reflexivity. Qed.
Lemma isort_mv : forall l, insertion_sort (map mc l) = rmap (map mc) (insertion_sort l).
Proof. induction l as [|y l IH]; [reflexivity|]. cbn [map insertion_sort]. eapply bind_map; [apply IH|]. intros; apply insert_mv. Qed.
Lemma edge_at_mv : forall es i, edge_at (map medge es) i = rmap medge (edge_at es i).
Proof. intros. unfold edge_at. rewrite nth_error_map. apply expect_map. Qed.
Lemma has_overlap_mv : forall c l, has_overlap (mc c) (map mc l) = has_overlap c l.
Proof. intros c [|d l]; auto. cbn [map has_overlap]. rewrite compare_mv. reflexivity. Qed.

Section Run.
Variable tie : nat -> nat.
Variables presort presort' : list (crossing nat) -> list (crossing nat).
Hypothesis Hp : forall l, presort' (map mc l) = map mc (presort l).
Definition fe (x : rings * list (crossing nat)) : rings * list (crossing nat) := (mrings (fst x), map mc (snd x)).
Lemma process_ends_mv : forall ty es l next s, process_ends add_edge ty (map medge es) (map mc l) next (mrings s) = rmap fe (process_ends add_edge ty es l next s).
Proof.
  intros ty es. induction l as [|c l IH]; intros next s; [reflexivity|]. cbn [map process_ends]. change (cr_left (mc c)) with (cr_left c). destruct (cr_left c); [reflexivity|].
  change (cr_cross (mc c)) with (cr_cross c). change (cr_line (mc c)) with (mg (cr_line c)). eapply bind_map; [apply edge_at_mv|]. intros e _. cbv zeta. change (e_first (medge e)) with (e_first e). rewrite has_overlap_mv, !get_region_mv.
  apply bind_same. intros [|] _; [apply IH|]. eapply (bind_map mrings); [destruct (xorb _ _); [apply add_edge_mv|reflexivity]|]. intros s' _. apply IH.
Qed.
Lemma set_regions_mv : forall r grp es, set_regions (map medge es) r (map mc grp) = rmap (map medge) (set_regions es r grp).
Proof.
  intros r grp es. unfold set_regions. apply fold_map. intros es' c. change (cr_cross (mc c)) with (cr_cross c). change (cr_line (mc c)) with (mg (cr_line c)). eapply bind_map; [apply edge_at_mv|]. intros e _. cbn [rmap]. rewrite set_region_mv, list_set_map. reflexivity.
Qed.
Lemma process_starts_mv : forall l es grp r, process_starts (map medge es) (map mc l) (map mc grp) r = rmap (map medge) (process_starts es l grp r).
Proof.
  induction l as [|c l IH]; intros es grp r; [reflexivity|]. cbn [map process_starts]. change (cr_cross (mc c)) with (cr_cross c). eapply bind_map; [apply edge_at_mv|]. intros e _. cbv zeta. change (e_first (medge e)) with (e_first e). rewrite has_overlap_mv.
  change [mc c] with (map mc [c]). rewrite <- map_app. apply bind_same. intros [|] _; [apply IH|]. eapply bind_map; [apply set_regions_mv|]. intros es' _. apply (IH es' []).
Qed.
Definition f3 (x : sweep nat * list edge * rings) : sweep nat * list edge * rings := (ms (fst (fst x)), map medge (snd (fst x)), mrings (snd x)).
Lemma op_point_mv : forall ty it es s, op_point presort' add_edge ty (ms it) (map medge es) (mrings s) = rmap f3 (op_point presort add_edge ty it es s).
Proof.
  intros ty it es s. unfold op_point, sort_crossings. change (ci_intersections (ms it)) with (map mc (ci_intersections it)). rewrite Hp.
  eapply bind_map; [apply isort_mv|]. intros l _. cbv zeta. change (set_out (map mc l) (ms it)) with (ms (set_out l it)). eapply bind_map; [apply process_ends_mv|]. intros [s1 starts] _. cbn [fe fst snd].
  destruct starts as [|bot starts]; [reflexivity|]. cbn [map]. change (cr_left (mc bot)) with (cr_left bot). apply bind_same. intros _ _. eapply bind_map; [apply (prev_active_mv g Gc Go idn)|]. intros [it2 prev] _. cbn [prev_mv_pair fst snd].
  eapply (bind_map (fun r : region => r)).
  { destruct prev as [sg|]; [|reflexivity]. cbn [option_map]. change (sg_cross (segm g idn sg)) with (sg_cross sg). change (sg_geom (segm g idn sg)) with (mg (sg_geom sg)). eapply bind_map; [apply edge_at_mv|]. intros e _. rewrite get_region_mv. reflexivity. }
  intros r _. eapply bind_map; [apply (process_starts_mv (bot :: starts) es [])|]. intros es' _. reflexivity.
Qed.
Lemma op_loop_mv : forall n fuel ln ln' ty it es s,
  op_loop tie presort' add_edge n fuel ln' ty (ms it) (map medge es) (mrings s) = rmap mrings (op_loop tie presort add_edge n fuel ln ty it es s).
Proof.
  induction n as [|n IH]; intros fuel ln ln' ty it es s; [reflexivity|]. cbn [op_loop]. eapply bind_map; [apply (ci_next_mv g Gc Go Gl Gx idn ln ln' tie)|]. intros [it' o] _. cbn [fp fst snd]. destruct o as [p|]; [|reflexivity]. cbn [option_map].
  eapply bind_map; [apply op_point_mv|]. intros [[it2 es2] s2] _. cbn [f3 fst snd]. apply IH.
Qed.
Lemma edge_line_mv : forall es i, i < List.length es -> edge_line (map medge es) i = mvl g (edge_line es i).
Proof.
  intros es i L. unfold edge_line. rewrite nth_error_map. destruct (nth_error es i) as [e|] eqn:E; [|apply nth_error_None in E; lia]. cbn [option_map medge e_geom]. apply lop_line_mv.
Qed.
Lemma op_run_mv : forall fuel o, op_run tie presort' add_edge fuel (mop o) rings_default = rmap mrings (op_run tie presort add_edge fuel o rings_default).
Proof.
  intros fuel o. unfold op_run. cbn [mop op_edges op_ty]. rewrite map_length.
  assert (I := from_iter_mv g Gc idn (edge_line (op_edges o)) (edge_line (map medge (op_edges o))) (seq 0 (List.length (op_edges o)))). rewrite map_id in I.
  eapply bind_map; [apply I; intros c J; apply in_seq in J; apply edge_line_mv; lia|]. intros it _. apply (op_loop_mv _ _ _ _ _ _ _ rings_default).
Qed.
Lemma op_sweep_mv : forall fuel o, op_sweep tie presort' fuel (mop o) = rmap (map mring) (op_sweep tie presort fuel o).
Proof. intros. unfold op_sweep. eapply bind_map; [apply op_run_mv|]. intros; apply finish_mv. Qed.
End Run.

(** ** The assembly *)
Definition mledge (e : ledge) : ledge := mkLedge (mg (le_geom e)) (le_ring e) (le_region e).
Lemma laminar_edges_mv : forall rs i, laminar_edges i (map mring rs) = rmap (map mledge) (laminar_edges i rs).
Proof.
  induction rs as [|r rs IH]; intros i; [reflexivity|]. cbn [map laminar_edges]. change (r_coords (mring r)) with (map g (r_coords r)). rewrite closed_mv. apply bind_same. intros _ _. eapply bind_map; [apply IH|]. intros rest _. cbn [rmap]. f_equal.
  rewrite lines_mv, map_app, !map_map. f_equal. apply map_ext. intros l. rewrite (lop_of_line_mv g Gc). reflexivity.
Qed.
Lemma lcompare_mv : forall a b, laminar_compare (mc a) (mc b) = laminar_compare a b.
Proof. intros. unfold laminar_compare. cbn [crm cr_left cr_line]. rewrite (lop_cmp_mv g Gc Go). reflexivity. Qed.
Lemma linsert_mv : forall x l, laminar_insert (mc x) (map mc l) = rmap (map mc) (laminar_insert x l).
Proof. intros x. induction l as [|y l IH]; [reflexivity|]. cbn [map laminar_insert]. rewrite lcompare_mv. apply bind_same. intros [| |] _; try reflexivity. eapply bind_map; [apply IH|]. reflexivity. Qed.
Lemma lsort_mv : forall l, laminar_sort (map mc l) = rmap (map mc) (laminar_sort l).
Proof. induction l as [|y l IH]; [reflexivity|]. cbn [map laminar_sort]. eapply bind_map; [apply IH|]. intros; apply linsert_mv. Qed.
Lemma ledge_at_mv : forall es i, ledge_at (map mledge es) i = rmap mledge (ledge_at es i).
Proof. intros. unfold ledge_at. rewrite nth_error_map. apply expect_map. Qed.
Lemma ring_at_mv : forall rs i, ring_at (map mring rs) i = rmap mring (ring_at rs i).
Proof. intros. unfold ring_at. rewrite nth_error_map. apply expect_map. Qed.
Lemma laminar_cross_mv : forall rs i ps b, laminar_cross (map mring rs) i ps b = laminar_cross rs i ps b.
Proof. intros. unfold laminar_cross. rewrite ring_at_mv. destruct (ring_at rs i); reflexivity. Qed.
Definition flp (x : list ledge * list nat) : list ledge * list nat := (map mledge (fst x), snd x).
Lemma laminar_starts_mv : forall rs l es ps b, laminar_starts (map mring rs) (map mledge es) ps (map mc l) b = rmap flp (laminar_starts rs es ps l b).
Proof.
  intros rs. induction l as [|c l IH]; intros es ps b; [reflexivity|]. cbn [map laminar_starts]. change (cr_left (mc c)) with (cr_left c). change (cr_overlap (mc c)) with (cr_overlap c). change (cr_cross (mc c)) with (cr_cross c). destruct (negb (cr_left c)); [reflexivity|].
  apply bind_same. intros _ _. eapply bind_map; [apply ledge_at_mv|]. intros e _. change (le_ring (mledge e)) with (le_ring e). rewrite laminar_cross_mv. apply bind_same. intros [b' ps'] _.
  change (mkLedge (le_geom (mledge e)) (le_ring e) b') with (mledge (mkLedge (le_geom e) (le_ring e) b')). rewrite list_set_map. apply IH.
Qed.
Definition fl3 (x : sweep nat * list ledge * list nat) : sweep nat * list ledge * list nat := (ms (fst (fst x)), map mledge (snd (fst x)), snd x).
Lemma laminar_point_mv : forall rs it es ps, laminar_point (map mring rs) (ms it) (map mledge es) ps = rmap fl3 (laminar_point rs it es ps).
Proof.
  intros rs it es ps. unfold laminar_point. change (ci_intersections (ms it)) with (map mc (ci_intersections it)). eapply bind_map; [apply lsort_mv|]. intros l _. cbv zeta. change (set_out (map mc l) (ms it)) with (ms (set_out l it)).
  destruct l as [|c l]; [reflexivity|]. cbn [map]. change (cr_left (mc c)) with (cr_left c). destruct (negb (cr_left c)); [reflexivity|].
  eapply bind_map; [apply (prev_active_mv g Gc Go idn)|]. intros [it2 prev] _. cbn [prev_mv_pair fst snd]. eapply (bind_map (fun r : option nat => r)).
  { destruct prev as [sg|]; [|reflexivity]. cbn [option_map]. change (sg_cross (segm g idn sg)) with (sg_cross sg). eapply bind_map; [apply ledge_at_mv|]. reflexivity. }
  intros b _. eapply bind_map; [apply (laminar_starts_mv rs (c :: l))|]. intros [es' ps'] _. reflexivity.
Qed.
Lemma laminar_loop_mv : forall tie n fuel ln ln' rs it es ps,
  laminar_loop tie n fuel ln' (map mring rs) (ms it) (map mledge es) ps = laminar_loop tie n fuel ln rs it es ps.
Proof.
  intros tie n fuel ln ln' rs it es ps. assert (G : laminar_loop tie n fuel ln' (map mring rs) (ms it) (map mledge es) ps = rmap (fun x : list nat => x) (laminar_loop tie n fuel ln rs it es ps)); [|rewrite G; apply rmap_id].
  revert it es ps. induction n as [|n IH]; intros it es ps; [reflexivity|]. cbn [laminar_loop]. eapply bind_map; [apply (ci_next_mv g Gc Go Gl Gx idn ln ln' tie)|]. intros [it' o] _. cbn [fp fst snd]. destruct o as [p|]; [|reflexivity]. cbn [option_map].
  eapply bind_map; [apply laminar_point_mv|]. intros [[it2 es2] s2] _. cbn [fl3 fst snd]. apply IH.
Qed.
Lemma ledge_line_mv : forall es i, i < List.length es -> ledge_line (map mledge es) i = mvl g (ledge_line es i).
Proof.
  intros es i L. unfold ledge_line. rewrite nth_error_map. destruct (nth_error es i) as [e|] eqn:E; [|apply nth_error_None in E; lia]. cbn [option_map mledge le_geom]. apply lop_line_mv.
Qed.
Lemma find_parents_mv : forall tie fuel rs, find_parents tie fuel (map mring rs) = find_parents tie fuel rs.
Proof.
  intros tie fuel rs. assert (G : find_parents tie fuel (map mring rs) = rmap (fun x : list nat => x) (find_parents tie fuel rs)); [|rewrite G; apply rmap_id].
  unfold find_parents. eapply bind_map; [apply laminar_edges_mv|]. intros es _. rewrite !map_length.
  assert (I := from_iter_mv g Gc idn (ledge_line es) (ledge_line (map mledge es)) (seq 0 (List.length es))). rewrite map_id in I.
  eapply bind_map; [apply I; intros c J; apply in_seq in J; apply ledge_line_mv; lia|]. intros it _. rewrite (laminar_loop_mv tie fuel fuel (ledge_line es)), rmap_id. reflexivity.
Qed.
Lemma polygon_at_mv : forall rs ps i, polygon_at (map mring rs) (map (option_map mpg) ps) i = rmap mpg (polygon_at rs ps i).
Proof.
  intros. unfold polygon_at. rewrite nth_error_map. eapply bind_map; [apply expect_map|]. intros [p|] _; [reflexivity|]. cbn [option_map]. eapply bind_map; [apply ring_at_mv|]. intros r _. cbn [rmap mring r_coords]. unfold polygon_new. rewrite close_mv. reflexivity.
Qed.
Lemma place_mv : forall rings ps rs i pgs, place_rings (map mring rings) ps i (map mring rs) (map (option_map mpg) pgs) = rmap (map (option_map mpg)) (place_rings rings ps i rs pgs).
Proof.
  intros rings ps. induction rs as [|r rs IH]; intros i pgs; [reflexivity|]. cbn [map place_rings]. change (r_hole (mring r)) with (r_hole r). eapply (bind_map (map (option_map mpg))); [|intros; apply IH]. destruct (r_hole r).
  - apply bind_same. intros j _. eapply bind_map; [apply polygon_at_mv|]. intros p _. cbn [rmap]. rewrite <- list_set_map. f_equal. f_equal. cbn [option_map]. f_equal. unfold interiors_push, mpg, moved_polygon. cbn [pg_exterior pg_interiors mring r_coords]. rewrite map_app, close_mv. reflexivity.
  - eapply bind_map; [apply polygon_at_mv|]. intros p _. cbn [rmap]. rewrite <- list_set_map. reflexivity.
Qed.
Lemma build_mv : forall rs ps, build_polygons (map mring rs) ps = rmap (map mpg) (build_polygons rs ps).
Proof.
  intros. unfold build_polygons. rewrite map_length. eapply (bind_map (map (option_map mpg))).
  - replace (repeat None (List.length rs)) with (map (option_map mpg) (repeat None (List.length rs))) at 1 by (generalize (List.length rs); induction n; cbn; congruence). apply place_mv.
  - intros l _. cbn [rmap]. f_equal. induction l as [|[p|] l IH]; cbn [map flat_map option_map app]; congruence.
Qed.
Lemma assemble_mv : forall tie fuel rs, assemble tie fuel (map mring rs) = rmap (map mpg) (assemble tie fuel rs).
Proof. intros. unfold assemble. rewrite find_parents_mv. apply bind_same. intros; apply build_mv. Qed.
Lemma boolean_op_mv : forall tie presort presort' fuel tie' fuel' ty a b, (forall l, presort' (map mc l) = map mc (presort l)) ->
  boolean_op tie presort' fuel tie' fuel' ty (map mpg a) (map mpg b) = rmap (map mpg) (boolean_op tie presort fuel tie' fuel' ty a b).
Proof.
  intros. unfold boolean_op. eapply bind_map; [apply op_input_mv|]. intros o _. eapply bind_map; [apply op_sweep_mv; eauto|]. intros rs _. apply assemble_mv.
Qed.
End Move.
