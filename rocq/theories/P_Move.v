(** Moving the input of the sweep moves its output. *)
Require Import List String Bool Arith Lia.
From Verif Require Import Base Scalar M_Events M_Geo M_LineOrPoint M_Splay M_Slab M_Active M_Sweep M_Crossings.
From Verif Require Import P_Param.
Import ListNotations.
Local Open Scope nat_scope.

Section Move.
Variable g : pt -> pt.
Definition mvl (l : line) : line := mkLine (g (l_start l)) (g (l_end l)).
Definition mvg (x : lop) : lop := match x with Point p => Point (g p) | Line p q => Line (g p) (g q) end.
Definition mvi (i : line_intersection_result) : line_intersection_result :=
  match i with SinglePoint p b => SinglePoint (g p) b | CollinearSeg l => CollinearSeg (mvl l) end.
Hypothesis Gc : forall a b, pcmp (g a) (g b) = pcmp a b.
Hypothesis Go : forall a b c, orient2d (g a) (g b) (g c) = orient2d a b c.
Hypothesis Gl : forall l m, line_intersection (mvl l) (mvl m) = option_map mvi (line_intersection l m).
Hypothesis Gx : forall a b, qeqb (cx (g a)) (cx (g b)) && qltb (cy (g a)) (cy (g b)) = qeqb (cx a) (cx b) && qltb (cy a) (cy b).

Lemma Glt : forall a b, pltb (g a) (g b) = pltb a b. Proof. intros. unfold pltb. rewrite Gc. reflexivity. Qed.
Lemma Gle : forall a b, pleb (g a) (g b) = pleb a b. Proof. intros. unfold pleb. rewrite Gc. reflexivity. Qed.
Lemma Geq : forall a b, peqb (g a) (g b) = peqb a b. Proof. intros. unfold peqb. rewrite Gc. reflexivity. Qed.
Lemma lop_of_line_mv : forall l, lop_of_line (mvl l) = mvg (lop_of_line l).
Proof. intros [p q]. unfold lop_of_line, mvl. cbn [l_start l_end]. rewrite Gc. destruct (pcmp p q); reflexivity. Qed.
Lemma is_line_mv : forall x, is_line (mvg x) = is_line x. Proof. intros [|]; reflexivity. Qed.
Lemma lop_line_mv : forall x, lop_line (mvg x) = mvl (lop_line x). Proof. intros [|]; reflexivity. Qed.
Lemma lop_first_mv : forall x, lop_first (mvg x) = g (lop_first x). Proof. intros [|]; reflexivity. Qed.
Lemma lop_second_mv : forall x, lop_second (mvg x) = g (lop_second x). Proof. intros [|]; reflexivity. Qed.
Lemma intersect_line_mv : forall a b, intersect_line (mvg a) (mvg b) = rmap (option_map mvg) (intersect_line a b).
Proof.
  intros a b. unfold intersect_line, intersect_line_with. fold line_intersection. rewrite is_line_mv. destruct (is_line b); [|reflexivity]. cbn [check bind]. rewrite lop_line_mv. destruct a as [p|p q]; cbn [mvg rmap].
  - unfold mvl at 1 2 3 4. cbn [l_start l_end]. rewrite Go, !Gle. destruct (is_collinear _); [|reflexivity]. destruct (pleb _ _ && pleb _ _); reflexivity.
  - change (mkLine (g p) (g q)) with (mvl (mkLine p q)). rewrite Gl. destruct (line_intersection (mkLine p q) (lop_line b)) as [[x c|l]|]; cbn [option_map mvi]; auto. rewrite lop_of_line_mv. reflexivity.
Qed.
Lemma ilo_mv : forall a b, intersect_line_ordered (mvg a) (mvg b) = rmap (option_map mvg) (intersect_line_ordered a b).
Proof.
  intros a b. unfold intersect_line_ordered, intersect_line_ordered_with. fold intersect_line. eapply bind_map; [apply intersect_line_mv|]. intros [[p|p q]|] _; cbn [option_map mvg]; try reflexivity.
  cbv zeta. rewrite !lop_first_mv, Gx. destruct (_ && _); [reflexivity|]. cbn [bind]. replace (mkC (cx (g p)) (cy (g p))) with (g p) by (destruct (g p); reflexivity). replace (mkC (cx p) (cy p)) with p by (destruct p; reflexivity). rewrite !Gle. destruct (check _ _); cbn [bind rmap]; auto. destruct (check _ _); cbn [bind rmap]; auto.
Qed.
Lemma lop_cmp_mv : forall a b, lop_partial_cmp (mvg a) (mvg b) = lop_partial_cmp a b.
Proof.
  intros [p|p q] [r|r s]; cbn; unfold cmp_line_point, cmp_line_line, cmp_line_line_ordered; rewrite ?Geq, ?Glt, ?Gle, ?Go; reflexivity.
Qed.
(** ** Events *)
Definition mve (e : event) : event := mkEvent (g (ev_point e)) (ev_ty e) (ev_key e).
Lemma ev_cmp_mv : forall a b, ev_cmp (mve a) (mve b) = ev_cmp a b.
Proof. intros. unfold ev_cmp, mve. cbn [ev_point ev_ty]. rewrite Gc. reflexivity. Qed.
Lemma is_max_mv : forall h e, is_max (map mve h) (mve e) = is_max h e.
Proof. intros h e. unfold is_max. induction h as [|x h IH]; [reflexivity|]. cbn [map forallb]. rewrite ev_cmp_mv, IH. reflexivity. Qed.
Lemma max_positions_mv : forall h all i, max_positions (map mve h) (map mve all) i = max_positions h all i.
Proof. induction h as [|x h IH]; intros all i; [reflexivity|]. cbn [map max_positions]. rewrite is_max_mv, !IH. reflexivity. Qed.
Lemma remove_nth_map : forall {X Y} (f : X -> Y) n l, remove_nth n (map f l) = map f (remove_nth n l).
Proof. intros X Y f n. induction n as [|n IH]; intros [|x l]; cbn [remove_nth map]; auto. rewrite IH. reflexivity. Qed.
Lemma heap_pop_mv : forall c h, heap_pop c (map mve h) = option_map (fun x => (mve (fst x), map mve (snd x))) (heap_pop c h).
Proof.
  intros c h. unfold heap_pop. rewrite max_positions_mv. cbv zeta. destruct (nth_error _ _) as [i|]; [|reflexivity]. rewrite nth_error_map. destruct (nth_error h i); [|reflexivity]. cbn [option_map fst snd]. rewrite remove_nth_map. reflexivity.
Qed.
Lemma heap_peek_mv : forall h, heap_peek (map mve h) = option_map mve (heap_peek h).
Proof.
  intros h. unfold heap_peek. assert (G : forall k, find (is_max (map mve h)) (map mve k) = option_map mve (find (is_max h) k)); [|apply G].
  induction k as [|x k IH]; [reflexivity|]. cbn [map find]. rewrite is_max_mv. destruct (is_max h x); auto.
Qed.

Section Param.
Context {C D : Type} (f : C -> D) (lC : C -> line) (lD : D -> line) (tie : nat -> nat).
Definition segm (s : segment C) : segment D :=
  mkSeg (mvg (sg_geom s)) (sg_key s) (f (sg_cross s)) (sg_first s) (sg_done s) (sg_ovl s) (sg_is_ovl s).
Definition crm (x : crossing C) : crossing D :=
  mkCrossing (f (cr_cross x)) (mvg (cr_line x)) (cr_first x) (cr_overlap x) (cr_left x) (cr_key x).
Definition swm (s : sweep C) : sweep D :=
  mkSweep (slab_map segm (sw_segs s)) (map mve (sw_events s)) (sw_active s) (map crm (sw_out s)) (sw_clock s).
Notation sm := (slab_map segm).
Lemma seg_cmp_mv : forall x y, seg_partial_cmp (segm x) (segm y) = seg_partial_cmp x y.
Proof. intros. unfold seg_partial_cmp. cbn [segm sg_geom sg_key]. rewrite lop_cmp_mv. reflexivity. Qed.
Notation fs := P_Param.fs.
Lemma upd_seg_mv : forall sl k h h', (forall s, h' (segm s) = segm (h s)) -> upd_seg (sm sl) k h' = rmap sm (upd_seg sl k h).
Proof.
  intros sl k h h' E. unfold upd_seg. eapply bind_map; [apply slab_getu_map|]. intros s _. rewrite E. apply slab_set_map.
Qed.
(** The line of an input is looked up only when its first segment is made. *)
Definition known (c : C) (x : option lop) : Prop := x = None -> lD (f c) = mvl (lC c).
Lemma segment_new_mv : forall sl c x, known c x ->
  segment_new lD (sm sl) (f c) (option_map mvg x) = rmap (fun y => (sm (fst y), segm (snd y))) (segment_new lC sl c x).
Proof.
  intros sl c x K. unfold segment_new. eapply (bind_map sm); [|intros; destruct x; cbn [option_map rmap fst snd segm sg_geom sg_key sg_cross sg_first sg_done sg_ovl sg_is_ovl]; rewrite ?K, ?lop_of_line_mv by auto; reflexivity].
  rewrite <- slab_insert_map. f_equal. destruct x; cbn [option_map segm sg_geom sg_key sg_cross sg_first sg_done sg_ovl sg_is_ovl]; rewrite ?K, ?lop_of_line_mv by auto; reflexivity.
Qed.
Lemma kn : forall c x, known c (Some x). Proof. intros c x; discriminate. Qed.
Lemma copy_chain_mv : forall fuel sl ch t x, copy_chain lD fuel (sm sl) ch t (mvg x) = rmap sm (copy_chain lC fuel sl ch t x).
Proof.
  induction fuel as [|fuel IH]; intros sl [ck|] t x; try reflexivity. cbn [copy_chain].
  eapply bind_map; [apply slab_getu_map|]. intros c _. eapply bind_map; [apply (segment_new_mv sl (sg_cross c) (Some x)), kn|]. intros [sl1 n] _. cbn [fst snd].
  eapply bind_map; [apply (upd_seg_mv sl1 t (with_ovl (Some (sg_key n)))); reflexivity|]. intros sl2 _.
  eapply bind_map; [apply (upd_seg_mv sl2 (sg_key n) (with_is_ovl true)); reflexivity|]. intros sl3 _. apply IH.
Qed.
Lemma chain_fuel_mv : forall sl, chain_fuel (sm sl) = chain_fuel sl.
Proof. intros. unfold chain_fuel. cbn [slab_map s_entries]. rewrite map_length. reflexivity. Qed.
Lemma left_event_mv : forall s, left_event (segm s) = mve (left_event s).
Proof. intros s. unfold left_event. cbn [segm sg_geom]. destruct (sg_geom s); reflexivity. Qed.
Lemma right_event_mv : forall s, right_event (segm s) = mve (right_event s).
Proof. intros s. unfold right_event. cbn [segm sg_geom]. destruct (sg_geom s); reflexivity. Qed.
Lemma push_mv : forall e sw, push (mve e) (swm sw) = swm (push e sw).
Proof. reflexivity. Qed.
Lemma set_segs_mv : forall sl sw, set_segs (sm sl) (swm sw) = swm (set_segs sl sw).
Proof. reflexivity. Qed.
Lemma create_mv : forall sw c x p, known c x -> create_segment lD (swm sw) (f c) (option_map mvg x) p = rmap (fs swm) (create_segment lC sw c x p).
Proof.
  intros sw c x p K. unfold create_segment. eapply bind_map; [apply segment_new_mv; auto|]. intros [sl s] _. cbn [fst snd]. rewrite left_event_mv, right_event_mv, set_segs_mv, !push_mv.
  destruct p as [pk|]; [|reflexivity]. eapply bind_map; [apply slab_getu_map|]. intros q _.
  rewrite chain_fuel_mv. eapply bind_map; [apply copy_chain_mv|]. intros; reflexivity.
Qed.
Lemma set_chain_mv : forall fuel sl ch x, set_chain_geom fuel (sm sl) ch (mvg x) = rmap sm (set_chain_geom fuel sl ch x).
Proof.
  induction fuel as [|fuel IH]; intros sl [ck|] x; try reflexivity. cbn [set_chain_geom].
  eapply bind_map; [apply slab_getu_map|]. intros c _. eapply bind_map; [apply (slab_set_map segm sl ck (with_geom x c))|]. intros sl1 _. apply IH.
Qed.
Definition mvs (x : split) : split :=
  match x with Unchanged b => Unchanged b | SplitOnce o r => SplitOnce o (mvg r) | SplitTwice r => SplitTwice (mvg r) end.
Definition fsp (x : segment C * split) : segment D * split := (segm (fst x), mvs (snd x)).
Definition fsw (x : sweep C * split) : sweep D * split := (swm (fst x), mvs (snd x)).
Lemma seg_adjust_mv : forall s i, seg_adjust (segm s) (mvg i) = rmap fsp (seg_adjust s i).
Proof.
  intros s i. unfold seg_adjust. cbn [segm sg_geom]. destruct (sg_geom s) as [p|p q] eqn:E; [reflexivity|]. cbn [mvg]. destruct i as [r|r1 r2]; cbn [mvg]; rewrite ?Gle, ?Geq, ?Glt.
  - apply bind_same. intros _ _. destruct (peqb p r || peqb q r); [reflexivity|]. destruct (pltb r q); reflexivity.
  - apply bind_same. intros _ _. destruct (peqb p r1); destruct (peqb r2 q); reflexivity.
Qed.
Lemma afi_mv : forall sw k i, adjust_for_intersection (swm sw) k (mvg i) = rmap fsw (adjust_for_intersection sw k i).
Proof.
  intros sw k i. unfold adjust_for_intersection. eapply bind_map; [apply slab_getu_map|]. intros s _.
  eapply bind_map; [apply seg_adjust_mv|]. intros [s' out] _. cbn [fsp fst snd].
  eapply bind_map; [apply (slab_set_map segm)|]. intros sl _. rewrite chain_fuel_mv, right_event_mv.
  eapply bind_map; [apply set_chain_mv|]. intros sl' _. destruct out; reflexivity.
Qed.
Lemma aos_mv : forall sw k i, adjust_one_segment lD (swm sw) k (mvg i) = rmap (fs swm) (adjust_one_segment lC sw k i).
Proof.
  intros sw k i. unfold adjust_one_segment. eapply bind_map; [apply slab_getu_map|]. intros s _.
  eapply bind_map; [apply afi_mv|]. intros [sw1 out] _. cbn [fsw fst snd mvs]. destruct out as [o|o rt|rt]; cbn [mvs].
  - reflexivity.
  - eapply bind_map; [apply (create_mv sw1 (sg_cross s) (Some rt)), kn|]. intros [sw2 nk] _. reflexivity.
  - eapply bind_map; [apply (create_mv sw1 (sg_cross s) (Some rt)), kn|]. intros [sw2 nk] _. cbn [fs fst snd]. eapply bind_map; [apply (create_mv sw2 (sg_cross s) (Some i)), kn|]. intros [sw3 mk] _. reflexivity.
Qed.
Lemma sfe_mv : forall sl ev, segment_for_event (sm sl) (mve ev) = rmap (option_map segm) (segment_for_event sl ev).
Proof.
  intros sl ev. unfold segment_for_event. cbn [mve ev_key ev_ty ev_point]. rewrite slab_get_map. destruct (ev_ty ev).
  - eapply bind_map; [apply expect_map|]. intros s _. cbn [segm sg_geom]. destruct (sg_geom s); [|reflexivity]. cbn [mvg]. rewrite Geq. apply bind_same. reflexivity.
  - destruct (slab_get sl (ev_key ev)) as [s|]; [|reflexivity]. cbn [option_map segm sg_is_ovl sg_geom rmap].
    destruct (sg_is_ovl s); [reflexivity|]. destruct (sg_geom s) as [|p q]; [reflexivity|]. cbn [mvg]. rewrite Geq. destruct (peqb q (ev_point ev)); reflexivity.
  - eapply bind_map; [apply expect_map|]. intros s _. cbn [segm sg_geom]. destruct (sg_geom s); [reflexivity|]. cbn [mvg]. rewrite Geq. apply bind_same. reflexivity.
  - eapply bind_map; [apply expect_map|]. intros s _. cbn [segm sg_geom]. destruct (sg_geom s); [|reflexivity]. cbn [mvg]. rewrite Geq. apply bind_same. reflexivity.
Qed.
Lemma chain_last_mv : forall fuel sl k, chain_last fuel (sm sl) k = chain_last fuel sl k.
Proof.
  induction fuel as [|fuel IH]; intros sl k; [reflexivity|]. cbn [chain_last]. rewrite slab_getu_map. destruct (slab_get_unchecked sl k) as [s| |]; cbn [rmap bind]; auto.
  cbn [segm sg_ovl]. destruct (sg_ovl s); auto.
Qed.
Lemma chain_overlap_mv : forall sw a b, chain_overlap (swm sw) a b = rmap swm (chain_overlap sw a b).
Proof.
  intros sw a b. unfold chain_overlap. cbn [swm sw_segs]. rewrite chain_fuel_mv, chain_last_mv. apply bind_same. intros last _.
  eapply bind_map; [apply (upd_seg_mv (sw_segs sw) last (with_ovl (Some b))); reflexivity|]. intros sl1 _.
  eapply bind_map; [apply (upd_seg_mv sl1 b (with_is_ovl true)); reflexivity|]. intros; reflexivity.
Qed.
Lemma cb_mv : forall s ty sw, cb (segm s) ty (swm sw) = swm (cb s ty sw).
Proof. intros. unfold cb, swm, set_out. cbn [sw_segs sw_events sw_active sw_out sw_clock]. rewrite map_app. reflexivity. Qed.
Lemma report_left_mv : forall fuel sw k ty, report_left fuel (swm sw) k ty = rmap swm (report_left fuel sw k ty).
Proof.
  induction fuel as [|fuel IH]; intros sw [k|] ty; try reflexivity. cbn [report_left].
  eapply bind_map; [apply slab_getu_map|]. intros s _. rewrite cb_mv.
  eapply bind_map; [apply (upd_seg_mv (sw_segs (cb s ty sw)) k (with_done true)); reflexivity|]. intros sl _.
  apply (IH (set_segs sl (cb s ty sw))).
Qed.
Lemma report_right_mv : forall fuel sw k ty, report_right fuel (swm sw) k ty = rmap swm (report_right fuel sw k ty).
Proof.
  induction fuel as [|fuel IH]; intros sw [k|] ty; try reflexivity. cbn [report_right].
  eapply bind_map; [apply slab_getu_map|]. intros s _. rewrite cb_mv.
  eapply bind_map; [apply slab_remove_map|]. intros [sl x] _. apply (IH (set_segs sl (cb s ty sw))).
Qed.
Lemma pop_mv : forall sw, pop tie (swm sw) = option_map (fun x => (mve (fst x), swm (snd x))) (pop tie sw).
Proof. intros sw. unfold pop. cbn [swm sw_clock sw_events]. rewrite heap_pop_mv. destruct (heap_pop _ _) as [[ev h]|]; reflexivity. Qed.

Definition s3m (x : sweep C * segment C * flow) : sweep D * segment D * flow := (swm (fst (fst x)), segm (snd (fst x)), snd x).
Lemma ll_round_mv : forall hC hD ev sw s k, (forall sw ev, hD (swm sw) (mve ev) = rmap (fs swm) (hC sw ev)) ->
  ll_round lD tie hD (mve ev) (swm sw) (segm s) k = rmap s3m (ll_round lC tie hC ev sw s k).
Proof.
  intros hC hD ev sw s k Hh. unfold ll_round. cbn [swm sw_segs mve ev_key]. rewrite slab_get_map. eapply bind_map; [apply expect_map|]. intros adj _.
  cbn [segm sg_geom]. eapply bind_map; [apply ilo_mv|]. intros [i|] _; [|reflexivity]. cbn [option_map].
  change (mkSweep (sm (sw_segs sw)) (map mve (sw_events sw)) (sw_active sw) (map crm (sw_out sw)) (sw_clock sw)) with (swm sw).
  eapply bind_map; [apply aos_mv|]. intros [sw1 ao] _. cbn [fs fst snd]. eapply bind_map; [apply slab_getu_map|]. intros adj' _. cbn [segm sg_geom]. rewrite !lop_first_mv, !Geq.
  eapply (bind_map swm).
  { destruct (negb _ && _); [|reflexivity]. rewrite pop_mv. eapply bind_map; [apply expect_map|]. intros [e1 sw1'] _. cbn [fst snd].
    eapply bind_map; [apply Hh|]. intros [sw1'' d] _. cbn [fs fst snd]. apply bind_same. reflexivity. }
  intros sw2 _. eapply bind_map; [apply aos_mv|]. intros [sw3 so] _. cbn [fs fst snd]. eapply bind_map; [apply slab_getu_map|]. intros sgm' _.
  apply bind_same. intros _ _. destruct ao as [ak|]; [|reflexivity]. apply bind_same. intros tgt _.
  eapply bind_map; [apply chain_overlap_mv|]. intros sw4 _. destruct (tgt =? ev_key ev); [|reflexivity].
  eapply bind_map; [apply slab_getu_map|]. intros a _. reflexivity.
Qed.
Lemma ll_loop_mv : forall hC hD ev ks sw s, (forall sw ev, hD (swm sw) (mve ev) = rmap (fs swm) (hC sw ev)) ->
  ll_loop lD tie hD (mve ev) (swm sw) (segm s) ks = rmap (fs swm) (ll_loop lC tie hC ev sw s ks).
Proof.
  intros hC hD ev ks. induction ks as [|k ks IH]; intros sw s Hh; [reflexivity|]. cbn [ll_loop].
  eapply bind_map; [apply ll_round_mv; exact Hh|]. intros [[sw' s'] fl] _. cbn [s3m fst snd]. destruct fl; try reflexivity. apply IH. exact Hh.
Qed.
Lemma pl_round_mv : forall s sw k, pl_round lD (segm s) (swm sw) k = rmap swm (pl_round lC s sw k).
Proof.
  intros s sw k. unfold pl_round. cbn [swm sw_segs]. rewrite slab_get_map. eapply bind_map; [apply expect_map|]. intros adj _.
  cbn [segm sg_geom]. eapply bind_map; [apply ilo_mv|]. intros [i|] _; [|reflexivity]. cbn [option_map].
  change (mkSweep (sm (sw_segs sw)) (map mve (sw_events sw)) (sw_active sw) (map crm (sw_out sw)) (sw_clock sw)) with (swm sw).
  eapply bind_map; [apply aos_mv|]. intros [sw1 ao] _. cbn [fs fst snd]. apply bind_same. reflexivity.
Qed.
Lemma fold_pl_mv : forall s ks sw, fold_res (pl_round lD (segm s)) (swm sw) ks = rmap swm (fold_res (pl_round lC s) sw ks).
Proof.
  intros s ks. induction ks as [|k ks IH]; intros sw; [reflexivity|]. cbn [fold_res]. eapply bind_map; [apply pl_round_mv|]. intros; apply IH.
Qed.
Lemma set_active_mv : forall t sw, set_active t (swm sw) = swm (set_active t sw).
Proof. reflexivity. Qed.
Lemma handle_mv : forall fuel sw ev, handle_event lD tie fuel (swm sw) (mve ev) = rmap (fs swm) (handle_event lC tie fuel sw ev).
Proof.
  induction fuel as [|fuel IH]; intros sw ev; [reflexivity|]. cbn [handle_event].
  eapply bind_map; [apply sfe_mv|]. intros [s|] _; cbn [option_map]; [|reflexivity].
  change (sg_key (segm s)) with (sg_key s). change (sw_segs (swm sw)) with (sm (sw_segs sw)). change (sw_active (swm sw)) with (sw_active sw). change (ev_key (mve ev)) with (ev_key ev). change (ev_ty (mve ev)) with (ev_ty ev).
  rewrite (prev_key_map segm seg_partial_cmp seg_partial_cmp seg_cmp_mv). apply bind_same. intros [t1 pv] _.
  rewrite (next_key_map segm seg_partial_cmp seg_partial_cmp seg_cmp_mv). apply bind_same. intros [t2 nx] _.
  rewrite set_active_mv. destruct (ev_ty ev) eqn:Et.
  - eapply bind_map; [apply fold_pl_mv|]. intros sw1 _. rewrite cb_mv. reflexivity.
  - change (sw_segs (swm (set_active t2 sw))) with (sm (sw_segs (set_active t2 sw))).
    change (sw_active (swm (set_active t2 sw))) with (sw_active (set_active t2 sw)).
    rewrite (remove_key_map segm seg_partial_cmp seg_partial_cmp seg_cmp_mv). apply bind_same. intros t _.
    rewrite set_active_mv, chain_fuel_mv.
    eapply bind_map; [apply report_right_mv|]. intros sw1 _. destruct pv as [pk|]; [|reflexivity]. destruct nx as [nk|]; [|reflexivity].
    eapply bind_map; [apply slab_getu_map|]. intros ps _. eapply bind_map; [apply slab_getu_map|]. intros ns _. cbn [segm sg_geom].
    eapply bind_map; [apply ilo_mv|]. intros [i|] _; [|reflexivity]. cbn [option_map]. eapply bind_map; [apply aos_mv|]. intros [sw2 a] _. cbn [fs fst snd].
    eapply bind_map; [apply aos_mv|]. intros [sw3 b] _. cbn [fs fst snd]. apply bind_same. reflexivity.
  - eapply bind_map; [apply ll_loop_mv; exact IH|]. intros [sw1 fl] _. cbn [fs fst snd]. destruct fl; try reflexivity.
    + eapply (bind_map swm).
      { change (sw_segs (swm sw1)) with (sm (sw_segs sw1)). change (sw_active (swm sw1)) with (sw_active sw1). rewrite (add_key_map segm seg_partial_cmp seg_partial_cmp seg_cmp_mv). apply bind_same. reflexivity. }
      intros sw2 _. change (sw_segs (swm sw2)) with (sm (sw_segs sw2)). rewrite chain_fuel_mv. eapply bind_map; [apply report_left_mv|]. reflexivity.
    + cbn [bind]. change (sw_segs (swm sw1)) with (sm (sw_segs sw1)). rewrite chain_fuel_mv. eapply bind_map; [apply report_left_mv|]. reflexivity.
  - reflexivity.
Qed.
Definition fp (x : sweep C * option pt) : sweep D * option pt := (swm (fst x), option_map g (snd x)).
Lemma next_event_mv : forall sw, next_event lD tie (swm sw) = rmap fp (next_event lC tie sw).
Proof.
  intros sw. unfold next_event. rewrite pop_mv. destruct (pop tie sw) as [[ev sw1]|]; [|reflexivity]. cbn [option_map fst snd].
  assert (F : handle_fuel (swm sw1) = handle_fuel sw1) by (unfold handle_fuel; cbn [swm sw_events]; rewrite map_length; reflexivity). rewrite F.
  eapply bind_map; [apply handle_mv|]. intros [sw2 b] _. reflexivity.
Qed.
Lemma peek_mv : forall sw : sweep C, peek_point (swm sw) = option_map g (peek_point sw).
Proof. intros sw. unfold peek_point. cbn [swm sw_events]. rewrite heap_peek_mv. destruct (heap_peek _); reflexivity. Qed.
Lemma opt_peqb_mv : forall a b, opt_peqb (option_map g a) (option_map g b) = opt_peqb a b.
Proof. intros [a|] [b|]; cbn; auto. apply Geq. Qed.
Lemma ci_loop_mv : forall fuel sw l, ci_loop lD tie fuel (swm sw) (option_map g l) = rmap fp (ci_loop lC tie fuel sw l).
Proof.
  induction fuel as [|fuel IH]; intros sw l; cbn [ci_loop]; rewrite peek_mv, opt_peqb_mv; destruct (peek_point sw); cbn [option_map]; destruct (opt_peqb l _ && _); try reflexivity.
  all: eapply bind_map; [apply next_event_mv|]; intros [sw' l'] _; apply IH.
Qed.
Lemma ci_next_mv : forall fuel sw, ci_next lD tie fuel (swm sw) = rmap fp (ci_next lC tie fuel sw).
Proof.
  intros fuel sw. unfold ci_next. change (set_out [] (swm sw)) with (swm (set_out [] sw)). rewrite peek_mv.
  eapply bind_map; [apply ci_loop_mv|]. intros [it1 last] _. cbn [fp fst snd swm sw_out]. destruct (sw_out it1); reflexivity.
Qed.
Lemma from_iter_mv : forall input, (forall c, In c input -> lD (f c) = mvl (lC c)) -> ci_from_iter lD (map f input) = rmap swm (ci_from_iter lC input).
Proof.
  intros input. unfold ci_from_iter, sweep_new.
  change (@mkSweep D slab_new [] active_new [] 0) with (swm (@mkSweep C slab_new [] active_new [] 0)).
  generalize (@mkSweep C slab_new [] active_new [] 0). induction input as [|c input IH]; intros sw Hl; [reflexivity|]. cbn [map fold_res].
  eapply bind_map; [|intros x _; apply IH; intros; apply Hl; right; auto]. eapply bind_map; [apply (create_mv sw c None None); intros _; apply Hl; left; auto|]. intros [sw' k] _. reflexivity.
Qed.
Definition prev_mv_pair (x : sweep C * option (segment C)) : sweep D * option (segment D) := (swm (fst x), option_map segm (snd x)).
Lemma prev_active_mv : forall sw c, prev_active (swm sw) (crm c) = rmap prev_mv_pair (prev_active sw c).
Proof.
  intros sw c. unfold prev_active. cbn [crm cr_left cr_key swm sw_active sw_segs]. apply bind_same. intros _ _. rewrite (prev_key_map segm seg_partial_cmp seg_partial_cmp seg_cmp_mv).
  apply bind_same. intros [t [k|]] _; [|reflexivity]. eapply bind_map; [apply slab_getu_map|]. intros s _. reflexivity.
Qed.
Definition out1 (x : pt * list (crossing C)) : pt * list (crossing D) := (g (fst x), map crm (snd x)).
Lemma drain_mv : forall n fuel sw, ci_drain lD tie n fuel (swm sw) = rmap (map out1) (ci_drain lC tie n fuel sw).
Proof.
  induction n as [|n IH]; intros fuel sw; [reflexivity|]. cbn [ci_drain]. eapply bind_map; [apply ci_next_mv|]. intros [it o] _. cbn [fp fst snd]. destruct o as [p|]; [|reflexivity]. cbn [option_map].
  eapply bind_map; [apply IH|]. intros r _. reflexivity.
Qed.
Lemma collect_mv : forall fuel input, (forall c, In c input -> lD (f c) = mvl (lC c)) -> ci_collect lD tie fuel (map f input) = rmap (map out1) (ci_collect lC tie fuel input).
Proof. intros fuel input H. unfold ci_collect. eapply bind_map; [apply from_iter_mv; auto|]. intros it _. apply drain_mv. Qed.

(** ** Intersections *)
Hypothesis Hl : forall c, lD (f c) = mvl (lC c).
Definition intm (s : @intersections C) : @intersections D := mkInts (swm (in_inner s)) (in_idx s) (in_jdx s) (in_ovl s) (option_map g (in_pt s)).
Definition pairm (x : C * C * line_intersection_result) : D * D * line_intersection_result := (f (fst (fst x)), f (snd (fst x)), mvi (snd x)).
Lemma index_mv : forall {X Y} (h : X -> Y) l i, index (map h l) i = rmap h (index l i).
Proof. intros. unfold index. rewrite nth_error_map. apply expect_map. Qed.
Lemma in_intersection_mv : forall s, in_intersection lD (intm s) = rmap (option_map pairm) (in_intersection lC s).
Proof.
  intros s. unfold in_intersection. cbn [intm in_inner in_idx in_jdx in_ovl]. change (ci_intersections (swm (in_inner s))) with (map crm (ci_intersections (in_inner s))).
  eapply bind_map; [apply index_mv|]. intros si _. eapply bind_map; [apply index_mv|]. intros sj _. cbn [crm cr_left cr_first cr_cross].
  apply bind_same. intros go _. destruct go; [|reflexivity]. rewrite !Hl, Gl. eapply bind_map; [apply expect_map|]. intros i _. reflexivity.
Qed.
Lemma in_advance_mv : forall fuel k sw, in_advance lD tie fuel k (swm sw) = rmap fp (in_advance lC tie fuel k sw).
Proof.
  induction fuel as [|fuel IH]; intros k sw; [reflexivity|]. cbn [in_advance]. eapply bind_map; [apply ci_next_mv|]. intros [it o] _. cbn [fp fst snd]. destruct o as [p|]; [|reflexivity]. cbn [option_map].
  change (ci_intersections (swm it)) with (map crm (ci_intersections it)). rewrite map_length. destruct (1 <? _); [reflexivity|apply IH].
Qed.
Lemma in_step_mv : forall fuel s, in_step lD tie fuel (intm s) = rmap (fs intm) (in_step lC tie fuel s).
Proof.
  intros fuel s. unfold in_step. cbn [intm in_inner in_idx in_jdx in_ovl]. change (ci_intersections (swm (in_inner s))) with (map crm (ci_intersections (in_inner s))). rewrite map_length. cbv zeta.
  destruct (1 + in_jdx s <? _).
  - eapply (bind_map (fun b : bool => b)); [|intros; reflexivity]. destruct (in_ovl s); [|reflexivity]. eapply bind_map; [apply index_mv|]. intros; reflexivity.
  - destruct (_ <=? _).
    + eapply bind_map; [apply in_advance_mv|]. intros [it o] _. cbn [fp fst snd]. destruct o as [p|]; [|reflexivity]. cbn [option_map]. change (ci_intersections (swm it)) with (map crm (ci_intersections it)). eapply bind_map; [apply index_mv|]. intros; reflexivity.
    + eapply bind_map; [apply index_mv|]. intros; reflexivity.
Qed.
Definition fi (x : @intersections C * option (C * C * line_intersection_result)) : @intersections D * option (D * D * line_intersection_result) := (intm (fst x), option_map pairm (snd x)).
Lemma in_next_mv : forall fuel s, in_next lD tie fuel (intm s) = rmap fi (in_next lC tie fuel s).
Proof.
  induction fuel as [|fuel IH]; intros s; [reflexivity|]. cbn [in_next]. eapply bind_map; [apply in_step_mv|]. intros [s1 go] _. cbn [fs fst snd]. destruct go; [|reflexivity].
  eapply bind_map; [apply in_intersection_mv|]. intros [r|] _; [reflexivity|apply IH].
Qed.
Lemma in_drain_mv : forall n fuel s, in_drain lD tie n fuel (intm s) = rmap (map pairm) (in_drain lC tie n fuel s).
Proof.
  induction n as [|n IH]; intros fuel s; [reflexivity|]. cbn [in_drain]. eapply bind_map; [apply in_next_mv|]. intros [s' o] _. cbn [fi fst snd]. destruct o as [r|]; [|reflexivity]. cbn [option_map].
  eapply bind_map; [apply IH|]. intros rest _. reflexivity.
Qed.
Lemma in_collect_mv : forall fuel input, in_collect lD tie fuel (map f input) = rmap (map pairm) (in_collect lC tie fuel input).
Proof.
  intros fuel input. unfold in_collect, in_from_iter. eapply (bind_map intm); [|intros s _; apply in_drain_mv]. eapply bind_map; [apply from_iter_mv; auto|]. intros it _. reflexivity.
Qed.
End Param.
End Move.
