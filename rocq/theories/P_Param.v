(** The sweep looks at an input only through its line: renaming the inputs
    renames the outputs. *)
Require Import List String Bool Arith Lia.
From Verif Require Import Base Scalar M_Events M_Geo M_LineOrPoint M_Splay M_Slab M_Active M_Sweep M_Crossings.
Import ListNotations.
Local Open Scope nat_scope.

Section Ext.
Context {K V : Type}.
Variables c1 c2 : K -> K -> res comparison.
Hypothesis Hc : forall a b, c1 a b = c2 a b.
Fixpoint tsz (t : @tree K V) : nat := match t with Leaf => 0 | Node l _ _ r => S (tsz l + tsz r) end.
Lemma splay_loop_ext : forall m key (t : @tree K V) lc rc, tsz t <= m -> splay_loop c1 key t lc rc = splay_loop c2 key t lc rc.
Proof.
  induction m as [|m IH]; intros key t lc rc L; destruct t as [|l k v r]; cbn [tsz] in L; try lia; try reflexivity.
  cbn [splay_loop]. rewrite Hc. destruct (c2 key k) as [[| |]| |]; cbn [bind]; auto.
  - destruct l as [|ll kl vl lr]; auto. rewrite Hc. destruct (c2 key kl) as [o2| |]; cbn [bind]; auto. cbn [tsz] in L.
    destruct (is_lt o2); [destruct ll as [|]; auto; apply IH; cbn [tsz] in *; lia|].
    specialize (IH key (Node ll kl vl lr) lc ((r, k, v) :: rc)). cbn [splay_loop] in IH. apply IH. cbn [tsz] in *. lia.
  - destruct r as [|rl kr vr rr]; auto. rewrite Hc. destruct (c2 key kr) as [o2| |]; cbn [bind]; auto. cbn [tsz] in L.
    destruct (is_gt o2); [destruct rr as [|]; auto; apply IH; cbn [tsz] in *; lia|].
    specialize (IH key (Node rl kr vr rr) ((l, k, v) :: lc) rc). cbn [splay_loop] in IH. apply IH. cbn [tsz] in *. lia.
Qed.
Lemma splay_ext : forall key (t : @tree K V), splay c1 key t = splay c2 key t.
Proof. intros. unfold splay. eapply splay_loop_ext. reflexivity. Qed.
Lemma next_loop_ext : forall key (t : @tree K V) s, next_loop c1 key t s = next_loop c2 key t s.
Proof. induction t as [|l IHl k v r IHr]; intros s; [reflexivity|]. cbn [next_loop]. rewrite Hc. destruct (c2 key k) as [[| |]| |]; cbn [bind]; auto. Qed.
Lemma prev_loop_ext : forall key (t : @tree K V) s, prev_loop c1 key t s = prev_loop c2 key t s.
Proof. induction t as [|l IHl k v r IHr]; intros s; [reflexivity|]. cbn [prev_loop]. rewrite Hc. destruct (c2 key k) as [[| |]| |]; cbn [bind]; auto. Qed.
Lemma st_next_ext : forall (s : @splay_tree K V) key, st_next c1 s key = st_next c2 s key.
Proof.
  intros. unfold st_next. destruct (root s); auto. rewrite splay_ext. destruct (splay c2 key _); cbn [bind]; auto. rewrite next_loop_ext. reflexivity.
Qed.
Lemma st_prev_ext : forall (s : @splay_tree K V) key, st_prev c1 s key = st_prev c2 s key.
Proof.
  intros. unfold st_prev. destruct (root s); auto. rewrite splay_ext. destruct (splay c2 key _); cbn [bind]; auto. rewrite prev_loop_ext. reflexivity.
Qed.
Lemma st_insert_ext : forall (s : @splay_tree K V) key v, st_insert c1 s key v = st_insert c2 s key v.
Proof.
  intros. unfold st_insert. destruct (root s); auto. rewrite splay_ext. destruct (splay c2 key _) as [[|]| |]; cbn [bind]; auto. rewrite Hc. reflexivity.
Qed.
Lemma st_remove_ext : forall (s : @splay_tree K V) key, st_remove c1 s key = st_remove c2 s key.
Proof.
  intros. unfold st_remove. destruct (root s); auto. rewrite splay_ext. destruct (splay c2 key _) as [[|l k v r]| |]; cbn [bind]; auto. rewrite Hc.
  destruct (c2 key k) as [o| |]; cbn [bind]; auto. destruct (is_eq o); auto. destruct l; auto. rewrite splay_ext. reflexivity.
Qed.
End Ext.

Definition rmap {A B} (g : A -> B) (m : res A) : res B := match m with Ok a => Ok (g a) | Panic s => Panic s | NoFuel => NoFuel end.
Lemma bind_map : forall {A A' B B'} (g : A -> A') (h : B -> B') (m : res A) (m' : res A') k k',
  m' = rmap g m -> (forall x, m = Ok x -> k' (g x) = rmap h (k x)) -> bind m' k' = rmap h (bind m k).
Proof. intros A A' B B' g h m m' k k' -> E. destruct m; cbn [rmap bind]; auto. Qed.
Lemma bind_same : forall {A B B'} (h : B -> B') (m : res A) k k',
  (forall x, m = Ok x -> k' x = rmap h (k x)) -> bind m k' = rmap h (bind m k).
Proof. intros A B B' h m k k' E. destruct m; cbn [rmap bind]; auto. Qed.
Lemma expect_map : forall {A B} (g : A -> B) o s, expect (option_map g o) s = rmap g (expect o s).
Proof. intros A B g [a|] s; reflexivity. Qed.

Section Slab.
Context {A B : Type} (g : A -> B).
Definition ent_map (x : entry A) : entry B := match x with Vacant k => Vacant k | Occupied a => Occupied (g a) end.
Definition slab_map (s : slab A) : slab B := mkSlab (map ent_map (s_entries s)) (s_next s).
Lemma list_set_map : forall {X Y} (h : X -> Y) n x l, list_set n (h x) (map h l) = map h (list_set n x l).
Proof. intros X Y h n. induction n as [|n IH]; intros x [|y l]; cbn [list_set map]; f_equal; auto. Qed.
Lemma slab_get_map : forall s k, slab_get (slab_map s) k = option_map g (slab_get s k).
Proof. intros s k. unfold slab_get, slab_map. cbn [s_entries]. rewrite nth_error_map. destruct (nth_error (s_entries s) k) as [[|]|]; reflexivity. Qed.
Lemma slab_contains_map : forall s k, slab_contains (slab_map s) k = slab_contains s k.
Proof. intros s k. unfold slab_contains. rewrite slab_get_map. destruct (slab_get s k); reflexivity. Qed.
Lemma slab_getu_map : forall s k, slab_get_unchecked (slab_map s) k = rmap g (slab_get_unchecked s k).
Proof. intros s k. unfold slab_get_unchecked. rewrite slab_get_map. apply expect_map. Qed.
Lemma slab_set_map : forall s k a, slab_set (slab_map s) k (g a) = rmap slab_map (slab_set s k a).
Proof.
  intros s k a. unfold slab_set. rewrite slab_get_map. destruct (slab_get s k); cbn [option_map rmap]; [|reflexivity].
  unfold slab_map. cbn [s_entries s_next]. rewrite <- (list_set_map ent_map). reflexivity.
Qed.
Lemma slab_insert_map : forall s a, slab_insert (slab_map s) (g a) = rmap slab_map (slab_insert s a).
Proof.
  intros s a. unfold slab_insert. cbn [slab_map s_entries s_next]. rewrite map_length, nth_error_map.
  destruct (s_next s =? List.length (s_entries s)); cbn [rmap]; [unfold slab_map; cbn [s_entries s_next]; rewrite map_app; reflexivity|].
  destruct (nth_error (s_entries s) (s_next s)) as [[m|]|]; cbn [option_map ent_map rmap]; auto.
  unfold slab_map. cbn [s_entries s_next]. rewrite <- (list_set_map ent_map). reflexivity.
Qed.
Lemma slab_remove_map : forall s k, slab_remove (slab_map s) k = rmap (fun x => (slab_map (fst x), g (snd x))) (slab_remove s k).
Proof.
  intros s k. unfold slab_remove. cbn [slab_map s_entries s_next]. rewrite nth_error_map.
  destruct (nth_error (s_entries s) k) as [[m|a]|]; cbn [option_map ent_map rmap]; auto.
  unfold slab_map. cbn [s_entries s_next fst snd]. rewrite <- (list_set_map ent_map). reflexivity.
Qed.
Variables (cA : A -> A -> option comparison) (cB : B -> B -> option comparison).
Hypothesis Hcmp : forall x y, cB (g x) (g y) = cA x y.
Lemma active_cmp_map : forall st a b, active_cmp cB (slab_map st) a b = active_cmp cA st a b.
Proof.
  intros st a b. unfold active_cmp. rewrite !slab_getu_map. destruct (slab_get_unchecked st a); cbn [rmap bind]; auto.
  destruct (slab_get_unchecked st b); cbn [rmap bind]; auto. rewrite Hcmp. reflexivity.
Qed.
Lemma prev_key_map : forall t k st, prev_key cB t k (slab_map st) = prev_key cA t k st.
Proof. intros. unfold prev_key, ss_prev. rewrite (st_prev_ext _ _ (active_cmp_map st)). reflexivity. Qed.
Lemma next_key_map : forall t k st, next_key cB t k (slab_map st) = next_key cA t k st.
Proof. intros. unfold next_key, ss_next. rewrite (st_next_ext _ _ (active_cmp_map st)). reflexivity. Qed.
Lemma add_key_map : forall t k st, add_key cB t k (slab_map st) = add_key cA t k st.
Proof. intros. unfold add_key, ss_insert. rewrite slab_contains_map, (st_insert_ext _ _ (active_cmp_map st)). reflexivity. Qed.
Lemma remove_key_map : forall t k st, remove_key cB t k (slab_map st) = remove_key cA t k st.
Proof. intros. unfold remove_key, ss_remove. rewrite slab_contains_map, (st_remove_ext _ _ (active_cmp_map st)). reflexivity. Qed.
End Slab.

Section Param.
Context {ar : arith} {C D : Type} (f : C -> D) (lC : C -> line) (lD : D -> line) (tie : nat -> nat).
Hypothesis Hl : forall c, lD (f c) = lC c.
Definition seg_map (s : segment C) : segment D :=
  mkSeg (sg_geom s) (sg_key s) (f (sg_cross s)) (sg_first s) (sg_done s) (sg_ovl s) (sg_is_ovl s).
Definition cr_map (x : crossing C) : crossing D :=
  mkCrossing (f (cr_cross x)) (cr_line x) (cr_first x) (cr_overlap x) (cr_left x) (cr_key x).
Definition sw_map (s : sweep C) : sweep D :=
  mkSweep (slab_map seg_map (sw_segs s)) (sw_events s) (sw_active s) (map cr_map (sw_out s)) (sw_clock s).
Notation sm := (slab_map seg_map).
Lemma seg_cmp_map : forall x y, seg_partial_cmp (seg_map x) (seg_map y) = seg_partial_cmp x y.
Proof. reflexivity. Qed.
Definition fs {X Y Z} (g : X -> Y) (x : X * Z) : Y * Z := (g (fst x), snd x).

Lemma upd_seg_map : forall sl k h h', (forall s, h' (seg_map s) = seg_map (h s)) -> upd_seg (sm sl) k h' = rmap sm (upd_seg sl k h).
Proof.
  intros sl k h h' E. unfold upd_seg. eapply bind_map; [apply slab_getu_map|]. intros s _. rewrite E. apply slab_set_map.
Qed.
Lemma segment_new_map : forall sl c g,
  segment_new lD (sm sl) (f c) g = rmap (fun x => (sm (fst x), seg_map (snd x))) (segment_new lC sl c g).
Proof.
  intros sl c g. unfold segment_new. rewrite Hl. eapply (bind_map sm); [|intros; reflexivity].
  exact (slab_insert_map seg_map sl (mkSeg (match g with None => lop_of_line (lC c) | Some g => g end) (slab_vacant_key sl) c
    (match g with None => true | Some _ => false end) false None false)).
Qed.
Lemma copy_chain_map : forall fuel sl ch t g, copy_chain lD fuel (sm sl) ch t g = rmap sm (copy_chain lC fuel sl ch t g).
Proof.
  induction fuel as [|fuel IH]; intros sl [ck|] t g; try reflexivity. cbn [copy_chain].
  eapply bind_map; [apply slab_getu_map|]. intros c _. eapply bind_map; [apply segment_new_map|]. intros [sl1 n] _. cbn [fst snd].
  eapply bind_map; [apply (upd_seg_map sl1 t (with_ovl (Some (sg_key n)))); reflexivity|]. intros sl2 _.
  eapply bind_map; [apply (upd_seg_map sl2 (sg_key n) (with_is_ovl true)); reflexivity|]. intros sl3 _. apply IH.
Qed.
Lemma chain_fuel_map : forall sl, chain_fuel (sm sl) = chain_fuel sl.
Proof. intros. unfold chain_fuel. cbn [slab_map s_entries]. rewrite map_length. reflexivity. Qed.
Lemma create_map : forall sw c g p, create_segment lD (sw_map sw) (f c) g p = rmap (fs sw_map) (create_segment lC sw c g p).
Proof.
  intros sw c g p. unfold create_segment. eapply bind_map; [apply segment_new_map|]. intros [sl s] _. cbn [fst snd].
  destruct p as [pk|]; [|reflexivity]. eapply bind_map; [apply slab_getu_map|]. intros q _.
  rewrite chain_fuel_map. eapply bind_map; [apply copy_chain_map|]. intros; reflexivity.
Qed.
Lemma set_chain_map : forall fuel sl ch g, set_chain_geom fuel (sm sl) ch g = rmap sm (set_chain_geom fuel sl ch g).
Proof.
  induction fuel as [|fuel IH]; intros sl [ck|] g; try reflexivity. cbn [set_chain_geom].
  eapply bind_map; [apply slab_getu_map|]. intros c _. eapply bind_map; [apply (slab_set_map seg_map sl ck (with_geom g c))|]. intros sl1 _. apply IH.
Qed.
Lemma seg_adjust_map : forall s i, seg_adjust (seg_map s) i = rmap (fs seg_map) (seg_adjust s i).
Proof.
  intros s i. unfold seg_adjust. cbn [seg_map sg_geom]. destruct (sg_geom s) as [p|p q]; [reflexivity|]. destruct i as [r|r1 r2].
  - apply bind_same. intros _ _. destruct (peqb p r || peqb q r); reflexivity.
  - apply bind_same. intros _ _. destruct (peqb p r1); destruct (peqb r2 q); reflexivity.
Qed.
Lemma afi_map : forall sw k i, adjust_for_intersection (sw_map sw) k i = rmap (fs sw_map) (adjust_for_intersection sw k i).
Proof.
  intros sw k i. unfold adjust_for_intersection. eapply bind_map; [apply slab_getu_map|]. intros s _.
  eapply bind_map; [apply seg_adjust_map|]. intros [s' out] _. cbn [fs fst snd].
  eapply bind_map; [apply (slab_set_map seg_map)|]. intros sl _. rewrite chain_fuel_map.
  eapply bind_map; [apply set_chain_map|]. intros sl' _. destruct out; reflexivity.
Qed.
Lemma aos_map : forall sw k i, adjust_one_segment lD (sw_map sw) k i = rmap (fs sw_map) (adjust_one_segment lC sw k i).
Proof.
  intros sw k i. unfold adjust_one_segment. eapply bind_map; [apply slab_getu_map|]. intros s _.
  eapply bind_map; [apply afi_map|]. intros [sw1 out] _. cbn [fs fst snd]. destruct out as [o|o rt|rt].
  - reflexivity.
  - eapply bind_map; [apply create_map|]. intros [sw2 nk] _. reflexivity.
  - eapply bind_map; [apply create_map|]. intros [sw2 nk] _. cbn [fs fst snd]. eapply bind_map; [apply create_map|]. intros [sw3 mk] _. reflexivity.
Qed.
Lemma sfe_map : forall sl ev, segment_for_event (sm sl) ev = rmap (option_map seg_map) (segment_for_event sl ev).
Proof.
  intros sl ev. unfold segment_for_event. rewrite slab_get_map. destruct (ev_ty ev).
  - eapply bind_map; [apply expect_map|]. intros s _. cbn [seg_map sg_geom]. destruct (sg_geom s); [|reflexivity]. apply bind_same. reflexivity.
  - destruct (slab_get sl (ev_key ev)) as [s|]; [|reflexivity]. cbn [option_map seg_map sg_is_ovl sg_geom rmap].
    destruct (sg_is_ovl s); [reflexivity|]. destruct (sg_geom s) as [|p q]; [reflexivity|]. destruct (peqb q (ev_point ev)); reflexivity.
  - eapply bind_map; [apply expect_map|]. intros s _. cbn [seg_map sg_geom]. destruct (sg_geom s); [reflexivity|]. apply bind_same. reflexivity.
  - eapply bind_map; [apply expect_map|]. intros s _. cbn [seg_map sg_geom]. destruct (sg_geom s); [|reflexivity]. apply bind_same. reflexivity.
Qed.
Lemma chain_last_map : forall fuel sl k, chain_last fuel (sm sl) k = chain_last fuel sl k.
Proof.
  induction fuel as [|fuel IH]; intros sl k; [reflexivity|]. cbn [chain_last]. rewrite slab_getu_map. destruct (slab_get_unchecked sl k) as [s| |]; cbn [rmap bind]; auto.
  cbn [seg_map sg_ovl]. destruct (sg_ovl s); auto.
Qed.
Lemma chain_overlap_map : forall sw a b, chain_overlap (sw_map sw) a b = rmap sw_map (chain_overlap sw a b).
Proof.
  intros sw a b. unfold chain_overlap. cbn [sw_map sw_segs]. rewrite chain_fuel_map, chain_last_map. apply bind_same. intros last _.
  eapply bind_map; [apply (upd_seg_map (sw_segs sw) last (with_ovl (Some b))); reflexivity|]. intros sl1 _.
  eapply bind_map; [apply (upd_seg_map sl1 b (with_is_ovl true)); reflexivity|]. intros; reflexivity.
Qed.
Lemma cb_map : forall s ty sw, cb (seg_map s) ty (sw_map sw) = sw_map (cb s ty sw).
Proof. intros. unfold cb, sw_map, set_out. cbn [sw_segs sw_events sw_active sw_out sw_clock]. rewrite map_app. reflexivity. Qed.
Lemma report_left_map : forall fuel sw k ty, report_left fuel (sw_map sw) k ty = rmap sw_map (report_left fuel sw k ty).
Proof.
  induction fuel as [|fuel IH]; intros sw [k|] ty; try reflexivity. cbn [report_left].
  eapply bind_map; [apply slab_getu_map|]. intros s _. rewrite cb_map.
  eapply bind_map; [apply (upd_seg_map (sw_segs (cb s ty sw)) k (with_done true)); reflexivity|]. intros sl _.
  apply (IH (set_segs sl (cb s ty sw))).
Qed.
Lemma report_right_map : forall fuel sw k ty, report_right fuel (sw_map sw) k ty = rmap sw_map (report_right fuel sw k ty).
Proof.
  induction fuel as [|fuel IH]; intros sw [k|] ty; try reflexivity. cbn [report_right].
  eapply bind_map; [apply slab_getu_map|]. intros s _. rewrite cb_map.
  eapply bind_map; [apply slab_remove_map|]. intros [sl x] _. apply (IH (set_segs sl (cb s ty sw))).
Qed.
Lemma pop_map : forall sw, pop tie (sw_map sw) = option_map (fun x => (fst x, sw_map (snd x))) (pop tie sw).
Proof. intros sw. unfold pop. cbn [sw_map sw_clock sw_events]. destruct (heap_pop _ _) as [[ev h]|]; reflexivity. Qed.

Definition s3 (x : sweep C * segment C * flow) : sweep D * segment D * flow := (sw_map (fst (fst x)), seg_map (snd (fst x)), snd x).
Lemma ll_round_map : forall hC hD ev sw s k, (forall sw ev, hD (sw_map sw) ev = rmap (fs sw_map) (hC sw ev)) ->
  ll_round lD tie hD ev (sw_map sw) (seg_map s) k = rmap s3 (ll_round lC tie hC ev sw s k).
Proof.
  intros hC hD ev sw s k Hh. unfold ll_round. cbn [sw_map sw_segs]. rewrite slab_get_map. eapply bind_map; [apply expect_map|]. intros adj _.
  cbn [seg_map sg_geom]. apply bind_same. intros [i|] _; [|reflexivity].
  change (mkSweep (sm (sw_segs sw)) (sw_events sw) (sw_active sw) (map cr_map (sw_out sw)) (sw_clock sw)) with (sw_map sw).
  eapply bind_map; [apply aos_map|]. intros [sw1 ao] _. cbn [fs fst snd]. eapply bind_map; [apply slab_getu_map|]. intros adj' _. cbn [seg_map sg_geom].
  eapply (bind_map sw_map).
  { destruct (negb _ && _); [|reflexivity]. rewrite pop_map. eapply bind_map; [apply expect_map|]. intros [e1 sw1'] _. cbn [fst snd].
    eapply bind_map; [apply Hh|]. intros [sw1'' d] _. cbn [fs fst snd]. apply bind_same. reflexivity. }
  intros sw2 _. eapply bind_map; [apply aos_map|]. intros [sw3 so] _. cbn [fs fst snd]. eapply bind_map; [apply slab_getu_map|]. intros sgm' _.
  apply bind_same. intros _ _. destruct ao as [ak|]; [|reflexivity]. apply bind_same. intros tgt _.
  eapply bind_map; [apply chain_overlap_map|]. intros sw4 _. destruct (tgt =? ev_key ev); [|reflexivity].
  eapply bind_map; [apply slab_getu_map|]. intros a _. reflexivity.
Qed.
Lemma ll_loop_map : forall hC hD ev ks sw s, (forall sw ev, hD (sw_map sw) ev = rmap (fs sw_map) (hC sw ev)) ->
  ll_loop lD tie hD ev (sw_map sw) (seg_map s) ks = rmap (fs sw_map) (ll_loop lC tie hC ev sw s ks).
Proof.
  intros hC hD ev ks. induction ks as [|k ks IH]; intros sw s Hh; [reflexivity|]. cbn [ll_loop].
  eapply bind_map; [apply ll_round_map; exact Hh|]. intros [[sw' s'] fl] _. cbn [s3 fst snd]. destruct fl; try reflexivity. apply IH. exact Hh.
Qed.
Lemma pl_round_map : forall s sw k, pl_round lD (seg_map s) (sw_map sw) k = rmap sw_map (pl_round lC s sw k).
Proof.
  intros s sw k. unfold pl_round. cbn [sw_map sw_segs]. rewrite slab_get_map. eapply bind_map; [apply expect_map|]. intros adj _.
  cbn [seg_map sg_geom]. apply bind_same. intros [i|] _; [|reflexivity].
  change (mkSweep (sm (sw_segs sw)) (sw_events sw) (sw_active sw) (map cr_map (sw_out sw)) (sw_clock sw)) with (sw_map sw).
  eapply bind_map; [apply aos_map|]. intros [sw1 ao] _. cbn [fs fst snd]. apply bind_same. reflexivity.
Qed.
Lemma fold_pl_map : forall s ks sw, fold_res (pl_round lD (seg_map s)) (sw_map sw) ks = rmap sw_map (fold_res (pl_round lC s) sw ks).
Proof.
  intros s ks. induction ks as [|k ks IH]; intros sw; [reflexivity|]. cbn [fold_res]. eapply bind_map; [apply pl_round_map|]. intros; apply IH.
Qed.
Lemma set_active_map : forall t sw, set_active t (sw_map sw) = sw_map (set_active t sw).
Proof. reflexivity. Qed.
Lemma handle_map : forall fuel sw ev, handle_event lD tie fuel (sw_map sw) ev = rmap (fs sw_map) (handle_event lC tie fuel sw ev).
Proof.
  induction fuel as [|fuel IH]; intros sw ev; [reflexivity|]. cbn [handle_event].
  eapply bind_map; [apply sfe_map|]. intros [s|] _; cbn [option_map]; [|reflexivity].
  change (sg_key (seg_map s)) with (sg_key s). change (sw_segs (sw_map sw)) with (sm (sw_segs sw)). change (sw_active (sw_map sw)) with (sw_active sw).
  rewrite (prev_key_map seg_map seg_partial_cmp seg_partial_cmp seg_cmp_map). apply bind_same. intros [t1 pv] _.
  rewrite (next_key_map seg_map seg_partial_cmp seg_partial_cmp seg_cmp_map). apply bind_same. intros [t2 nx] _.
  rewrite set_active_map. destruct (ev_ty ev).
  - eapply bind_map; [apply fold_pl_map|]. intros sw1 _. rewrite cb_map. reflexivity.
  - change (sw_segs (sw_map (set_active t2 sw))) with (sm (sw_segs (set_active t2 sw))).
    change (sw_active (sw_map (set_active t2 sw))) with (sw_active (set_active t2 sw)).
    rewrite (remove_key_map seg_map seg_partial_cmp seg_partial_cmp seg_cmp_map). apply bind_same. intros t _.
    rewrite set_active_map, chain_fuel_map.
    eapply bind_map; [apply report_right_map|]. intros sw1 _. destruct pv as [pk|]; [|reflexivity]. destruct nx as [nk|]; [|reflexivity].
    eapply bind_map; [apply slab_getu_map|]. intros ps _. eapply bind_map; [apply slab_getu_map|]. intros ns _. cbn [seg_map sg_geom].
    apply bind_same. intros [i|] _; [|reflexivity]. eapply bind_map; [apply aos_map|]. intros [sw2 a] _. cbn [fs fst snd].
    eapply bind_map; [apply aos_map|]. intros [sw3 b] _. cbn [fs fst snd]. apply bind_same. reflexivity.
  - eapply bind_map; [apply ll_loop_map; exact IH|]. intros [sw1 fl] _. cbn [fs fst snd]. destruct fl; try reflexivity.
    + eapply (bind_map sw_map).
      { change (sw_segs (sw_map sw1)) with (sm (sw_segs sw1)). change (sw_active (sw_map sw1)) with (sw_active sw1). rewrite (add_key_map seg_map seg_partial_cmp seg_partial_cmp seg_cmp_map). apply bind_same. reflexivity. }
      intros sw2 _. change (sw_segs (sw_map sw2)) with (sm (sw_segs sw2)). rewrite chain_fuel_map. eapply bind_map; [apply report_left_map|]. reflexivity.
    + cbn [bind]. change (sw_segs (sw_map sw1)) with (sm (sw_segs sw1)). rewrite chain_fuel_map. eapply bind_map; [apply report_left_map|]. reflexivity.
  - reflexivity.
Qed.
Lemma next_event_map : forall sw, next_event lD tie (sw_map sw) = rmap (fs sw_map) (next_event lC tie sw).
Proof.
  intros sw. unfold next_event. rewrite pop_map. destruct (pop tie sw) as [[ev sw1]|]; [|reflexivity]. cbn [option_map fst snd].
  eapply bind_map; [apply handle_map|]. intros [sw2 b] _. reflexivity.
Qed.
Lemma peek_map : forall sw, peek_point (sw_map sw) = peek_point sw.
Proof. reflexivity. Qed.
Lemma ci_loop_map : forall fuel sw l, ci_loop lD tie fuel (sw_map sw) l = rmap (fs sw_map) (ci_loop lC tie fuel sw l).
Proof.
  induction fuel as [|fuel IH]; intros sw l; cbn [ci_loop]; rewrite peek_map; destruct (opt_peqb l (peek_point sw) && _); try reflexivity.
  eapply bind_map; [apply next_event_map|]. intros [sw' l'] _. apply IH.
Qed.
Lemma ci_next_map : forall fuel sw, ci_next lD tie fuel (sw_map sw) = rmap (fs sw_map) (ci_next lC tie fuel sw).
Proof.
  intros fuel sw. unfold ci_next. change (set_out [] (sw_map sw)) with (sw_map (set_out [] sw)). rewrite peek_map.
  eapply bind_map; [apply ci_loop_map|]. intros [it1 last] _. cbn [fs fst snd sw_map sw_out]. destruct (sw_out it1); reflexivity.
Qed.
Lemma from_iter_map : forall input, ci_from_iter lD (map f input) = rmap sw_map (ci_from_iter lC input).
Proof.
  intros input. unfold ci_from_iter, sweep_new. 
  change (@mkSweep D slab_new [] active_new [] 0) with (sw_map (@mkSweep C slab_new [] active_new [] 0)).
  generalize (@mkSweep C slab_new [] active_new [] 0). induction input as [|c input IH]; intros sw; [reflexivity|]. cbn [map fold_res].
  eapply bind_map; [|intros x _; apply IH]. eapply bind_map; [apply create_map|]. intros [sw' k] _. reflexivity.
Qed.
End Param.
