(** The monotone decomposition makes no new points: an invariant of the sweep and of the
    chains, for arbitrary polygons. *)
Require Import List String Bool Arith Lia Permutation.
From Verif Require Import Base Scalar M_Events M_Geo M_LineOrPoint M_Slab M_Active M_MonoPoly M_Rings M_Op M_MonoSweep M_Chains.
From Verif Require Import S_Geo P_Geo P_Slab P_OpStep P_MonoSweep P_MonoCount P_EdgeSweep P_EdgeChains S_Mono P_Mono Props_Mono.
Import Datatypes.
Import ListNotations.
Local Open Scope nat_scope.

Section Points.
Variable V : pt -> Prop.

Definition vseg (g : segment) : Prop :=
  (is_line (m_geom g) = true -> V (l_start (lop_line (m_geom g))) /\ V (l_end (lop_line (m_geom g)))) /\ (forall h, m_helper g = Some h -> V (h_point h)).
Definition vst (st : slab segment) : Prop := forall k g, slab_get st k = Some g -> vseg g.
Definition vsw (s : msweep) : Prop := vst (ms_segments s) /\ forall e, In e (ms_events s) -> V (ev_point e).
Definition vlink (l : mlink) : Prop :=
  match l with
  | LStart a b c => V a /\ V b /\ V c
  | LContinue a b c _ => V a /\ V b /\ V c
  | LMerge a b o => V a /\ V b /\ match o with Some (c, d) => V c /\ V d | None => True end
  | LSplit a b c d => V a /\ V b /\ V c /\ V d
  | LEnd a b c => V a /\ V b /\ V c
  end.

Lemma vst_set : forall st k g st', vst st -> vseg g -> slab_set st k g = Ok st' -> vst st'.
Proof. intros st k g st' S G E x g' X. rewrite (slab_set_inv _ _ _ _ E) in X. destruct (x =? k); [injection X as <-; auto|exact (S _ _ X)]. Qed.
Lemma set_nth : forall {X} l i (a : X) j x, nth_error (list_set i a l) j = Some x -> x = a \/ nth_error l j = Some x.
Proof.
  induction l as [|y l IH]; intros i a j x E; [destruct i, j; discriminate|]. destruct i as [|i], j as [|j]; cbn in *; auto; [left; congruence|]. exact (IH _ _ _ _ E).
Qed.
Lemma vst_insert : forall st g st', vst st -> vseg g -> slab_insert st g = Ok st' -> vst st'.
Proof.
  intros st g st' S G E x g' X. unfold slab_insert in E. destruct (s_next st =? length (s_entries st)).
  - injection E as <-. unfold slab_get in X. cbn [s_entries] in X. destruct (Nat.lt_ge_cases x (length (s_entries st))) as [L|L].
    + rewrite nth_error_app1 in X by auto. exact (S x g' X).
    + rewrite nth_error_app2 in X by auto. destruct (x - length (s_entries st)) as [|[|]]; cbn in X; try discriminate. injection X as <-. auto.
  - destruct (nth_error (s_entries st) (s_next st)) as [[nx|b]|]; try discriminate. injection E as <-. unfold slab_get in X. cbn [s_entries] in X.
    destruct (nth_error (list_set (s_next st) (Occupied g) (s_entries st)) x) as [[nx'|b]|] eqn:Q; try discriminate. injection X as ->. apply set_nth in Q as [Q|Q]; [injection Q as ->; auto|]. apply (S x g'). unfold slab_get. rewrite Q. reflexivity.
Qed.
Lemma at_in : forall st k g, vst st -> seg_at st k = Ok g -> vseg g.
Proof. intros st k g S E. apply expect_inv in E. exact (S _ _ E). Qed.

(** ** The construction *)
Lemma vsw_line : forall w s l s', vsw s -> V (l_start l) -> V (l_end l) -> add_ring_line w s l = Ok s' -> vsw s'.
Proof.
  intros w s l s' [S Ev] V1 V2 E. unfold add_ring_line in E. destruct (peqb (l_start l) (l_end l)); [injection E as <-; split; auto|].
  bnd E. bnd E. bnd E. injection E as <-. unfold segment_new in E0. chk E0.
  assert (G : exists a b, V a /\ V b /\ m_geom x = Line a b /\ forall h, m_helper x = Some h -> h_point h = a).
  { destruct (pltb (l_end l) (l_start l)); injection E0 as <-; eexists; eexists; cbn [m_geom m_helper]; (split; [|split; [|split; [reflexivity|]]]); auto; intros h; [destruct w|destruct w]; cbn; intros Q; try discriminate; injection Q as <-; reflexivity. }
  destruct G as (a & b & Va & Vb & G & H). unfold segment_events in E2. chk E2. injection E2 as <-. rewrite G. cbn [lop_line l_start l_end rev app].
  split; cbn [ms_segments ms_events].
  - apply (vst_insert _ x _ S); auto. split; [rewrite G; auto|]. intros h Q. rewrite (H h Q). auto.
  - intros e [<-|[<-|I]]; cbn [ev_point]; auto.
Qed.
Lemma lines_in : forall ring l, In l (ls_lines ring) -> In (l_start l) ring /\ In (l_end l) ring.
Proof.
  induction ring as [|a [|b ring] IH]; intros l I; try (destruct I; fail). destruct I as [<-|I]; [cbn; auto|]. destruct (IH l I). split; right; auto.
Qed.
Lemma vsw_ring : forall ring hole s s', vsw s -> (forall v, In v ring -> V v) -> ms_add_closed_ring ring hole s = Ok s' -> vsw s'.
Proof.
  intros ring hole s s' S R E. unfold ms_add_closed_ring in E. chk E. chk E. bnd E. clear E0 E1 E2.
  assert (L : forall l, In l (ls_lines ring) -> V (l_start l) /\ V (l_end l)) by (intros l I; destruct (lines_in _ _ I); auto).
  revert s S E L. induction (ls_lines ring) as [|l ls IH]; intros s S E L; [injection E as <-; auto|]. cbn [fold_res] in E. bnd E.
  apply (IH x0); auto; [|intros; apply L; right; auto]. destruct (L l (or_introl eq_refl)). apply (vsw_line _ _ _ _ S) with (3 := E0); auto.
Qed.
Lemma in_insert : forall e l x, In x (insert_event e l) -> x = e \/ In x l.
Proof.
  induction l as [|y l IH]; intros x I; [destruct I as [<-|[]]; auto|]. cbn [insert_event] in I. destruct (ev_cmp e y); destruct I as [<-|I]; auto; try (right; left; auto; fail).
  destruct (IH x I); auto. right. right. auto.
Qed.
Lemma in_sorted : forall l x, In x (sort_events l) -> In x l.
Proof. induction l as [|y l IH]; intros x I; [destruct I|]. apply in_insert in I as [->|I]; [left; auto|right; auto]. Qed.
Lemma vsw_from : forall presort P s, (forall l, Permutation (presort l) l) -> (forall r v, In r (pg_exterior P :: pg_interiors P) -> In v r -> V v) -> from_polygon presort P = Ok s -> vsw s.
Proof.
  intros presort P s Ps R E. unfold from_polygon in E. chk E. bnd E. bnd E. bnd E. injection E as <-. 
  assert (S0 : vsw (mkMsweep x (slab_vacant_key (@slab_new segment)) [] [])).
  { split; [|intros e []]. apply (vst_insert slab_new _ _) with (3 := E1); [intros k g Q; rewrite slab_get_new in Q; discriminate|]. split; [discriminate|intros h; discriminate]. }
  apply vsw_ring in E2; auto; [|intros v I; apply (R (pg_exterior P)); auto; left; auto]. clear S0 E1.
  assert (S2 : vsw x1).
  { assert (R' : forall r, In r (pg_interiors P) -> forall v, In v r -> V v) by (intros r I v; apply R; right; auto). clear R. revert x0 E2 E3 R'. induction (pg_interiors P) as [|h hs IH]; intros y S E3 R'; [injection E3 as <-; auto|].
    cbn [fold_res] in E3. bnd E3. apply IH with (x0 := x0); auto; [|intros r I; apply R'; right; auto]. apply vsw_ring in E; auto. apply R'. left. auto. }
  destruct S2 as [S Ev]. split; auto. cbn [ms_events]. intros e I. apply in_sorted in I. apply Ev. apply (Permutation_in _ (Ps _) I).
Qed.

(** ** One event of the sweep *)
Lemma vother : forall e g p, vseg g -> other_end e g = Ok p -> V p.
Proof. intros e g p [G _] E. unfold other_end in E. chk E. destruct (G E0), (ev_ty e); try discriminate; injection E as <-; auto. Qed.
Lemma vfind : forall s p s' ix, vsw s -> find_intersection_type s p = Ok (s', ix) -> vsw s' /\ V (ix_other1 ix) /\ V (ix_other2 ix) /\ ms_segments s' = ms_segments s.
Proof.
  intros s p s' ix [S Ev] E. unfold find_intersection_type in E. chk E. destruct (ms_events s) as [|e1 [|e2 evs]]; try discriminate.
  bnd E. bnd E. bnd E. bnd E. chk E. bnd E. injection E as <- <-. cbn [ix_other1 ix_other2]. split; [split; auto; cbn [ms_events]; intros e I; apply Ev; right; right; auto|].
  split; [apply (vother _ _ _ (at_in _ _ _ S E1) E3)|]. split; auto. apply (vother _ _ _ (at_in _ _ _ S E2) E4).
Qed.
Definition vpair (a : msweep * list mlink) : Prop := vsw (fst a) /\ Forall vlink (snd a).
Lemma vremove : forall pick p e a a', V p -> vpair a -> handle_remove pick p e a = Ok a' -> vpair a'.
Proof.
  intros pick p e [s links] a' Vp [[S Ev] L] E. cbn [fst snd] in *. unfold handle_remove in E. destruct (ev_ty e); try (injection E as <-; exact (conj (conj S Ev) L); fail).
  bnd E. pose proof (at_in _ _ _ S E0) as G. bnd E. destruct x0 as [s1 links1]. assert (K : vpair (s1, links1)).
  { destruct (m_helper x) as [h|] eqn:Q; [|injection E1 as <- <-; exact (conj (conj S Ev) L)]. destruct (h_merge h); [|injection E1 as <- <-; exact (conj (conj S Ev) L)].
    bnd E1. injection E1 as <- <-. pose proof (proj2 G h Q) as Vh. split; [split; [|exact Ev]|].
    - cbn [fst set_segments ms_segments]. apply (vst_set _ _ _ _ S) with (2 := E2). split; [exact (proj1 G)|]. cbn. intros h' Q'. injection Q' as <-. auto.
    - cbn [snd]. apply Forall_app. split; auto. constructor; [cbn; auto|constructor]. }
  chk E. bnd E. injection E as <-. destruct K as [[K1 K2] K3]. exact (conj (conj K1 K2) K3).
Qed.
Lemma vfix : forall pick p ix f m a a', V p -> V (ix_other1 ix) -> V (ix_other2 ix) -> vpair a -> fix_up pick p ix f m a = Ok a' -> vpair a'.
Proof.
  intros pick p ix f m [s links] a' Vp V1 V2 [[S Ev] L] E. cbn [fst snd] in *. unfold fix_up in E. bnd E. bnd E. bnd E. bnd E. pose proof (at_in _ _ _ S E2) as G. apply expect_inv in E3. pose proof (proj2 G _ E3) as Vh.
  destruct (match ix_interior ix with Cw => (ix_other2 ix, ix_other1 ix) | Ccw => (ix_other1 ix, ix_other2 ix) end) as [t b] eqn:TB.
  assert (Vt : V t /\ V b) by (destruct (ix_interior ix); injection TB as <- <-; auto). destruct Vt as [Vt Vb]. bnd E. injection E as <-. split; [split; [|exact Ev]|].
  - cbn [fst set_segments ms_segments]. apply (vst_set _ _ _ _ S) with (2 := E4). split; [exact (proj1 G)|]. cbn. intros h' Q'. injection Q' as <-. auto.
  - cbn [snd]. destruct (h_merge x2 || f); auto. apply Forall_app. split; auto. constructor; [|constructor]. destruct (h_merge x2); cbn; auto.
Qed.
Lemma vvertex : forall pick p ix w a a', V p -> V (ix_other1 ix) -> V (ix_other2 ix) -> vpair a -> vertex_links pick p ix w a = Ok a' -> vpair a'.
Proof.
  intros pick p ix w a a' Vp V1 V2 A E. unfold vertex_links in E.
  destruct (match ix_interior ix with Cw => (ix_other1 ix, ix_other2 ix) | Ccw => (ix_other2 ix, ix_other1 ix) end) as [t b] eqn:TB.
  assert (Vt : V t /\ V b) by (destruct (ix_interior ix); injection TB as <- <-; auto). destruct Vt as [Vt Vb].
  destruct (ix_ty ix).
  - destruct a as [s links]. injection E as <-. destruct A as [A1 A2]. split; auto. cbn [snd]. apply Forall_app. split; auto. constructor; cbn; auto.
  - eapply (vfix pick p ix _ _ a a'); eauto.
  - destruct a as [s links]. injection E as <-. destruct A as [A1 A2]. split; auto. cbn [snd]. apply Forall_app. split; auto. constructor; cbn; auto.
  - eapply (vfix pick p ix _ _ a a'); eauto.
  - bnd E. destruct x as [s links]. assert (K : vpair (s, links)) by (destruct w; [injection E0 as ->; auto|eapply (vfix pick p ix _ _ a (s, links)); eauto]).
    bnd E. destruct x as [p1 p2]. injection E as <-. assert (Vq : V p1 /\ V p2) by (destruct (pcmp (ix_other1 ix) (ix_other2 ix)); try discriminate; injection E1 as <- <-; auto).
    destruct K as [K1 K2]. split; auto. cbn [snd]. apply Forall_app. split; auto. constructor; cbn; [tauto|constructor].
Qed.
Lemma vins : forall pick e s s', vsw s -> handle_insert pick e s = Ok s' -> vsw s'.
Proof. intros pick e s s' [S Ev] E. unfold handle_insert in E. destruct (ev_ty e); try (injection E as <-; split; auto; fail). chk E. bnd E. injection E as <-. split; auto. Qed.
Lemma vprocess : forall pick s s' o, vsw s -> process_event pick s = Ok (s', o) -> vsw s' /\ match o with Some e => Forall vlink (se_links e) /\ V (se_pt e) | None => True end.
Proof.
  intros pick s s' o S E. unfold process_event in E. destruct (ms_events s) as [|e evs] eqn:Q; [injection E as <- <-; auto|].
  assert (Vp : V (ev_point e)) by (apply S; rewrite Q; left; auto). bnd E. destruct x as [s1 ix]. apply vfind in E0 as (S1 & V1 & V2 & _); auto. bnd E.
  assert (S2 : vsw x). { unfold store_point in E0. bnd E0. injection E0 as <-. split; [|exact (proj2 S1)]. apply (vst_set _ _ _ _ (proj1 S1)) with (2 := E1). split; [discriminate|intros h; discriminate]. }
  bnd E. apply vremove in E1; auto; [|split; [exact S2|constructor]]. bnd E. apply vremove in E2; auto. destruct x1 as [s3 links]. bnd E. bnd E. chk E. bnd E. destruct x3 as [s4 links'].
  apply vvertex in E6; auto. destruct E6 as [S4 L4]. bnd E. apply vins in E6; auto. bnd E. apply vins in E7; auto. injection E as <- <-. auto.
Qed.

(** ** The chains *)
Definition vchain (c : mchain) : Prop := Forall V (c_coords c).
Definition vchains (cs : list mchain) : Prop := forall c, In c cs -> vchain c.
Lemma at_chain : forall cs i c, vchains cs -> mchain_at cs i = Ok c -> vchain c.
Proof. intros cs i c S E. apply expect_inv in E. apply S. apply (nth_error_In _ _ E). Qed.
Lemma set_chain : forall cs i c, vchains cs -> vchain c -> vchains (list_set i c cs).
Proof. intros cs i c S C x I. apply in_set in I as [->|I]; auto. Qed.
Lemma new_chain : forall w o l c, Forall V l -> mchain_new w o l = Ok c -> vchain c.
Proof. intros w o l c F E. unfold mchain_new in E. chk E. injection E as <-. apply Forall_rev. auto. Qed.
Lemma app_chains : forall cs ds, vchains cs -> vchains ds -> vchains (cs ++ ds).
Proof. intros cs ds A B c I. apply in_app_iff in I as [I|I]; auto. Qed.
Lemma two_chains : forall a b, vchain a -> vchain b -> vchains [a; b].
Proof. intros a b A B c [<-|[<-|[]]]; auto. Qed.
Lemma adv_chain : forall p c, V p -> vchain c -> vchain (c_advance p c).
Proof. intros p c Vp C. constructor; auto. Qed.
Lemma pop_chain : forall c c' p, vchain c -> c_pop c = Ok (c', p) -> vchain c' /\ V p.
Proof. intros c c' p C E. unfold c_pop in E. unfold vchain in *. destruct (c_coords c); try discriminate. injection E as <- <-. inversion C; subst. auto. Qed.
Lemma vmerge : forall ty a b o cs r, V b -> match o with Some (c, d) => V c /\ V d | None => True end -> vchains cs -> merge_chains ty a b o cs = Ok r -> vchains (fst r).
Proof.
  intros ty a b o cs. induction cs as [|c cs IH]; intros r Vb Vo S E; [injection E as <-; intros c []|]. cbn [merge_chains] in E. bnd E. bnd E. bnd E. destruct x1 as [r' n]. injection E as <-. cbn [fst].
  pose proof (IH _ Vb Vo (fun c' I => S c' (or_intror I)) E2) as K. cbn [fst] in K. pose proof (S c (or_introl eq_refl)) as C. intros c' [<-|I]; auto.
  destruct x; [|injection E1 as <-; auto]. unfold merge_chain in E1. pose proof (adv_chain b c Vb C) as C1. destruct ty; try (injection E1 as <-; auto; fail).
  bnd E1. destruct x as [t b']. apply expect_inv in E. rewrite E in Vo. injection E1 as <-. apply adv_chain; auto. destruct (c_int c); tauto.
Qed.
Lemma vapply : forall p ty a l a', vlink l -> vchains (fst a) -> apply_link p ty a l = Ok a' -> vchains (fst a').
Proof.
  intros p ty [cs cur] l a' L S E. cbn [fst] in S. destruct l; cbn [vlink] in L; cbn [apply_link] in E; chk E.
  - bnd E. bnd E. injection E as <-. apply app_chains; auto. apply two_chains; [apply new_chain in E1|apply new_chain in E2]; auto; repeat constructor; tauto.
  - bnd E. bnd E. bnd E. injection E as <-. apply set_chain; auto. apply adv_chain; [tauto|]. apply (at_chain _ _ _ S E3).
  - bnd E. destruct x as [cs' num]. chk E. injection E as <-. apply vmerge in E1; auto; tauto.
  - bnd E. bnd E. bnd E. destruct x1 as [c1 old]. pose proof (at_chain _ _ _ S E2) as C. apply pop_chain in E3 as [C1 Vo]; auto.
    assert (K : exists limb other, match c_int x0 with Cw => (bot, top) | Ccw => (top, bot) end = (limb, other) /\ V limb /\ V other) by (destruct (c_int x0); eexists; eexists; (split; [reflexivity|tauto])).
    destruct K as (limb & other & K & Vl & Vt). rewrite K in E. bnd E. bnd E. injection E as <-. cbn [fst]. destruct L as (La & Lb & _ & _). apply app_chains; [|apply two_chains].
    + apply set_chain; auto. apply adv_chain; auto. apply adv_chain; auto.
    + apply new_chain in E3; auto.
    + apply new_chain in E4; auto.
  - injection E as <-. auto.
Qed.
Lemma vfinish : forall i j cs cs', vchains cs -> finish_both i j cs = Ok cs' -> vchains cs'.
Proof.
  intros i j cs cs' S E. unfold finish_both in E. bnd E. bnd E. bnd E. bnd E. bnd E. bnd E. bnd E. injection E as <-.
  unfold c_finish in E1, E3. chk E1. injection E1 as <-. assert (S1 : vchains (list_set i (mkMchain (c_int x) (c_other x) (c_coords x) true) cs)) by (apply set_chain; auto; exact (at_chain _ _ _ S E0)).
  chk E3. injection E3 as <-. apply set_chain; auto. exact (at_chain _ _ _ S1 E2).
Qed.
Lemma vreduce : forall p cs cur cs', vchains cs -> reduce_point p cs cur = Ok cs' -> vchains cs'.
Proof.
  intros p cs cur cs' S E. unfold reduce_point in E. bnd E. chk E. clear E0 E1. destruct x as [|l0 l].
  - destruct cur; injection E as <-; auto.
  - destruct cur as [cur|].
    + destruct l as [|l1 rest]; try discriminate. chk E. bnd E. bnd E. bnd E. destruct x1 as [pr other]. bnd E. bnd E. destruct x2 as [cc' nn]. bnd E. bnd E. bnd E. chk E. bnd E. bnd E. injection E as <-.
      pose proof (at_chain _ _ _ S E4) as C. apply pop_chain in E5 as [C' Vn]; auto. apply vfinish in E10; [|apply set_chain; auto]. apply set_chain; auto. apply adv_chain; auto. apply (at_chain _ _ _ E10 E11).
    + revert cs S E. induction (l0 :: l) as [|i is IH]; intros cs S E; [injection E as <-; auto|]. cbn [fold_res] in E. bnd E. apply (IH x); auto.
      unfold close_look in E0. bnd E0. bnd E0. chk E0. destruct (c_done x0); [injection E0 as <-; auto|]. bnd E0. bnd E0. destruct (peqb x2 x3); [apply vfinish in E0; auto|injection E0 as <-; auto].
Qed.
Lemma vevent : forall cs e cs', vchains cs -> Forall vlink (se_links e) -> chain_event cs e = Ok cs' -> vchains cs'.
Proof.
  intros cs e cs' S L E. unfold chain_event in E. bnd E. destruct x as [cs1 cur]. apply (vreduce _ _ _ _) with (2 := E). clear E.
  assert (G : forall ls a a', vchains (fst a) -> Forall vlink ls -> fold_res (apply_link (se_pt e) (se_ty e)) a ls = Ok a' -> vchains (fst a')).
  { induction ls as [|l ls IH]; intros a a' A F Q; [injection Q as <-; auto|]. cbn [fold_res] in Q. bnd Q. inversion F; subst. apply (IH x a'); auto. apply (vapply _ _ _ _ _ H1 A E). }
  exact (G _ (cs, None) _ S L E0).
Qed.
Lemma vloop : forall pick n s cs cs', vsw s -> vchains cs -> chains_loop pick n s cs = Ok cs' -> vchains cs'.
Proof.
  intros pick n. induction n as [|n IH]; intros s cs cs' S C E; [discriminate|]. cbn [chains_loop] in E. bnd E. destruct x as [s' o]. apply vprocess in E0 as [S' K]; auto.
  destruct o as [e|]; [|injection E as <-; auto]. bnd E. apply (IH s' x); auto. apply (vevent cs e); auto. tauto.
Qed.
Lemma vtake : forall ps lines ms, (forall l, In l lines -> Forall V l) -> take_pairs ps lines = Ok ms -> forall m, In m ms -> Forall V (mp_top m) /\ Forall V (mp_bot m).
Proof.
  induction ps as [|[t b] ps IH]; intros lines ms L E m I; [injection E as <-; destruct I|]. cbn [take_pairs] in E. bnd E. destruct x as [l1 top]. bnd E. destruct x as [l2 bot]. bnd E. bnd E. injection E as <-.
  unfold take_line in E0, E1. bnd E0. injection E0 as <- <-. apply expect_inv in E. assert (L1 : forall l, In l (list_set t [] lines) -> Forall V l) by (intros l J; apply in_set in J as [->|J]; auto).
  bnd E1. injection E1 as <- <-. apply expect_inv in E0. assert (L2 : forall l, In l (list_set b [] (list_set t [] lines)) -> Forall V l) by (intros l J; apply in_set in J as [->|J]; auto).
  destruct I as [<-|I]; [|apply (IH _ _ L2 E3 m I)]. destruct (of_new _ _ _ E2) as (-> & -> & _). split; [apply L; apply (nth_error_In _ _ E)|apply L1; apply (nth_error_In _ _ E0)].
Qed.
Lemma pieces_vertices : forall presort pick P ms, (forall l, Permutation (presort l) l) -> (forall r v, In r (pg_exterior P :: pg_interiors P) -> In v r -> V v) ->
  monotone_chains presort pick P = Ok ms -> forall m, In m ms -> Forall V (mp_top m) /\ Forall V (mp_bot m).
Proof.
  intros presort pick P ms Ps R E. unfold monotone_chains in E. bnd E. bnd E. apply vsw_from in E0; auto. apply vloop in E1; auto; [|intros c []]. unfold chains_out in E. bnd E. chk E.
  apply (vtake _ _ _) with (2 := E). intros l I. apply in_map_iff in I as (c & <- & I). apply Forall_rev. apply E1. auto.
Qed.
End Points.
