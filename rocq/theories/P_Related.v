(** The decomposition looks at coordinates only through their order and the
    orientation of triples: runs on related polygons are related step by step. *)
Require Import List String Bool Arith Lia.
From Verif Require Import Base Scalar M_Events M_Geo M_LineOrPoint M_Slab M_Active M_MonoPoly M_Rings M_Op M_MonoSweep M_Chains.
Import ListNotations.
Local Open Scope nat_scope.

(** Two computations with related results. *)
Definition rrel {A B} (Q : A -> B -> Prop) (m : res A) (m' : res B) : Prop :=
  match m, m' with
  | Ok a, Ok b => Q a b
  | Panic s, Panic s' => s = s'
  | NoFuel, NoFuel => True
  | _, _ => False
  end.
Lemma rrel_bind : forall {A B C D} (Q : A -> B -> Prop) (S : C -> D -> Prop) m m' k k',
  rrel Q m m' -> (forall x x', Q x x' -> rrel S (k x) (k' x')) -> rrel S (bind m k) (bind m' k').
Proof. intros A B C D Q S [a|s|] [b|s'|] k k' H K; cbn in *; try contradiction; auto. Qed.
Lemma rrel_check : forall b b' s {C D} (S : C -> D -> Prop) k k', b = b' -> rrel S k k' ->
  rrel S (bind (check b s) (fun _ => k)) (bind (check b' s) (fun _ => k')).
Proof. intros b b' s C D S k k' <- H. destruct b; cbn; auto. Qed.
Definition orel {A B} (Q : A -> B -> Prop) (o : option A) (o' : option B) : Prop :=
  match o, o' with Some a, Some b => Q a b | None, None => True | _, _ => False end.
Lemma rrel_expect : forall {A B} (Q : A -> B -> Prop) o o' s, orel Q o o' -> rrel Q (expect o s) (expect o' s).
Proof. intros A B Q [a|] [b|] s H; cbn in *; try contradiction; auto. Qed.
Lemma rrel_weaken : forall {A B} (Q Q' : A -> B -> Prop) m m', rrel Q m m' -> (forall a b, Q a b -> Q' a b) -> rrel Q' m m'.
Proof. intros A B Q Q' [a|s|] [b|s'|] H K; cbn in *; auto. Qed.
Lemma rrel_refl : forall {A} (m : res A), rrel eq m m.
Proof. intros A [a|s|]; cbn; auto. Qed.
Lemma rrel_fold : forall {A B S T} (Q : A -> B -> Prop) (P : S -> T -> Prop) f f' l l', Forall2 Q l l' ->
  (forall s s' a a', P s s' -> Q a a' -> rrel P (f s a) (f' s' a')) -> forall s s', P s s' -> rrel P (fold_res f s l) (fold_res f' s' l').
Proof.
  intros A B S T Q P f f' l l' F H. induction F as [|a a' l l' E F IH]; intros s s' I; cbn [fold_res]; [exact I|]. eapply rrel_bind; [apply H; eauto|]. auto.
Qed.

(** ** Lists *)
Section Lists.
Context {A B : Type} (Q : A -> B -> Prop).
Lemma f2_nth : forall l l', Forall2 Q l l' -> forall i, orel Q (nth_error l i) (nth_error l' i).
Proof. induction 1 as [|a b l l' H F IH]; intros [|i]; cbn; auto. Qed.
Lemma f2_set : forall l l', Forall2 Q l l' -> forall i a b, Q a b -> Forall2 Q (list_set i a l) (list_set i b l').
Proof. induction 1 as [|x y l l' H F IH]; intros [|i] a b K; cbn [list_set]; constructor; auto. Qed.
Lemma f2_len : forall l l', Forall2 Q l l' -> List.length l = List.length l'.
Proof. induction 1; cbn; congruence. Qed.
Lemma f2_firstn : forall l l', Forall2 Q l l' -> forall i, Forall2 Q (firstn i l) (firstn i l').
Proof. induction 1 as [|x y l l' H F IH]; intros [|i]; cbn [firstn]; constructor; auto. Qed.
Lemma f2_skipn : forall l l', Forall2 Q l l' -> forall i, Forall2 Q (skipn i l) (skipn i l').
Proof. induction 1 as [|x y l l' H F IH]; intros [|i]; cbn [skipn]; try constructor; auto. Qed.
Lemma f2_rev : forall l l', Forall2 Q l l' -> Forall2 Q (rev l) (rev l').
Proof. induction 1 as [|x y l l' H F IH]; cbn [rev]; [constructor|]. apply Forall2_app; auto. Qed.
End Lists.

(** ** The slab; the relation may depend on the key *)
Section Slabs.
Context {A B : Type} (Q : nat -> A -> B -> Prop).
Definition entrel (k : nat) (x : entry A) (y : entry B) : Prop :=
  match x, y with Vacant n, Vacant m => n = m | Occupied a, Occupied b => Q k a b | _, _ => False end.
Definition slabrel (s : slab A) (s' : slab B) : Prop :=
  s_next s = s_next s' /\ List.length (s_entries s) = List.length (s_entries s') /\
  forall k, orel (entrel k) (nth_error (s_entries s) k) (nth_error (s_entries s') k).
Lemma slabrel_get : forall s s' k, slabrel s s' -> orel (Q k) (slab_get s k) (slab_get s' k).
Proof.
  intros s s' k (_ & _ & H). specialize (H k). unfold slab_get. destruct (nth_error (s_entries s) k) as [[n|a]|], (nth_error (s_entries s') k) as [[m|b]|]; cbn in *; try contradiction; auto.
Qed.
Lemma slabrel_contains : forall s s' k, slabrel s s' -> slab_contains s k = slab_contains s' k.
Proof. intros s s' k H. apply (slabrel_get _ _ k) in H. unfold slab_contains. destruct (slab_get s k), (slab_get s' k); cbn in H; try contradiction; auto. Qed.
Lemma set_nth_case : forall {X} (l : list X) i a k, nth_error (list_set i a l) k = if k =? i then (match nth_error l k with Some _ => Some a | None => None end) else nth_error l k.
Proof. induction l as [|x l IH]; intros [|i] a [|k]; cbn; auto. destruct (k =? i); auto. Qed.
Lemma set_len : forall {X} (l : list X) i a, List.length (list_set i a l) = List.length l.
Proof. induction l as [|x l IH]; intros [|i] a; cbn; auto. Qed.
Lemma slabrel_set_entries : forall s s' i x y n, slabrel s s' -> entrel i x y -> slabrel (mkSlab (list_set i x (s_entries s)) n) (mkSlab (list_set i y (s_entries s')) n).
Proof.
  intros s s' i x y n (H1 & H2 & H3) H. split; [reflexivity|]. cbn [s_entries]. split; [rewrite !set_len; auto|]. intros k. rewrite !set_nth_case. specialize (H3 k).
  destruct (Nat.eqb_spec k i) as [->|]; auto. destruct (nth_error (s_entries s) i), (nth_error (s_entries s') i); cbn in *; try contradiction; auto.
Qed.
Lemma slabrel_set : forall s s' k a b, slabrel s s' -> Q k a b -> rrel slabrel (slab_set s k a) (slab_set s' k b).
Proof.
  intros s s' k a b H K. pose proof (slabrel_get _ _ k H) as G. unfold slab_set. destruct (slab_get s k), (slab_get s' k); cbn in *; try contradiction; auto.
  destruct H as (H1 & H2 & H3). rewrite <- H1. apply slabrel_set_entries; [repeat split; auto|exact K].
Qed.
Lemma slabrel_insert : forall s s' a b, slabrel s s' -> Q (s_next s) a b -> rrel slabrel (slab_insert s a) (slab_insert s' b).
Proof.
  intros s s' a b H K. pose proof H as (H1 & H2 & H3). unfold slab_insert. rewrite <- H1, <- H2. destruct (Nat.eqb_spec (s_next s) (List.length (s_entries s))) as [E|E]; cbn [rrel].
  - split; [reflexivity|]. cbn [s_entries]. rewrite !app_length. split; [cbn; congruence|]. intros k. specialize (H3 k). destruct (Nat.lt_ge_cases k (List.length (s_entries s))) as [L|L].
    + rewrite !nth_error_app1 by congruence. auto.
    + rewrite !nth_error_app2 by congruence. rewrite <- H2. destruct (k - List.length (s_entries s)) as [|[|]] eqn:D; cbn; auto. assert (k = s_next s) by lia. subst k. exact K.
  - specialize (H3 (s_next s)). destruct (nth_error (s_entries s) (s_next s)) as [[n|x]|] eqn:E1, (nth_error (s_entries s') (s_next s)) as [[m|y]|] eqn:E2; cbn in *; try contradiction; auto. subst m. apply slabrel_set_entries; auto.
Qed.
End Slabs.
Lemma slabrel_weaken : forall {A B} (Q Q' : nat -> A -> B -> Prop) s s', slabrel Q s s' -> (forall k a b, Q k a b -> Q' k a b) -> slabrel Q' s s'.
Proof.
  intros A B Q Q' s s' (H1 & H2 & H3) K. split; auto. split; auto. intros k. specialize (H3 k). destruct (nth_error (s_entries s) k) as [[|]|], (nth_error (s_entries s') k) as [[|]|]; cbn in *; try contradiction; auto.
Qed.

Section Order.
(** Corresponding points, on which the two kinds of test agree. *)
Variable R : pt -> pt -> Prop.
Hypothesis Rcmp : forall a a' b b', R a a' -> R b b' -> pcmp a b = pcmp a' b'.
Hypothesis Rori : forall a a' b b' c c', R a a' -> R b b' -> R c c' -> orient2d a b c = orient2d a' b' c'.

Lemma Req : forall a a' b b', R a a' -> R b b' -> peqb a b = peqb a' b'.
Proof. intros. unfold peqb. erewrite Rcmp; eauto. Qed.
Lemma Rlt : forall a a' b b', R a a' -> R b b' -> pltb a b = pltb a' b'.
Proof. intros. unfold pltb. erewrite Rcmp; eauto. Qed.
Lemma Rle : forall a a' b b', R a a' -> R b b' -> pleb a b = pleb a' b'.
Proof. intros. unfold pleb. erewrite Rcmp; eauto. Qed.

(** ** Line strings *)
Notation lsrel := (Forall2 R).
Lemma opt_eqb_rel : forall a a' b b', orel R a a' -> orel R b b' -> opt_pt_eqb a b = opt_pt_eqb a' b'.
Proof. intros [a|] [a'|] [b|] [b'|] H K; cbn in *; try contradiction; auto. apply Req; auto. Qed.
Lemma first_rel : forall l l', lsrel l l' -> orel R (first l) (first l').
Proof. intros. apply f2_nth; auto. Qed.
Lemma last_rel : forall l l', lsrel l l' -> orel R (last_opt l) (last_opt l').
Proof. intros l l' H. unfold last_opt. rewrite (f2_len _ _ _ H). apply f2_nth; auto. Qed.
Lemma closed_rel : forall l l', lsrel l l' -> ls_is_closed l = ls_is_closed l'.
Proof. intros l l' H. apply opt_eqb_rel; [apply first_rel|apply last_rel]; auto. Qed.
Lemma windows_rel : forall l l', lsrel l l' -> windows_increase l = windows_increase l'.
Proof.
  induction 1 as [|a a' l l' H F IH]; auto. destruct F as [|b b' l l' K F]; auto. cbn [windows_increase] in *. rewrite IH. f_equal. apply Rlt; auto.
Qed.
Lemma least_from_rel : forall l l', lsrel l l' -> forall best b b' i, R b b' -> least_index_from best b i l = least_index_from best b' i l'.
Proof. induction 1 as [|a a' l l' H F IH]; intros best b b' i K; cbn [least_index_from]; auto. rewrite (Rlt _ _ _ _ H K). destruct (pltb a' b'); auto. Qed.
Lemma least_rel : forall l l', lsrel l l' -> least_index l = least_index l'.
Proof. intros l l' [|a a' k k' H F]; auto. apply least_from_rel; auto. Qed.
Lemma other_rel : forall p p' l l', R p p' -> lsrel l l' -> orel R (first_other p l) (first_other p' l').
Proof. intros p p' l l' Hp. induction 1 as [|a a' l l' H F IH]; cbn; auto. rewrite (Req _ _ _ _ H Hp). destruct (peqb a' p'); cbn; auto. Qed.
Lemma winding_rel : forall l l', lsrel l l' -> ls_winding_order l = ls_winding_order l'.
Proof.
  intros l l' F. unfold ls_winding_order. rewrite (f2_len _ _ _ F), (closed_rel _ _ F), (least_rel _ _ F). destruct ((List.length l' <? 4) || negb (ls_is_closed l')); auto.
  cbv zeta. set (i := least_index l'). clearbody i. pose proof (f2_nth _ _ _ F i) as N. destruct (nth_error l i) as [p|], (nth_error l' i) as [p'|]; cbn in N; try contradiction; auto.
  assert (O1 := other_rel p p' _ _ N (Forall2_app (f2_skipn _ _ _ F (S i)) (f2_firstn _ _ _ F i))).
  assert (O2 := other_rel p p' _ _ N (Forall2_app (f2_rev _ _ _ (f2_firstn _ _ _ F i)) (f2_rev _ _ _ (f2_skipn _ _ _ F (S i))))).
  destruct (first_other p (skipn (S i) l ++ firstn i l)), (first_other p' (skipn (S i) l' ++ firstn i l')); cbn in O1; try contradiction; auto.
  destruct (first_other p (rev (firstn i l) ++ rev (skipn (S i) l))), (first_other p' (rev (firstn i l') ++ rev (skipn (S i) l'))); cbn in O2; try contradiction; auto.
  rewrite (Rori _ _ _ _ _ _ O2 N O1). reflexivity.
Qed.

(** ** Geometry and segments *)
Definition loprel (g g' : lop) : Prop :=
  match g, g' with Point p, Point p' => R p p' | Line p q, Line p' q' => R p p' /\ R q q' | _, _ => False end.
Lemma lop_cmp_rel : forall a a' b b', loprel a a' -> loprel b b' -> lop_partial_cmp a b = lop_partial_cmp a' b'.
Proof.
  assert (LP : forall p p' q q' r r', R p p' -> R q q' -> R r r' -> cmp_line_point p q r = cmp_line_point p' q' r').
  { intros p p' q q' r r' H1 H2 H3. unfold cmp_line_point. rewrite (Rlt _ _ _ _ H2 H3), (Rlt _ _ _ _ H3 H1), (Rori _ _ _ _ _ _ H1 H2 H3). reflexivity. }
  assert (LO : forall p p' q q' r r' s s', R p p' -> R q q' -> R r r' -> R s s' -> cmp_line_line_ordered p q r s = cmp_line_line_ordered p' q' r' s').
  { intros p p' q q' r r' s s' H1 H2 H3 H4. unfold cmp_line_line_ordered. rewrite (Rle _ _ _ _ H4 H1), (Rle _ _ _ _ H4 H3), (Rori _ _ _ _ _ _ H1 H2 H3), (Rori _ _ _ _ _ _ H1 H2 H4). reflexivity. }
  intros [p|p q] [p'|p' q'] [r|r s] [r'|r' s']; cbn; intros H K; try contradiction.
  - rewrite (Req _ _ _ _ H K). reflexivity.
  - destruct K as [K1 K2]. rewrite (LP _ _ _ _ _ _ K1 K2 H). reflexivity.
  - destruct H. auto.
  - destruct H as [H1 H2], K as [K1 K2]. unfold cmp_line_line. rewrite (Rlt _ _ _ _ K1 H1), (LO _ _ _ _ _ _ _ _ H1 H2 K1 K2), (LO _ _ _ _ _ _ _ _ K1 K2 H1 H2). reflexivity.
Qed.
Definition hrel (h h' : helper) : Prop := R (h_point h) (h_point h') /\ h_merge h = h_merge h'.
Definition segrel (s s' : segment) : Prop := m_key s = m_key s' /\ loprel (m_geom s) (m_geom s') /\ orel hrel (m_helper s) (m_helper s').
(** Before the first event the slot for points holds the origin. *)
Definition wsegrel (s s' : segment) : Prop := segrel s s' \/ (is_line (m_geom s) = false /\ is_line (m_geom s') = false /\ orel hrel (m_helper s) (m_helper s')).
Definition pre (k0 k : nat) (s s' : segment) : Prop := if k =? k0 then wsegrel s s' else segrel s s'.
Notation strel := (slabrel (fun _ => segrel)).
Lemma seg_cmp_rel : forall a a' b b', segrel a a' -> segrel b b' -> segment_cmp a b = segment_cmp a' b'.
Proof. intros a a' b b' (H1 & H2 & _) (K1 & K2 & _). unfold segment_cmp. rewrite (lop_cmp_rel _ _ _ _ H2 K2), H1, K1. reflexivity. Qed.
Lemma active_rel : forall st st' a b, strel st st' -> active_cmp segment_cmp st a b = active_cmp segment_cmp st' a b.
Proof.
  intros st st' a b H. unfold active_cmp, slab_get_unchecked. pose proof (slabrel_get _ _ _ a H) as A. pose proof (slabrel_get _ _ _ b H) as B.
  destruct (slab_get st a), (slab_get st' a); cbn in A; try contradiction; auto. destruct (slab_get st b), (slab_get st' b); cbn in B; try contradiction; auto. cbn [expect bind].
  rewrite (seg_cmp_rel _ _ _ _ A B). reflexivity.
Qed.
Lemma linerel : forall g g', loprel g g' -> R (l_start (lop_line g)) (l_start (lop_line g')) /\ R (l_end (lop_line g)) (l_end (lop_line g')) /\ is_line g = is_line g'.
Proof. intros [p|p q] [p'|p' q']; cbn; intros H; try contradiction; intuition. Qed.
Definition lnrel (l l' : line) : Prop := R (l_start l) (l_start l') /\ R (l_end l) (l_end l').
Lemma lines_rel : forall l l', lsrel l l' -> Forall2 lnrel (ls_lines l) (ls_lines l').
Proof. induction 1 as [|a a' l l' H F IH]; cbn; [constructor|]. destruct F as [|b b' l l' K F]; [constructor|]. constructor; [split; auto|exact IH]. Qed.
Lemma segment_new_rel : forall k l l' w, lnrel l l' -> rrel segrel (segment_new k l w) (segment_new k l' w).
Proof.
  intros k l l' w [H1 H2]. unfold segment_new. cbv zeta. apply rrel_check; [rewrite (Req _ _ _ _ H1 H2); auto|]. rewrite (Rlt _ _ _ _ H2 H1).
  destruct (pltb (l_end l') (l_start l')); destruct w; cbn; repeat split; auto.
Qed.
Definition evrel (e e' : event) : Prop := R (ev_point e) (ev_point e') /\ ev_ty e = ev_ty e' /\ ev_key e = ev_key e'.
Lemma ev_cmp_rel : forall a a' b b', evrel a a' -> evrel b b' -> ev_cmp a b = ev_cmp a' b'.
Proof. intros a a' b b' (H1 & H2 & _) (K1 & K2 & _). unfold ev_cmp. rewrite (Rcmp _ _ _ _ H1 K1), H2, K2. reflexivity. Qed.
Lemma segment_events_rel : forall s s', segrel s s' -> rrel (Forall2 evrel) (segment_events s) (segment_events s').
Proof. intros s s' (H1 & H2 & _). destruct (linerel _ _ H2) as (L1 & L2 & L3). unfold segment_events. apply rrel_check; auto. cbn. rewrite H1. repeat constructor; auto. Qed.

(** ** The sweep *)
Definition presw (s s' : msweep) : Prop :=
  slabrel (pre (ms_pt_key s)) (ms_segments s) (ms_segments s') /\ ms_pt_key s = ms_pt_key s' /\ Forall2 evrel (ms_events s) (ms_events s') /\ ms_active s = ms_active s'.
Definition swrel (s s' : msweep) : Prop :=
  strel (ms_segments s) (ms_segments s') /\ ms_pt_key s = ms_pt_key s' /\ Forall2 evrel (ms_events s) (ms_events s') /\ ms_active s = ms_active s'.
Lemma seg_pre : forall k0 k s s', segrel s s' -> pre k0 k s s'.
Proof. intros. unfold pre, wsegrel. destruct (k =? k0); auto. Qed.
Lemma sw_pre : forall s s', swrel s s' -> presw s s'.
Proof. intros s s' (H1 & H2 & H3 & H4). repeat split; auto; try apply H1; try congruence. apply (slabrel_weaken _ _ _ _ H1). intros. apply seg_pre; auto. Qed.
Lemma add_line_rel : forall w s s' l l', presw s s' -> lnrel l l' -> rrel presw (add_ring_line w s l) (add_ring_line w s' l').
Proof.
  intros w s s' l l' (H1 & H2 & H3 & H4) K. unfold add_ring_line. rewrite (Req _ _ _ _ (proj1 K) (proj2 K)). destruct (peqb (l_start l') (l_end l')); [cbn; repeat split; auto; apply H1|].
  unfold slab_vacant_key. pose proof (proj1 H1) as N. rewrite <- N.
  eapply rrel_bind; [apply segment_new_rel; auto|]. intros g g' G. eapply rrel_bind; [apply slabrel_insert; [exact H1|apply seg_pre; auto]|]. intros st st' S.
  eapply rrel_bind; [apply segment_events_rel; auto|]. intros es es' E. cbn. repeat split; cbn [ms_segments ms_pt_key ms_events ms_active]; auto; try apply S. apply Forall2_app; auto. apply f2_rev; auto.
Qed.
Lemma add_ring_rel : forall r r' h s s', presw s s' -> lsrel r r' -> rrel presw (ms_add_closed_ring r h s) (ms_add_closed_ring r' h s').
Proof.
  intros r r' h s s' H K. unfold ms_add_closed_ring. apply rrel_check; [apply closed_rel; auto|]. apply rrel_check; [rewrite (f2_len _ _ _ K); auto|].
  rewrite (winding_rel _ _ K). eapply rrel_bind; [apply rrel_refl|]. intros w w' <-. cbv zeta. apply (rrel_fold lnrel presw); auto using lines_rel. intros. apply add_line_rel; auto.
Qed.
Lemma insert_rel : forall e e' l l', evrel e e' -> Forall2 evrel l l' -> Forall2 evrel (insert_event e l) (insert_event e' l').
Proof.
  intros e e' l l' H. induction 1 as [|a a' l l' K F IH]; cbn [insert_event]; [constructor; auto|]. rewrite (ev_cmp_rel _ _ _ _ H K). destruct (ev_cmp e' a'); constructor; auto.
Qed.
Lemma sort_rel : forall l l', Forall2 evrel l l' -> Forall2 evrel (sort_events l) (sort_events l').
Proof. unfold sort_events. induction 1; cbn [fold_right]; [constructor|]. apply insert_rel; auto. Qed.
Definition pgrel (p p' : polygon) : Prop := lsrel (pg_exterior p) (pg_exterior p') /\ Forall2 lsrel (pg_interiors p) (pg_interiors p').
Section Runs.
Variables presort presort' : list event -> list event.
Hypothesis Hp : forall l l', Forall2 evrel l l' -> Forall2 evrel (presort l) (presort' l').
Variable pick : list nat -> nat -> nat -> nat.
Lemma from_polygon_rel : forall p p', pgrel p p' -> rrel presw (from_polygon presort p) (from_polygon presort' p').
Proof.
  intros p p' [H1 H2]. unfold from_polygon. cbv zeta. apply rrel_check; auto. cbn [slab_insert slab_new s_next s_entries List.length Nat.eqb bind].
  eapply rrel_bind; [apply (add_ring_rel _ _ false); [|exact H1]|].
  - repeat split; cbn; auto. intros [|k]; cbn; auto. unfold pre. cbn. right. cbn. auto. destruct k; cbn; auto.
  - intros s s' S. eapply rrel_bind; [apply (rrel_fold lsrel presw); [exact H2| |exact S]; intros; apply add_ring_rel; auto|].
    intros t t' (T1 & T2 & T3 & T4). cbn. repeat split; cbn [ms_segments ms_pt_key ms_events ms_active]; auto; try apply T1. apply sort_rel, Hp; auto.
Qed.
Lemma events_at_rel : forall p p' l l', R p p' -> Forall2 evrel l l' -> events_at p l = events_at p' l'.
Proof. intros p p' l l' H. induction 1 as [|e e' l l' K F IH]; cbn [events_at]; auto. rewrite (Req _ _ _ _ (proj1 K) H). destruct (peqb (ev_point e') p'); congruence. Qed.
Definition ixrel (i i' : intersection) : Prop :=
  ix_ty i = ix_ty i' /\ evrel (ix_event1 i) (ix_event1 i') /\ evrel (ix_event2 i) (ix_event2 i') /\ R (ix_other1 i) (ix_other1 i') /\ R (ix_other2 i) (ix_other2 i') /\ ix_interior i = ix_interior i'.
Lemma other_end_rel : forall k0 k e e' s s', evrel e e' -> pre k0 k s s' -> rrel R (other_end e s) (other_end e' s').
Proof.
  intros k0 k e e' s s' (H1 & H2 & H3) K. assert (W : wsegrel s s') by (unfold pre in K; destruct (k =? k0); auto; left; auto). unfold other_end.
  destruct W as [(_ & L & _)|(L1 & L2 & _)]; [|rewrite L1, L2; cbn; auto]. destruct (linerel _ _ L) as (A & B & C). apply rrel_check; auto. rewrite H2. destruct (ev_ty e'); cbn; auto.
Qed.
Lemma pre_helper : forall k0 k s s', pre k0 k s s' -> orel hrel (m_helper s) (m_helper s').
Proof. intros k0 k s s' K. unfold pre, wsegrel, segrel in K. destruct (k =? k0); intuition. Qed.
Lemma interior_rel : forall s s', orel hrel (m_helper s) (m_helper s') -> interior_winding s = interior_winding s'.
Proof. intros s s' H. unfold interior_winding. destruct (m_helper s), (m_helper s'); cbn in H; try contradiction; auto. Qed.
Definition pairrel {A A' B B'} (Q : A -> A' -> Prop) (S : B -> B' -> Prop) (x : A * B) (y : A' * B') : Prop := Q (fst x) (fst y) /\ S (snd x) (snd y).
Lemma find_rel : forall s s' p p', presw s s' -> R p p' -> rrel (pairrel presw ixrel) (find_intersection_type s p) (find_intersection_type s' p').
Proof.
  intros s s' p p' (H1 & H2 & H3 & H4) K. unfold find_intersection_type. apply rrel_check; [rewrite (events_at_rel _ _ _ _ K H3); auto|].
  destruct H3 as [|e1 e1' l l' E1 F]; [cbn; auto|]. destruct F as [|e2 e2' l l' E2 F]; [cbn; auto|]. pose proof E1 as (P1 & T1 & K1). pose proof E2 as (P2 & T2 & K2). rewrite <- K1, <- K2.
  eapply rrel_bind; [apply rrel_expect, slabrel_get, H1|]. intros g1 g1' G1. eapply rrel_bind; [apply rrel_expect, slabrel_get, H1|]. intros g2 g2' G2.
  eapply rrel_bind; [eapply other_end_rel; eauto|]. intros o1 o1' O1. eapply rrel_bind; [eapply other_end_rel; eauto|]. intros o2 o2' O2.
  apply rrel_check; [rewrite (Req _ _ _ _ K P1), (Req _ _ _ _ K P2); auto|]. cbv zeta. rewrite (Rori _ _ _ _ _ _ O1 K O2), T1, T2, (interior_rel _ _ (pre_helper _ _ _ _ G1)).
  eapply rrel_bind; [apply rrel_refl|]. intros ty ty' <-. cbn. repeat split; cbn [ms_segments ms_pt_key ms_events ms_active fst snd ix_ty ix_event1 ix_event2 ix_other1 ix_other2 ix_interior]; auto; apply H1.
Qed.
Lemma store_rel : forall s s' p p', presw s s' -> R p p' -> rrel swrel (store_point p s) (store_point p' s').
Proof.
  intros s s' p p' (H1 & H2 & H3 & H4) K. unfold store_point. rewrite <- H2. set (k0 := ms_pt_key s) in *. unfold slab_set. pose proof (slabrel_get _ _ _ k0 H1) as G.
  destruct (slab_get (ms_segments s) k0), (slab_get (ms_segments s') k0); cbn in G; try contradiction; cbn [bind rrel]; auto. pose proof H1 as (N & L & H).
  split; cbn [set_segments ms_segments ms_pt_key ms_events ms_active]; [|repeat split; auto; congruence]. split; [exact N|]. cbn [s_entries]. split; [rewrite !set_len; auto|]. intros k. rewrite !set_nth_case. specialize (H k).
  destruct (Nat.eqb_spec k k0) as [->|D].
  - destruct (nth_error (s_entries (ms_segments s)) k0), (nth_error (s_entries (ms_segments s')) k0); cbn in *; try contradiction; auto. repeat split; auto.
  - unfold pre in H. destruct (nth_error (s_entries (ms_segments s)) k) as [[|]|], (nth_error (s_entries (ms_segments s')) k) as [[|]|]; cbn in *; try contradiction; auto. apply Nat.eqb_neq in D. rewrite D in H. auto.
Qed.
(** The tree sees only keys and comparisons. *)
Lemma bt_search_ext : forall c c', (forall a b, c a b = c' a b) -> forall n l lo hi k, bt_search pick c n l lo hi k = bt_search pick c' n l lo hi k.
Proof.
  intros c c' E. induction n as [|n IH]; intros l lo hi k; cbn [bt_search]; auto. destruct (hi <=? lo); auto. destruct (expect _ _) as [x| |]; cbn [bind]; auto. rewrite E. destruct (c' k x) as [[| |]| |]; cbn [bind]; auto.
Qed.
Lemma bt_find_rel : forall st st' l k, strel st st' -> bt_find pick (active_cmp segment_cmp st) l k = bt_find pick (active_cmp segment_cmp st') l k.
Proof. intros. unfold bt_find. apply bt_search_ext. intros. apply active_rel; auto. Qed.
Definition linkrel (l l' : mlink) : Prop :=
  match l, l' with
  | LStart a b c, LStart a' b' c' => R a a' /\ R b b' /\ R c c'
  | LContinue a b c w, LContinue a' b' c' w' => R a a' /\ R b b' /\ R c c' /\ w = w'
  | LMerge a b o, LMerge a' b' o' => R a a' /\ R b b' /\ orel (pairrel R R) o o'
  | LSplit a b c d, LSplit a' b' c' d' => R a a' /\ R b b' /\ R c c' /\ R d d'
  | LEnd a b c, LEnd a' b' c' => R a a' /\ R b b' /\ R c c'
  | _, _ => False
  end.
Notation arel := (pairrel swrel (Forall2 linkrel)).
Lemma swrel_seg : forall s s' st st', swrel s s' -> strel st st' -> swrel (set_segments st s) (set_segments st' s').
Proof. intros s s' st st' (H1 & H2 & H3 & H4) K. split; auto. Qed.
Lemma swrel_act : forall s s' l, swrel s s' -> swrel (set_active l s) (set_active l s').
Proof. intros s s' l (H1 & H2 & H3 & H4). split; auto. Qed.
Lemma handle_remove_rel : forall p p' e e' a a', R p p' -> evrel e e' -> arel a a' -> rrel arel (handle_remove pick p e a) (handle_remove pick p' e' a').
Proof.
  intros p p' e e' [s ls] [s' ls'] Hpt (E1 & E2 & E3) [S L]. cbn [fst snd] in *. pose proof S as (H1 & H2 & H3 & H4). unfold handle_remove. rewrite <- E2. destruct (ev_ty e); try (cbn; split; auto). rewrite <- E3.
  eapply rrel_bind; [apply rrel_expect, slabrel_get, H1|]. intros g g' G. pose proof G as (G1 & G2 & G3).
  eapply (rrel_bind arel).
  - destruct (m_helper g) as [h|] eqn:Eh, (m_helper g') as [h'|] eqn:Eh'; cbn in G3; try contradiction; [|cbn; split; auto]. destruct G3 as [P M]. rewrite <- M. destruct (h_merge h); [|cbn; split; auto].
    eapply rrel_bind; [apply (slabrel_set (fun _ => segrel)); [exact H1|]|]; [repeat split; cbn; auto|]. intros st st' St. cbn. split; cbn [fst snd]; [apply swrel_seg; auto|]. apply Forall2_app; auto. constructor; [|constructor]. cbn. auto.
  - intros [s1 l1] [s1' l1'] [S1 L1]. cbn [fst snd] in *. pose proof S1 as (A1 & A2 & A3 & A4). apply rrel_check; [apply (slabrel_contains (fun _ => segrel)); auto|]. unfold bt_remove. rewrite (bt_find_rel _ _ _ _ A1), A4.
    eapply rrel_bind; [apply rrel_refl|]. intros l l' <-. cbn. split; cbn [fst snd]; auto. apply swrel_act; auto.
Qed.
Lemma fix_up_rel : forall p p' i i' f m a a', R p p' -> ixrel i i' -> arel a a' -> rrel arel (fix_up pick p i f m a) (fix_up pick p' i' f m a').
Proof.
  intros p p' i i' f m [s ls] [s' ls'] Hpt (I1 & I2 & I3 & I4 & I5 & I6) [S L]. cbn [fst snd] in *. pose proof S as (H1 & H2 & H3 & H4). unfold fix_up, bt_next_key. rewrite (bt_find_rel _ _ _ _ H1), H4, H2, I6.
  eapply rrel_bind; [apply rrel_refl|]. intros o o' <-. eapply rrel_bind; [apply rrel_refl|]. intros k k' <-. eapply rrel_bind; [apply rrel_expect, slabrel_get, H1|]. intros g g' G. pose proof G as (G1 & G2 & G3).
  eapply rrel_bind; [apply rrel_expect; exact G3|]. intros h h' [P M]. rewrite <- M.
  destruct (ix_interior i'); (eapply rrel_bind; [apply (slabrel_set (fun _ => segrel)); [exact H1|]; repeat split; cbn; auto|]); intros st st' St; cbn; (split; cbn [fst snd]; [apply swrel_seg; auto|]); (destruct (h_merge h || f); [|auto]); apply Forall2_app; auto; (constructor; [|constructor]); destruct (h_merge h); cbn; repeat split; cbn; auto.
Qed.
Lemma handle_insert_rel : forall e e' s s', evrel e e' -> swrel s s' -> rrel swrel (handle_insert pick e s) (handle_insert pick e' s').
Proof.
  intros e e' s s' (E1 & E2 & E3) S. pose proof S as (H1 & H2 & H3 & H4). unfold handle_insert. rewrite <- E2. destruct (ev_ty e); try exact S. rewrite <- E3. apply rrel_check; [apply (slabrel_contains (fun _ => segrel)); auto|].
  unfold bt_insert. rewrite (bt_find_rel _ _ _ _ H1), H4. eapply rrel_bind; [apply rrel_refl|]. intros l l' <-. apply swrel_act; auto.
Qed.
Lemma vertex_links_rel : forall p p' i i' w a a', R p p' -> ixrel i i' -> arel a a' -> rrel arel (vertex_links pick p i w a) (vertex_links pick p' i' w a').
Proof.
  intros p p' i i' w a a' Hpt I H. pose proof I as (I1 & I2 & I3 & I4 & I5 & I6). unfold vertex_links. rewrite I1, I6.
  assert (F : forall l l', linkrel l l' -> arel (fst a, snd a ++ [l]) (fst a', snd a' ++ [l'])) by (intros l l' L; split; cbn [fst snd]; [apply H|apply Forall2_app; [apply H|repeat constructor; auto]]).
  destruct (ix_interior i'), (ix_ty i'); try (apply fix_up_rel; auto; fail); try (destruct a, a'; apply F; cbn; auto; fail).
  all: eapply (rrel_bind arel); [destruct w; [exact H|apply fix_up_rel; auto]|]; intros [s l] [s' l'] [S L]; cbn [fst snd] in *; rewrite (Rcmp _ _ _ _ I4 I5).
  all: eapply (rrel_bind (pairrel R R)); [destruct (pcmp (ix_other1 i') (ix_other2 i')); cbn; repeat split; auto|]; intros [u v] [u' v'] [U V]; cbn [fst snd] in *; cbn; split; cbn [fst snd]; auto; apply Forall2_app; auto; repeat constructor; auto.
Qed.
Definition serel (e e' : sweep_event) : Prop := R (se_pt e) (se_pt e') /\ se_ty e = se_ty e' /\ Forall2 linkrel (se_links e) (se_links e').
Lemma process_rel : forall s s', presw s s' -> rrel (pairrel presw (orel serel)) (process_event pick s) (process_event pick s').
Proof.
  intros s s' H. pose proof H as (H1 & H2 & H3 & H4). unfold process_event. destruct H3 as [|e e' l l' E F]; [cbn; split; cbn; auto|]. pose proof E as (P & _ & _).
  eapply rrel_bind; [apply find_rel; auto|]. intros [s1 i] [s1' i'] [S1 I]. cbn [fst snd] in *. pose proof I as (I1 & I2 & I3 & I4 & I5 & I6).
  eapply rrel_bind; [apply store_rel; eauto|]. intros s2 s2' S2.
  eapply rrel_bind; [apply (handle_remove_rel _ _ (ix_event1 i) (ix_event1 i') (s2, []) (s2', [])); auto; split; cbn; auto|]. intros a1 a1' A1.
  eapply rrel_bind; [apply (handle_remove_rel _ _ (ix_event2 i) (ix_event2 i') a1 a1'); auto|]. intros [s3 ls] [s3' ls'] [S3 L3]. cbn [fst snd] in *.
  pose proof S3 as (B1 & B2 & B3 & B4). pose proof I2 as (_ & _ & EK1). pose proof I3 as (_ & _ & EK2).
  rewrite <- EK1, <- EK2. eapply rrel_bind; [apply rrel_expect, slabrel_get, B1|]. intros g1 g1' G1. eapply rrel_bind; [apply rrel_expect, slabrel_get, B1|]. intros g2 g2' G2.
  rewrite (interior_rel g1 g1') by apply G1. rewrite (interior_rel g2 g2') by apply G2. apply rrel_check; [rewrite I1; reflexivity|].
  eapply rrel_bind; [apply (vertex_links_rel _ _ i i' _ (s3, ls) (s3', ls')); auto; split; auto|]. intros [s4 l4] [s4' l4'] [S4 L4]. cbn [fst snd] in *.
  eapply rrel_bind; [apply (handle_insert_rel (ix_event1 i) (ix_event1 i')); [exact I2|exact S4]|]. intros s5 s5' S5.
  eapply rrel_bind; [apply (handle_insert_rel (ix_event2 i) (ix_event2 i')); [exact I3|exact S5]|]. intros s6 s6' S6. cbn. split; cbn [fst snd]; [apply sw_pre; auto|]. split; auto.
Qed.

(** ** The chains *)
Definition crel (c c' : mchain) : Prop := c_int c = c_int c' /\ c_other c = c_other c' /\ lsrel (c_coords c) (c_coords c') /\ c_done c = c_done c'.
Notation csrel := (Forall2 crel).
Lemma mchain_new_rel : forall w o l l', lsrel l l' -> rrel crel (mchain_new w o l) (mchain_new w o l').
Proof. intros w o l l' H. unfold mchain_new. apply rrel_check; [rewrite (f2_len _ _ _ H); auto|]. cbn. repeat split; auto. apply f2_rev; auto. Qed.
Lemma c_next_rel : forall c c', crel c c' -> rrel R (c_next c) (c_next c').
Proof. intros c c' (_ & _ & H & _). unfold c_next. destruct H; cbn; auto. Qed.
Lemma c_curr_rel : forall c c', crel c c' -> rrel R (c_curr c) (c_curr c').
Proof. intros c c' (_ & _ & H & _). unfold c_curr. destruct H as [|a a' l l' A H]; cbn; auto. destruct H; cbn; auto. Qed.
Lemma c_pop_rel : forall c c', crel c c' -> rrel (pairrel crel R) (c_pop c) (c_pop c').
Proof. intros c c' (H1 & H2 & H & H4). unfold c_pop. destruct H as [|a a' l l' A H]; cbn; auto. repeat split; auto. Qed.
Lemma c_advance_rel : forall p p' c c', R p p' -> crel c c' -> crel (c_advance p c) (c_advance p' c').
Proof. intros p p' c c' P (H1 & H2 & H3 & H4). repeat split; cbn; auto. Qed.
Lemma c_finish_rel : forall c c', crel c c' -> rrel crel (c_finish c) (c_finish c').
Proof. intros c c' (H1 & H2 & H3 & H4). unfold c_finish. apply rrel_check; [congruence|]. repeat split; cbn; auto. Qed.
Lemma chain_at_rel : forall cs cs' i, csrel cs cs' -> rrel crel (mchain_at cs i) (mchain_at cs' i).
Proof. intros. apply rrel_expect, f2_nth; auto. Qed.
Lemma positions_rel : forall f f', (forall c c', crel c c' -> rrel eq (f c) (f' c')) -> forall cs cs', csrel cs cs' -> forall i, rrel eq (positions f i cs) (positions f' i cs').
Proof. intros f f' H. induction 1 as [|c c' l l' C F IH]; intros i; cbn [positions]; [reflexivity|]. eapply rrel_bind; [apply H; auto|]. intros b b' <-. eapply rrel_bind; [apply IH|]. intros r r' <-. reflexivity. Qed.
Lemma find_position_rel : forall f f', (forall c c', crel c c' -> rrel eq (f c) (f' c')) -> forall cs cs', csrel cs cs' -> forall i, rrel eq (find_position f i cs) (find_position f' i cs').
Proof. intros f f' H. induction 1 as [|c c' l l' C F IH]; intros i; cbn [find_position]; [reflexivity|]. eapply rrel_bind; [apply H; auto|]. intros b b' <-. destruct b; [reflexivity|apply IH]. Qed.
Lemma looks_rel : forall p p' c c', R p p' -> crel c c' -> rrel eq (looks_at p c) (looks_at p' c').
Proof. intros p p' c c' P C. unfold looks_at. destruct (proj2 (proj2 (proj2 C))). destruct (c_done c); [reflexivity|]. eapply rrel_bind; [apply c_next_rel; eauto|]. intros a a' A. cbn. apply Req; auto. Qed.
Lemma stands_rel : forall p p' c c', R p p' -> crel c c' -> rrel eq (stands_at p c) (stands_at p' c').
Proof. intros p p' c c' P C. unfold stands_at. destruct (proj2 (proj2 (proj2 C))). destruct (c_done c); [reflexivity|]. eapply rrel_bind; [apply c_curr_rel; eauto|]. intros a a' A. cbn. apply Req; auto. Qed.
Lemma on_edge_rel : forall p p' q q' c c', R p p' -> R q q' -> crel c c' -> rrel eq (on_edge p q c) (on_edge p' q' c').
Proof. intros p p' q q' c c' P Q C. unfold on_edge. eapply rrel_bind; [apply looks_rel; eauto|]. intros b b' <-. destruct b; [|reflexivity]. eapply rrel_bind; [apply c_curr_rel; eauto|]. intros a a' A. cbn. apply Req; auto. Qed.
Lemma merge_chain_rel : forall ty n n' o o' c c', R n n' -> orel (pairrel R R) o o' -> crel c c' -> rrel crel (merge_chain ty n o c) (merge_chain ty n' o' c').
Proof.
  intros ty n n' o o' c c' N O C. unfold merge_chain. destruct ty; try (apply c_advance_rel; auto). eapply rrel_bind; [apply rrel_expect; exact O|]. intros [t b] [t' b'] [T B]. cbn [fst snd] in *. cbn.
  rewrite (proj1 C). apply c_advance_rel; [destruct (c_int c'); auto|apply c_advance_rel; auto].
Qed.
Lemma merge_chains_rel : forall ty p p' n n' o o', R p p' -> R n n' -> orel (pairrel R R) o o' -> forall cs cs', csrel cs cs' -> rrel (pairrel csrel eq) (merge_chains ty p n o cs) (merge_chains ty p' n' o' cs').
Proof.
  intros ty p p' n n' o o' P N O. induction 1 as [|c c' l l' C F IH]; cbn [merge_chains]; [cbn; split; cbn; auto|]. eapply rrel_bind; [apply looks_rel; eauto|]. intros b b' <-.
  eapply (rrel_bind crel); [destruct b; [apply merge_chain_rel; auto|exact C]|]. intros d d' D. eapply rrel_bind; [apply IH|]. intros [r k] [r' k'] [K1 K2]. cbn [fst snd] in *. subst k'. cbn. split; cbn; auto.
Qed.
Lemma split_rel : forall p p' n n' cs cs', R p p' -> R n n' -> csrel cs cs' -> rrel eq (split_position p n cs) (split_position p' n' cs').
Proof.
  intros p p' n n' cs cs' P N C. unfold split_position. eapply rrel_bind; [apply positions_rel; [|exact C]; intros; apply stands_rel; auto|]. intros l l' <-. destruct l as [|i [|j [|]]]; try reflexivity.
  eapply rrel_bind; [apply chain_at_rel, C|]. intros ci ci' Ci. eapply rrel_bind; [apply chain_at_rel, C|]. intros cj cj' Cj. rewrite (proj1 Ci), (proj1 Cj).
  eapply rrel_bind; [apply rrel_refl|]. intros [u v] [u' v'] E. injection E as <- <-. eapply rrel_bind; [apply chain_at_rel, C|]. intros c c' D. eapply rrel_bind; [apply c_next_rel, D|]. intros a a' A. cbn. rewrite (Rori _ _ _ _ _ _ N P A). reflexivity.
Qed.
Lemma apply_link_rel : forall p p' ty a a' l l', R p p' -> pairrel csrel eq a a' -> linkrel l l' -> rrel (pairrel csrel eq) (apply_link p ty a l) (apply_link p' ty a' l').
Proof.
  intros p p' ty [cs cur] [cs' cur'] l l' P [C E] L. cbn [fst snd] in *. subst cur'. pose proof (f2_len _ _ _ C) as Len.
  destruct l as [r t b|a b c w|a b o|a b t bt|t b s], l' as [r' t' b'|a' b' c' w'|a' b' o'|a' b' t' bt'|t' b' s']; try contradiction; cbn [linkrel] in L; unfold apply_link.
  - destruct L as (L1 & L2 & L3). apply rrel_check; [apply Req; auto|]. cbv zeta. rewrite Len. eapply rrel_bind; [apply mchain_new_rel; auto|]. intros x x' X. eapply rrel_bind; [apply mchain_new_rel; auto|]. intros y y' Y. cbn. split; cbn; auto. apply Forall2_app; auto.
  - destruct L as (L1 & L2 & L3 & _). apply rrel_check; [apply Req; auto|]. eapply rrel_bind; [apply find_position_rel; [|exact C]; intros; apply on_edge_rel; auto|]. intros o o' <-. eapply rrel_bind; [apply rrel_refl|]. intros i i' <-.
    eapply rrel_bind; [apply chain_at_rel, C|]. intros x x' X. cbn. split; cbn; auto. apply f2_set; auto. apply c_advance_rel; auto.
  - destruct L as (L1 & L2 & L3). apply rrel_check; [apply Req; auto|]. eapply rrel_bind; [apply merge_chains_rel; eauto|]. intros [r k] [r' k'] [K1 K2]. cbn [fst snd] in *. subst k'. apply rrel_check; auto. cbn. split; auto.
  - destruct L as (L1 & L2 & L3 & L4). apply rrel_check; [apply Req; auto|]. eapply rrel_bind; [apply split_rel; eauto|]. intros i i' <-. eapply rrel_bind; [apply chain_at_rel, C|]. intros x x' X. eapply rrel_bind; [apply c_pop_rel, X|]. intros [y v] [y' v'] [Y V]. cbn [fst snd] in *.
    rewrite (proj1 X). destruct (c_int x'); cbv zeta; rewrite !set_len, Len; (eapply rrel_bind; [apply mchain_new_rel; auto|]; intros u u' U; eapply rrel_bind; [apply mchain_new_rel; auto|]; intros z z' Z; cbn; split; cbn; auto; apply Forall2_app; auto; apply f2_set; auto; apply c_advance_rel; auto; apply c_advance_rel; auto).
  - destruct L as (L1 & L2 & L3). apply rrel_check; [apply Req; auto|]. cbn. split; auto.
Qed.
Lemma finish_both_rel : forall i j cs cs', csrel cs cs' -> rrel csrel (finish_both i j cs) (finish_both i j cs').
Proof.
  intros i j cs cs' C. unfold finish_both. eapply rrel_bind; [apply chain_at_rel, C|]. intros a a' A. eapply rrel_bind; [apply c_finish_rel, A|]. intros b b' B. cbv zeta. assert (C1 := f2_set _ _ _ C i b b' B).
  eapply rrel_bind; [apply chain_at_rel, C1|]. intros d d' D. eapply rrel_bind; [apply c_finish_rel, D|]. intros e e' E. assert (C2 := f2_set _ _ _ C1 j e e' E). eapply rrel_bind; [apply chain_at_rel, C2|]. intros u u' U. eapply rrel_bind; [apply chain_at_rel, C2|]. intros v v' V.
  unfold finalize_pair. apply rrel_check; [rewrite (proj1 U), (proj1 V); auto|]. exact C2.
Qed.
Lemma close_look_rel : forall i cs cs', csrel cs cs' -> rrel csrel (close_look cs i) (close_look cs' i).
Proof.
  intros i cs cs' C. unfold close_look. eapply rrel_bind; [apply chain_at_rel, C|]. intros a a' A. cbv zeta. rewrite (proj1 (proj2 A)). eapply rrel_bind; [apply chain_at_rel, C|]. intros b b' B.
  pose proof (proj2 (proj2 (proj2 A))) as DA. pose proof (proj2 (proj2 (proj2 B))) as DB. rewrite DA, DB. apply rrel_check; auto. destruct (c_done a'); [exact C|]. eapply rrel_bind; [apply c_next_rel, A|]. intros x x' X. eapply rrel_bind; [apply c_next_rel, B|]. intros y y' Y.
  rewrite (Req _ _ _ _ X Y). destruct (peqb x' y'); [apply finish_both_rel; auto|exact C].
Qed.
Lemma reduce_rel : forall p p' cs cs' cur, R p p' -> csrel cs cs' -> rrel csrel (reduce_point p cs cur) (reduce_point p' cs' cur).
Proof.
  intros p p' cs cs' cur P C. unfold reduce_point. eapply rrel_bind; [apply positions_rel; [|exact C]; intros; apply looks_rel; auto|]. intros l l' <-. apply rrel_check; auto.
  destruct cur as [cur|].
  - destruct l as [|l0 [|l1 rest]]; [exact C|reflexivity|]. apply rrel_check; auto. eapply rrel_bind; [apply chain_at_rel, C|]. intros a a' A. eapply rrel_bind; [apply chain_at_rel, C|]. intros b b' B.
    rewrite (proj1 (proj2 A)), (proj1 (proj2 B)). eapply rrel_bind; [apply rrel_refl|]. intros [u v] [u' v'] E. injection E as <- <-.
    eapply rrel_bind; [apply chain_at_rel, C|]. intros x x' X. eapply rrel_bind; [apply c_pop_rel, X|]. intros [y w] [y' w'] [Y W]. cbn [fst snd] in *. cbv zeta. assert (C1 := f2_set _ _ _ C cur y y' Y).
    eapply rrel_bind; [apply c_next_rel, Y|]. intros n1 n1' N1. eapply rrel_bind; [apply chain_at_rel, C1|]. intros z z' Z. eapply rrel_bind; [apply c_next_rel, Z|]. intros n2 n2' N2. apply rrel_check; [apply Req; auto|].
    eapply rrel_bind; [apply finish_both_rel, C1|]. intros cs2 cs2' C2. eapply rrel_bind; [apply chain_at_rel, C2|]. intros o o' O. cbn. apply f2_set; auto. apply c_advance_rel; auto.
  - assert (G : rrel csrel (fold_res close_look cs l) (fold_res close_look cs' l)).
    { apply (rrel_fold eq csrel); auto; [clear; induction l; constructor; auto|]. intros s s' a a' S <-. apply close_look_rel; auto. }
    destruct l; [exact C|exact G].
Qed.
Lemma chain_event_rel : forall cs cs' e e', csrel cs cs' -> serel e e' -> rrel csrel (chain_event cs e) (chain_event cs' e').
Proof.
  intros cs cs' e e' C (P & T & L). unfold chain_event. rewrite <- T. eapply rrel_bind; [apply (rrel_fold linkrel (pairrel csrel eq)); [exact L| |split; cbn; eauto]; intros; apply apply_link_rel; auto|].
  intros [c1 k] [c1' k'] [A B]. cbn [fst snd] in *. subst k'. apply reduce_rel; auto.
Qed.
Lemma loop_rel : forall n s s' cs cs', presw s s' -> csrel cs cs' -> rrel csrel (chains_loop pick n s cs) (chains_loop pick n s' cs').
Proof.
  induction n as [|n IH]; intros s s' cs cs' S C; cbn [chains_loop]; [exact I|]. eapply rrel_bind; [apply process_rel, S|]. intros [t o] [t' o'] [T O]. cbn [fst snd] in *.
  destruct o as [e|], o' as [e'|]; cbn in O; try contradiction; [|exact C]. eapply rrel_bind; [apply chain_event_rel; eauto|]. intros d d' D. apply IH; auto.
Qed.
Definition mprel (m m' : mono_poly) : Prop := lsrel (mp_top m) (mp_top m') /\ lsrel (mp_bot m) (mp_bot m').
Lemma mp_new_rel : forall t t' b b', lsrel t t' -> lsrel b b' -> rrel mprel (mp_new t b) (mp_new t' b').
Proof.
  intros t t' b b' T B. unfold mp_new. assert (T1 := first_rel _ _ T). assert (T2 := last_rel _ _ T). assert (B1 := first_rel _ _ B). assert (B2 := last_rel _ _ B).
  apply rrel_check; [apply opt_eqb_rel; auto|]. apply rrel_check; [apply opt_eqb_rel; auto|]. apply rrel_check; [f_equal; apply opt_eqb_rel; auto|]. apply rrel_check; [rewrite (windows_rel _ _ T), (windows_rel _ _ B); auto|]. split; auto.
Qed.
Lemma pairs_rel : forall cs cs', csrel cs cs' -> forall i, rrel eq (chain_pairs i cs) (chain_pairs i cs').
Proof.
  induction 1 as [|c c' l l' C F IH]; intros i; cbn [chain_pairs]; [reflexivity|]. pose proof C as (C1 & C2 & C3 & C4). apply rrel_check; auto. eapply rrel_bind; [apply IH|]. intros r r' <-. cbn. rewrite C1, C2. reflexivity.
Qed.
Lemma take_line_rel : forall i l l', Forall2 lsrel l l' -> rrel (pairrel (Forall2 lsrel) lsrel) (take_line i l) (take_line i l').
Proof. intros i l l' F. unfold take_line. eapply rrel_bind; [apply rrel_expect, f2_nth, F|]. intros a a' A. cbn. split; cbn; auto. apply f2_set; auto. Qed.
Lemma take_pairs_rel : forall ps l l', Forall2 lsrel l l' -> rrel (Forall2 mprel) (take_pairs ps l) (take_pairs ps l').
Proof.
  induction ps as [|[t b] ps IH]; intros l l' F; cbn [take_pairs]; [constructor|]. eapply rrel_bind; [apply take_line_rel, F|]. intros [l1 x] [l1' x'] [F1 X]. cbn [fst snd] in *. eapply rrel_bind; [apply take_line_rel, F1|]. intros [l2 y] [l2' y'] [F2 Y]. cbn [fst snd] in *.
  eapply rrel_bind; [apply mp_new_rel; eauto|]. intros m m' M. eapply rrel_bind; [apply IH, F2|]. intros r r' G. constructor; auto.
Qed.
Lemma out_rel : forall cs cs', csrel cs cs' -> rrel (Forall2 mprel) (chains_out cs) (chains_out cs').
Proof.
  intros cs cs' C. unfold chains_out. eapply rrel_bind; [apply pairs_rel, C|]. intros ps ps' <-. cbv zeta. apply rrel_check; [rewrite !map_length, (f2_len _ _ _ C); auto|]. apply take_pairs_rel.
  induction C as [|c c' l l' H F IH]; cbn [map]; constructor; auto. apply f2_rev, H.
Qed.
Lemma monotone_chains_rel : forall p p', pgrel p p' -> rrel (Forall2 mprel) (monotone_chains presort pick p) (monotone_chains presort' pick p').
Proof.
  intros p p' P. unfold monotone_chains. eapply rrel_bind; [apply from_polygon_rel, P|]. intros s s' S. pose proof S as (_ & _ & E & _). rewrite (f2_len _ _ _ E).
  eapply rrel_bind; [apply loop_rel; [exact S|constructor]|]. intros cs cs' C. apply out_rel, C.
Qed.
End Runs.
End Order.
