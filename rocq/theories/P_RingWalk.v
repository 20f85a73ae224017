Require Import List String Bool Arith Lia Permutation Sorted.
From Verif Require Import Base Scalar M_Events M_Geo M_LineOrPoint M_Slab S_Geo P_Geo M_MonoPoly S_Mono P_Mono M_Rings S_Rings P_Rings.
Import ListNotations.
Local Open Scope list_scope.

(** ** Pairs of edges *)
Lemma touch_sym : forall e e', touch_only e e' -> touch_only e' e.
Proof. intros e e' H r r' A B C E. apply (H r r'); auto. Qed.
Lemma touch_orient : forall w e e', touch_only (orient w e) (orient w e') -> touch_only e e'.
Proof.
  intros [|] [a b] [c d] H; auto. unfold orient, reversed, touch_only in *. simpl in *. intros r r' A B C E.
  apply (H r r'); apply on_seg_sym; auto.
Qed.
Lemma fop_app : forall {A} (R : A -> A -> Prop) l l', ForallOrdPairs R (l ++ l') <->
  ForallOrdPairs R l /\ ForallOrdPairs R l' /\ (forall a b, In a l -> In b l' -> R a b).
Proof.
  intros A R l l'. induction l as [|x l IH]; simpl.
  - split; [intros H; split; [constructor|split; [auto|intros a b []]]|tauto].
  - split.
    + intros H. inversion H as [|? ? F O]; subst. apply IH in O. destruct O as [O1 [O2 O3]]. rewrite Forall_forall in F.
      split; [constructor; auto; apply Forall_forall; intros y Hy; apply F; apply in_or_app; auto|]. split; auto.
      intros a b [<-|Ha] Hb; auto. apply F. apply in_or_app; auto.
    + intros [H1 [H2 H3]]. inversion H1 as [|? ? F O]; subst. constructor.
      * apply Forall_forall. intros y Hy. apply in_app_or in Hy. rewrite Forall_forall in F. destruct Hy; auto.
      * apply IH. split; auto.
Qed.
Lemma fop_perm : forall {A} (R : A -> A -> Prop) l l', (forall a b, R a b -> R b a) -> Permutation l l' -> ForallOrdPairs R l -> ForallOrdPairs R l'.
Proof.
  intros A R l l' S P. induction P; intros H; auto.
  - inversion H as [|? ? F O]; subst. constructor; auto. eapply Permutation_Forall; eauto.
  - inversion H as [|? ? F O]; subst. inversion O as [|? ? F' O']; subst. inversion F as [|? ? Ryx Fy]; subst.
    constructor; [constructor; auto|constructor; auto].
Qed.
Lemma fop_map : forall {A B} (R : B -> B -> Prop) (R' : A -> A -> Prop) (f : A -> B) l, (forall a b, R (f a) (f b) -> R' a b) ->
  ForallOrdPairs R (map f l) -> ForallOrdPairs R' l.
Proof.
  intros A B R R' f l K. induction l as [|x l IH]; simpl; intros H; constructor; inversion H as [|? ? F O]; subst; auto.
  rewrite Forall_map in F. eapply Forall_impl; [|exact F]. auto.
Qed.

(** ** The winding order of a ring *)
Lemma least_from : forall l best b i pre, nth_error pre best = Some b -> List.length pre = i ->
  (forall x, In x pre -> pltb x b = false) ->
  exists b', nth_error (pre ++ l) (least_index_from best b i l) = Some b' /\ (forall x, In x (pre ++ l) -> pltb x b' = false).
Proof.
  induction l as [|p l IH]; intros best b i pre H L M; simpl.
  - exists b. rewrite app_nil_r. auto.
  - replace (pre ++ p :: l) with ((pre ++ [p]) ++ l) by (rewrite <- app_assoc; reflexivity).
    destruct (pltb p b) eqn:E.
    + apply IH.
      * rewrite nth_error_app2 by lia. replace (i - _)%nat with 0%nat by lia. reflexivity.
      * rewrite app_length. simpl. lia.
      * intros x Hx. apply in_app_or in Hx. destruct Hx as [Hx|[<-|[]]].
        -- specialize (M x Hx). destruct (pltb x p) eqn:F; auto. exfalso. apply pltb_iff in E. apply pltb_iff in F.
           assert (pltb x b = true) by (apply pltb_iff; clear - E F; lord). congruence.
        -- destruct (pltb p p) eqn:F; auto. exfalso. apply pltb_iff in F. clear - F. lord.
    + apply IH.
      * rewrite nth_error_app1; auto. apply nth_error_Some. congruence.
      * rewrite app_length. simpl. lia.
      * intros x Hx. apply in_app_or in Hx. destruct Hx as [Hx|[<-|[]]]; auto.
Qed.
(** The first of the least points is chosen. *)
Lemma least_from_first : forall l best b i pre, nth_error pre best = Some b -> List.length pre = i ->
  (forall x, In x pre -> pltb x b = false) -> (forall j x, (j < best)%nat -> nth_error pre j = Some x -> pltb b x = true) ->
  forall j x b', (j < least_index_from best b i l)%nat -> nth_error (pre ++ l) j = Some x ->
    nth_error (pre ++ l) (least_index_from best b i l) = Some b' -> pltb b' x = true.
Proof.
  induction l as [|p l IH]; intros best b i pre H L M F j x b'; simpl.
  - rewrite app_nil_r. intros J Hj Hb. rewrite H in Hb. injection Hb as <-. eauto.
  - replace (pre ++ p :: l) with ((pre ++ [p]) ++ l) by (rewrite <- app_assoc; reflexivity).
    destruct (pltb p b) eqn:E.
    + apply IH.
      * rewrite nth_error_app2 by lia. replace (i - _)%nat with 0%nat by lia. reflexivity.
      * rewrite app_length. simpl. lia.
      * intros y Hx. apply in_app_or in Hx. destruct Hx as [Hx|[<-|[]]].
        -- specialize (M y Hx). destruct (pltb y p) eqn:G; auto. exfalso. apply pltb_iff in E. apply pltb_iff in G.
           assert (pltb y b = true) by (apply pltb_iff; clear - E G; lord). congruence.
        -- destruct (pltb p p) eqn:G; auto. exfalso. apply pltb_iff in G. clear - G. lord.
      * intros k y K Hy. rewrite nth_error_app1 in Hy by lia. assert (Y : In y pre) by (eapply nth_error_In; eauto).
        specialize (M y Y). apply pltb_iff. apply pltb_iff in E. destruct (pltb y b) eqn:G; [discriminate|].
        assert (~ lex_lt y b) by (intros X; apply pltb_iff in X; congruence). clear - H0 E. lord.
    + apply IH.
      * rewrite nth_error_app1; auto. apply nth_error_Some. congruence.
      * rewrite app_length. simpl. lia.
      * intros y Hx. apply in_app_or in Hx. destruct Hx as [Hx|[<-|[]]]; auto.
      * intros k y K Hy. rewrite nth_error_app1 in Hy; eauto. assert (best < List.length pre)%nat by (apply nth_error_Some; congruence). lia.
Qed.
(** Where the least point is. *)
Lemma least_split : forall l, l <> [] -> exists A p B, l = A ++ p :: B /\ least_index l = List.length A /\
  (forall x, In x l -> lex_le p x) /\ (forall x, In x A -> lex_lt p x).
Proof.
  intros [|q l] N; [congruence|]. unfold least_index.
  assert (P : forall x, In x [q] -> pltb x q = false).
  { intros x [<-|[]]. destruct (pltb q q) eqn:F; auto. exfalso. apply pltb_iff in F. clear - F. lord. }
  destruct (least_from l 0 q 1 [q] eq_refl eq_refl P) as [b [Hb M]].
  destruct (nth_error_split _ _ Hb) as [A [B [E L]]]. exists A, b, B. simpl in E. split; auto. split; auto. split.
  - intros x Hx. specialize (M x Hx). assert (~ lex_lt x b) by (intros X; apply pltb_iff in X; congruence). unfold lex_le.
    destruct (pcmp_spec b x) as [C|C|C]; auto. contradiction.
  - intros x Hx. apply In_nth_error in Hx. destruct Hx as [j Hj]. apply pltb_iff.
    assert (J : (j < List.length A)%nat) by (apply nth_error_Some; congruence).
    apply (least_from_first l 0 q 1 [q] eq_refl eq_refl P) with (j := j); auto.
    + intros k y K. lia.
    + rewrite <- L. auto.
    + simpl. rewrite E. rewrite nth_error_app1; auto.
Qed.
Lemma corner : forall prev p nxt, lex_lt p prev -> lex_lt p nxt -> prev <> nxt -> touch_only (prev, p) (p, nxt) -> orient2d prev p nxt <> Collinear.
Proof.
  intros prev p nxt H1 H2 N T C. pose proof (orient2d_spec prev p nxt) as S. rewrite C in S. inversion S as [| |Z]. clear S C.
  assert (K : lex_le prev nxt \/ lex_le nxt prev) by (unfold lex_le; destruct (pcmp_spec prev nxt) as [E|E|E]; auto).
  unfold touch_only in T. simpl in T. destruct K as [K|K].
  - assert (p = prev); [|subst; clear - H1; lord]. apply T.
    + apply on_seg_end.
    + apply on_seg_start.
    + apply on_seg_start.
    + apply on_seg_iff; auto. split; [unfold cross in *; rewrite <- Z; ring|split; auto]. left; auto.
  - assert (p = nxt); [|subst; clear - H2; lord]. apply T.
    + apply on_seg_end.
    + apply on_seg_start.
    + apply on_seg_sym. apply on_seg_iff; auto. split; [unfold cross in *|split; auto; left; auto].
      transitivity (- ((cx p - cx prev) * (cy nxt - cy prev) - (cy p - cy prev) * (cx nxt - cx prev)))%Qc; [ring|rewrite Z; ring].
    + apply on_seg_end.
Qed.
Definition ring_pts (l : list pt) : list pt := match l with [] => [] | p :: _ => l ++ [p] end.
Lemma closed_pts : forall p l, ls_is_closed (p :: l ++ [p]) = true.
Proof.
  intros p l. unfold ls_is_closed, first, last_opt. simpl. rewrite app_length. simpl.
  replace (List.length l + 1 - 0)%nat with (S (List.length l)) by lia. simpl. rewrite nth_error_app2 by lia.
  replace (List.length l - List.length l)%nat with 0%nat by lia. simpl. apply peqb_refl.
Qed.
Lemma close_pts : forall l, NoDup l -> (2 <= List.length l)%nat -> ls_close l = ring_pts l.
Proof.
  intros [|p l] N L; simpl in L; [lia|]. unfold ls_close. destruct (ls_is_closed (p :: l)) eqn:C; auto. exfalso.
  unfold ls_is_closed, first, last_opt in C. simpl in C. replace (List.length l - 0)%nat with (S (List.length l - 1)) in C by lia. simpl in C.
  destruct (nth_error l (List.length l - 1)) as [q|] eqn:E; [|discriminate]. simpl in C. apply peqb_iff in C. subst q.
  inversion N as [|? ? X _]; subst. apply X. eapply nth_error_In; eauto.
Qed.
Lemma find_app : forall {A} (f : A -> bool) l l', find f (l ++ l') = match find f l with Some x => Some x | None => find f l' end.
Proof. intros A f l l'. induction l as [|a l IH]; simpl; auto. destruct (f a); auto. Qed.
Lemma edges_split : forall l q p l', edges (l ++ q :: p :: l') = edges (l ++ [q]) ++ (q, p) :: edges (p :: l').
Proof.
  intros l q p l'. induction l as [|a [|b l] IH]; [reflexivity|reflexivity|].
  change ((a :: b :: l) ++ q :: p :: l') with (a :: b :: (l ++ q :: p :: l')). rewrite edges_cons.
  change (b :: (l ++ q :: p :: l')) with ((b :: l) ++ q :: p :: l'). rewrite IH. reflexivity.
Qed.
Lemma nodup_lex_ne : forall (p x : pt), lex_le p x -> x <> p -> lex_lt p x.
Proof. intros p x [H| ->] N; congruence || auto. Qed.
Lemma first_other_hd : forall p q l, q <> p -> first_other p (q :: l) = Some q.
Proof. intros p q l N. unfold first_other. simpl. replace (peqb q p) with false; auto. symmetry. apply peqb_neq. auto. Qed.
Lemma winding_exists : forall l, NoDup l -> (3 <= List.length l)%nat -> ForallOrdPairs touch_only (edges (ring_pts l)) ->
  ls_winding_order (ring_pts l) <> None.
Proof.
  intros [|a l] ND L F; [simpl in L; lia|]. unfold ls_winding_order. simpl ring_pts in *.
  rewrite closed_pts. rewrite orb_false_r.
  replace (_ <? 4)%nat with false. 2:{ symmetry. apply Nat.ltb_ge. simpl in *. rewrite app_length. simpl. lia. }
  set (R := a :: l ++ [a]) in *. destruct (least_split R) as [A [p [B [E [I [M S]]]]]]; [discriminate|].
  rewrite I, E. rewrite nth_error_app2 by lia. rewrite Nat.sub_diag. simpl nth_error. cbv beta iota.
  replace (skipn (Datatypes.S (List.length A)) (A ++ p :: B)) with B.
  2:{ rewrite skipn_app. replace (skipn _ A) with (@nil pt) by (symmetry; apply skipn_all2; lia). replace (_ - _)%nat with 1%nat by lia. reflexivity. }
  replace (firstn (List.length A) (A ++ p :: B)) with A.
  2:{ rewrite firstn_app, Nat.sub_diag, firstn_all. simpl. rewrite app_nil_r. auto. }
  assert (K : exists prev nxt, first_other p (B ++ A) = Some nxt /\ first_other p (rev A ++ rev B) = Some prev /\ lex_lt p prev /\ lex_lt p nxt /\
    prev <> nxt /\ touch_only (prev, p) (p, nxt)).
  2:{ destruct K as [prev [nxt [-> [-> [K1 [K2 [K3 K4]]]]]]]. pose proof (corner _ _ _ K1 K2 K3 K4). destruct (orient2d prev p nxt); congruence. }
  destruct A as [|a' A].
  - simpl in E. unfold R in E. injection E as <- <-. simpl rev. rewrite app_nil_r, app_nil_l.
    destruct l as [|n l]; [simpl in L; lia|]. destruct l as [|z l _] using rev_ind; [simpl in L; lia|].
    assert (N1 : n <> a) by (intros ->; inversion ND as [|? ? X _]; subst; apply X; left; auto).
    assert (N2 : z <> a) by (intros ->; inversion ND as [|? ? X _]; subst; apply X; right; apply in_or_app; right; left; auto).
    assert (N3 : z <> n).
    { intros ->. inversion ND as [|? ? _ X]; subst. inversion X as [|? ? Y _]; subst. apply Y. apply in_or_app; right; left; auto. }
    exists z, n. split; [apply first_other_hd; auto|]. split.
    { change ((n :: l ++ [z]) ++ [a]) with (n :: ((l ++ [z]) ++ [a])). simpl rev. rewrite !rev_app_distr. simpl. unfold first_other. simpl.
      rewrite peqb_refl. simpl. replace (peqb z a) with false; auto. symmetry. apply peqb_neq. auto. }
    split; [apply nodup_lex_ne; auto; apply M; unfold R; right; apply in_or_app; left; right; apply in_or_app; right; left; auto|].
    split; [apply nodup_lex_ne; auto; apply M; unfold R; right; left; auto|]. split; auto.
    unfold R in F. change (a :: (n :: l ++ [z]) ++ [a]) with (a :: n :: ((l ++ [z]) ++ [a])) in F. rewrite edges_cons in F.
    inversion F as [|? ? G _]; subst. rewrite Forall_forall in G. apply touch_sym. apply G.
    rewrite <- app_assoc. change (n :: l ++ [z] ++ [a]) with ((n :: l) ++ z :: a :: []). rewrite edges_split. apply in_or_app. right. left. auto.
  - unfold R in E. injection E as <- E. destruct B as [|b B].
    { exfalso. apply app_inj_tail in E. destruct E as [_ <-]. specialize (S a (or_introl eq_refl)). clear - S. lord. }
    assert (BP : lex_lt p b).
    { apply nodup_lex_ne; [apply M; unfold R; rewrite E; right; apply in_or_app; right; right; left; auto|]. intros ->.
      destruct B as [|c B _] using rev_ind.
      - change (A ++ [p; p]) with (A ++ [p] ++ [p]) in E. rewrite app_assoc in E. apply app_inj_tail in E. destruct E as [_ <-].
        specialize (S a (or_introl eq_refl)). clear - S. lord.
      - replace (A ++ p :: p :: B ++ [c]) with ((A ++ p :: p :: B) ++ [c]) in E by (rewrite <- app_assoc; reflexivity).
        apply app_inj_tail in E. destruct E as [-> <-]. inversion ND as [|? ? _ X]; subst. apply NoDup_remove_2 in X. apply X.
        apply in_or_app. right. left. auto. }
    set (A0 := a :: A) in *. assert (EA : exists A' q, A0 = A' ++ [q]) by (destruct (exists_last (l := A0)) as [A' [q Q]]; [discriminate|eauto]).
    destruct EA as [A' [q EA]]. assert (QP : lex_lt p q) by (apply S; rewrite EA; apply in_or_app; right; left; auto).
    assert (RE : R = A' ++ q :: p :: b :: B).
    { unfold R. rewrite E. change (a :: A ++ p :: b :: B) with (A0 ++ p :: b :: B). rewrite EA, <- app_assoc. reflexivity. }
    exists q, b. split; [apply first_other_hd; intros ->; clear - BP; lord|].
    split; [rewrite EA, rev_app_distr; apply first_other_hd; intros ->; clear - QP; lord|]. split; auto. split; auto. split.
    + intros <-. (* prev = next would repeat a vertex *)
      destruct B as [|c B _] using rev_ind.
      * assert (X : R = (A' ++ [q; p]) ++ [q]) by (rewrite RE, <- app_assoc; reflexivity). unfold R in X.
        change (a :: l ++ [a]) with ((a :: l) ++ [a]) in X. apply app_inj_tail in X. destruct X as [X <-].
        destruct A' as [|a' A']; [injection X as ->; simpl in L; lia|]. injection X as <- ->. inversion ND as [|? ? Y _]; subst. apply Y.
        apply in_or_app. right. left. auto.
      * assert (X : R = (A' ++ q :: p :: q :: B) ++ [c]) by (rewrite RE, <- app_assoc; reflexivity). unfold R in X.
        change (a :: l ++ [a]) with ((a :: l) ++ [a]) in X. apply app_inj_tail in X. destruct X as [X <-]. rewrite X in ND.
        apply NoDup_remove_2 in ND. apply ND. apply in_or_app. right. right. left. auto.
    + rewrite RE in F. rewrite edges_split in F. apply fop_app in F. destruct F as [_ [F _]]. rewrite edges_cons in F.
      inversion F as [|? ? G _]; subst. inversion G; auto.
Qed.
Lemma from_coords_ok : forall l w, NoDup l -> (2 <= List.length l)%nat -> ForallOrdPairs touch_only (edges (ring_pts l)) ->
  exists r, from_coords l w = Ok r /\ r_coords r = ring_pts l /\ proper_ring (r_coords r) /\ region_left r = map (orient w) (edges (ring_pts l)).
Proof.
  intros l w ND L F. assert (L3 : (3 <= List.length l)%nat).
  { destruct l as [|a [|b [|c l]]]; simpl in *; try lia. exfalso. inversion F as [|? ? G _]; subst. inversion G as [|? ? T _]; subst.
    assert (a = b); [|subst; inversion ND as [|? ? X _]; subst; apply X; left; auto]. apply T; simpl; auto using on_seg_start, on_seg_end. }
  pose proof (winding_exists l ND L3 F) as W. unfold from_coords. rewrite close_pts by auto.
  destruct (ls_winding_order (ring_pts l)) as [wn|] eqn:E; [|congruence]. simpl. eexists. split; [reflexivity|]. simpl. split; auto. split.
  - destruct l as [|p l]; [simpl in L; lia|]. exists p, l. simpl in *. split; auto. split; auto. lia.
  - unfold region_left. simpl. rewrite E. destruct wn, w; simpl; try reflexivity; symmetry; apply map_id.
Qed.

(** ** Visiting the points of a closed walk *)
Lemma forget_ok : forall l h, NoDup l -> (forall p, In p l -> map_get h p <> None) ->
  exists h', forget h l = Ok h' /\ (forall p, In p l -> map_get h' p = None) /\ (forall p, ~ In p l -> map_get h' p = map_get h p).
Proof.
  unfold forget. induction l as [|q l IH]; intros h N H; simpl.
  - exists h. split; auto. split; [intros p []|auto].
  - inversion N as [|? ? X N']; subst. destruct (map_get h q) as [v|] eqn:G; [|exfalso; eapply H; eauto; left; auto].
    rewrite (remove_ok _ _ _ _ G). simpl. destruct (IH (map_del h q) N') as [h' [E [A B]]].
    { intros p Hp. rewrite get_del. replace (peqb q p) with false by (symmetry; apply peqb_neq; congruence). apply H. right. auto. }
    exists h'. split; auto. split.
    + intros p [<-|Hp]; auto. rewrite B, get_del, peqb_refl; auto.
    + intros p Hp. rewrite B by (intros Z; apply Hp; right; auto). rewrite get_del.
      replace (peqb q p) with false; auto. symmetry. apply peqb_neq. intros ->. apply Hp. left. auto.
Qed.
Record winv (w : winding) (P : list pt) (k : walk) (out0 : list ring) : Prop := {
  v_nodup : NoDup (wk_ls k);
  v_hist : forall p i, map_get (wk_hist k) p = Some i <-> nth_error (wk_ls k) i = Some p;
  v_ends : match P with [] => wk_ls k = [] | _ => wk_ls k <> [] /\ hd D (wk_ls k) = hd D P /\ last (wk_ls k) D = last P D end;
  v_rings : exists rs, wk_out k = out0 ++ rs /\
    Forall (fun r => proper_ring (r_coords r) /\ region_left r = map (orient w) (edges (r_coords r))) rs /\
    Permutation (edges P) (flat_map (fun r => edges (r_coords r)) rs ++ edges (wk_ls k))
}.
Lemma nodup_nth : forall {A} (l : list A) i j a, NoDup l -> nth_error l i = Some a -> nth_error l j = Some a -> i = j.
Proof.
  intros A l i j a N H1 H2. eapply (proj1 (NoDup_nth_error l)); eauto; [|congruence]. apply nth_error_Some. congruence.
Qed.
Lemma NoDup_app_snoc : forall {A} (l : list A) a, NoDup l -> ~ In a l -> NoDup (l ++ [a]).
Proof. intros A l a H1 H2. apply (Permutation_NoDup (l := a :: l)); [apply Permutation_cons_append|constructor; auto]. Qed.
Lemma NoDup_app_l : forall {X} (l l' : list X), NoDup (l ++ l') -> NoDup l.
Proof. intros X l l'. induction l as [|x l IH]; intros H; [constructor|]. simpl in H. inversion H as [|? ? N D]; subst. constructor; auto. intros I. apply N. apply in_or_app; auto. Qed.
Lemma last_ne : forall {A} (l : list A) d, l <> [] -> exists l', l = l' ++ [last l d].
Proof. intros A l d N. exists (removelast l). apply app_removelast_last. auto. Qed.
Lemma hd_app : forall {A} (l l' : list A) d, l <> [] -> hd d (l ++ l') = hd d l.
Proof. intros A [|a l] l' d H; [congruence|reflexivity]. Qed.
Lemma visit_ok : forall w P k out0 p, winv w P k out0 -> ForallOrdPairs touch_only (edges (P ++ [p])) -> (P <> [] -> last P D <> p) ->
  exists k', visit w k p = Ok k' /\ winv w (P ++ [p]) k' out0.
Proof.
  intros w P k out0 p V F NE. destruct V as [ND H E [rs [O [RS PM]]]]. unfold visit.
  assert (PE : P <> [] -> Permutation (edges (P ++ [p])) (flat_map (fun r => edges (r_coords r)) rs ++ edges (wk_ls k) ++ [(last (wk_ls k) D, p)])).
  { intros NP. rewrite edges_snoc by auto. rewrite app_assoc. apply Permutation_app; auto. destruct P; [congruence|]. destruct E as [_ [_ ->]]. reflexivity. }
  assert (EN : match P ++ [p] with [] => False | _ => True end) by (destruct P; simpl; auto).
  destruct (map_get (wk_hist k) p) as [idx|] eqn:G.
  - pose proof (proj1 (H p idx) G) as Hi.
    destruct (nth_error_split _ _ Hi) as [A [B [EL LA]]].
    replace (idx <=? List.length (wk_ls k))%nat with true.
    2:{ symmetry. apply Nat.leb_le. rewrite EL, app_length. lia. }
    cbn [check bind].
    replace (skipn idx (wk_ls k)) with (p :: B).
    2:{ rewrite EL, skipn_app, <- LA, skipn_all, Nat.sub_diag. reflexivity. }
    replace (firstn idx (wk_ls k)) with A.
    2:{ rewrite EL, firstn_app, <- LA, firstn_all, Nat.sub_diag. simpl. rewrite app_nil_r. auto. }
    assert (NPB : NoDup (p :: B)). { rewrite EL in ND. clear - ND. induction A; simpl in *; auto. inversion ND; auto. }
    assert (NA : ~ In p A). { rewrite EL in ND. intros X. apply NoDup_remove_2 in ND. apply ND. apply in_or_app. auto. }
    assert (NAB : forall x, In x A -> ~ In x (p :: B)).
    { intros x HA HB. apply In_nth_error in HA. destruct HA as [i Hx]. apply In_nth_error in HB. destruct HB as [j Hj].
      assert (X : i = (List.length A + j)%nat).
      { apply (nodup_nth (wk_ls k) _ _ x ND); rewrite EL.
        - rewrite nth_error_app1; auto. apply nth_error_Some. congruence.
        - rewrite nth_error_app2 by lia. replace (_ + j - _)%nat with j by lia. auto. }
      assert (i < List.length A)%nat by (apply nth_error_Some; congruence). lia. }
    destruct (forget_ok (p :: B) (wk_hist k) NPB) as [h [-> [Hn Ho]]].
    { intros x Hx. apply In_nth_error in Hx. destruct Hx as [j Hj]. intros X.
      assert (Y : map_get (wk_hist k) x = Some (List.length A + j)%nat).
      { apply H. rewrite EL. rewrite nth_error_app2 by lia. replace (_ + j - _)%nat with j by lia. auto. } congruence. }
    cbn [bind].
    assert (NP : P <> []). { intros ->. simpl in E. rewrite E in EL. destruct A; discriminate. }
    specialize (PE NP). specialize (NE NP). destruct P as [|p0 P0]; [congruence|]. set (P := p0 :: P0) in *. destruct E as [E1 [E2 E3]].
    assert (NB : B <> []). { intros ->. apply NE. rewrite <- E3, EL. apply last_last. }
    destruct (last_ne B D NB) as [B' EB]. set (z := last B D) in *.
    assert (LZ : last (wk_ls k) D = z).
    { rewrite EL, EB. change (A ++ p :: B' ++ [z]) with (A ++ (p :: B') ++ [z]). rewrite app_assoc. apply last_last. }
    assert (ER : edges (ring_pts (p :: B)) = edges (p :: B) ++ [(z, p)]).
    { unfold ring_pts. rewrite edges_snoc by discriminate. f_equal. f_equal. f_equal. rewrite EB. change (p :: B' ++ [z]) with ((p :: B') ++ [z]). apply last_last. }
    assert (EW : edges (wk_ls k) = edges (A ++ [p]) ++ edges (p :: B)).
    { rewrite EL. destruct B as [|b B]; [congruence|]. rewrite edges_split, edges_cons. reflexivity. }
    assert (PE' : Permutation (edges (P ++ [p])) ((flat_map (fun r => edges (r_coords r)) rs ++ edges (A ++ [p])) ++ edges (ring_pts (p :: B)))).
    { rewrite PE, EW, LZ, ER, <- !app_assoc. reflexivity. }
    destruct (from_coords_ok (p :: B) w NPB) as [r [-> [Rc [Rp Rl]]]].
    { destruct B; [congruence|simpl; lia]. }
    { eapply fop_perm in F; [|apply touch_sym|exact PE']. apply fop_app in F. tauto. }
    cbn [bind wk_ls wk_hist wk_out]. eexists. split; [reflexivity|]. split; cbn [wk_ls wk_hist wk_out].
    + apply NoDup_app_snoc; auto. rewrite EL in ND. apply NoDup_app_l in ND. auto.
    + intros q i. rewrite get_insert. destruct (peqb p q) eqn:Q.
      * apply peqb_iff in Q. subst q. split.
        -- intros X. injection X as <-. rewrite nth_error_app2 by lia. rewrite Nat.sub_diag. reflexivity.
        -- intros X. f_equal. destruct (Nat.lt_ge_cases i (List.length A)) as [K|K].
           ++ rewrite nth_error_app1 in X by auto. exfalso. apply NA. eapply nth_error_In; eauto.
           ++ rewrite nth_error_app2 in X by auto. destruct (i - List.length A)%nat as [|[|m]] eqn:M; simpl in X; try discriminate. lia.
      * apply peqb_neq in Q. destruct (in_dec pt_dec q (p :: B)) as [IB|IB].
        -- rewrite Hn by auto. split; [discriminate|]. intros X. exfalso. apply nth_error_In in X. apply in_app_or in X.
           destruct X as [X|[X|[]]]; [apply (NAB q X IB)|congruence].
        -- rewrite Ho by auto. rewrite H, EL. split; intros X.
           ++ destruct (Nat.lt_ge_cases i (List.length A)) as [K|K].
              ** rewrite nth_error_app1 in * by auto. auto.
              ** rewrite nth_error_app2 in X by auto. exfalso. apply IB. eapply nth_error_In; eauto.
           ++ destruct (Nat.lt_ge_cases i (List.length A)) as [K|K].
              ** rewrite nth_error_app1 in * by auto. auto.
              ** rewrite nth_error_app2 in X by auto. apply nth_error_In in X. destruct X as [X|[]]. congruence.
    + destruct (P ++ [p]) as [|u U] eqn:EP; [destruct P; discriminate|]. rewrite <- EP. split; [destruct A; discriminate|]. split.
      * rewrite (hd_app P) by discriminate. rewrite <- E2, EL. destruct A; reflexivity.
      * rewrite !last_last. reflexivity.
    + exists (rs ++ [r]). split; [rewrite O, app_assoc; reflexivity|]. split; [apply Forall_app; split; auto; constructor; auto; split; auto; rewrite Rc; auto|].
      rewrite PE', flat_map_app. simpl. rewrite Rc, app_nil_r, <- !app_assoc. apply Permutation_app_head. apply Permutation_app_comm.
  - cbn [bind]. eexists. split; [reflexivity|]. split; cbn [wk_ls wk_hist wk_out].
    + apply NoDup_app_snoc; auto. intros X. apply In_nth_error in X. destruct X as [i Hi]. apply H in Hi. congruence.
    + intros q i. rewrite get_insert. destruct (peqb p q) eqn:Q.
      * apply peqb_iff in Q. subst q. split.
        -- intros X. injection X as <-. rewrite nth_error_app2 by lia. rewrite Nat.sub_diag. reflexivity.
        -- intros X. f_equal. destruct (Nat.lt_ge_cases i (List.length (wk_ls k))) as [K|K].
           ++ rewrite nth_error_app1 in X by auto. apply H in X. congruence.
           ++ rewrite nth_error_app2 in X by auto. destruct (i - List.length (wk_ls k))%nat as [|[|m]] eqn:M; simpl in X; try discriminate. lia.
      * apply peqb_neq in Q. rewrite H. split; intros X.
        -- rewrite nth_error_app1; auto. apply nth_error_Some. congruence.
        -- destruct (Nat.lt_ge_cases i (List.length (wk_ls k))) as [K|K].
           ++ rewrite nth_error_app1 in X by auto. auto.
           ++ rewrite nth_error_app2 in X by auto. apply nth_error_In in X. destruct X as [X|[]]. congruence.
    + destruct (P ++ [p]) as [|u U] eqn:EP; [destruct P; discriminate|]. rewrite <- EP. split; [destruct (wk_ls k); discriminate|]. split.
      * destruct P as [|p0 P]; [rewrite E; reflexivity|]. destruct E as [E1 [E2 E3]]. rewrite !hd_app by (auto; discriminate). auto.
      * rewrite !last_last. reflexivity.
    + exists rs. split; auto. split; auto. destruct P as [|p0 P].
      * rewrite E in *. simpl in *. auto.
      * rewrite PE by discriminate. rewrite edges_snoc by (apply E). reflexivity.
Qed.
Lemma fold_res_app : forall {A S} (f : S -> A -> res S) l l' s, fold_res f s (l ++ l') = let* s' := fold_res f s l in fold_res f s' l'.
Proof. intros A S f l. induction l as [|a l IH]; intros l' s; simpl; auto. destruct (f s a); simpl; auto. Qed.
Lemma edges_app_pre : forall l l', exists m, edges (l ++ l') = edges l ++ m.
Proof.
  intros l l'. induction l as [|a [|b l] IH].
  - exists (edges l'). reflexivity.
  - exists (edges (a :: l')). reflexivity.
  - destruct IH as [m Hm]. exists m. change ((a :: b :: l) ++ l') with (a :: b :: (l ++ l')). rewrite edges_cons.
    change (b :: (l ++ l')) with ((b :: l) ++ l'). rewrite Hm. reflexivity.
Qed.
Lemma visits_ok : forall w Q P k out0, winv w P k out0 -> ForallOrdPairs touch_only (edges (P ++ Q)) -> Forall (fun e => fst e <> snd e) (edges (P ++ Q)) ->
  exists k', fold_res (visit w) k Q = Ok k' /\ winv w (P ++ Q) k' out0.
Proof.
  intros w Q. induction Q as [|p Q IH]; intros P k out0 V F N; simpl.
  - exists k. rewrite app_nil_r. auto.
  - replace (P ++ p :: Q) with ((P ++ [p]) ++ Q) in * by (rewrite <- app_assoc; reflexivity).
    destruct (edges_app_pre (P ++ [p]) Q) as [m Hm].
    destruct (visit_ok w P k out0 p V) as [k' [E V']].
    + rewrite Hm in F. apply fop_app in F. tauto.
    + intros NP. rewrite Hm, Forall_app in N. destruct N as [N _]. rewrite edges_snoc in N by auto. apply Forall_app in N. destruct N as [_ N].
      inversion N; auto.
    + rewrite E. simpl. apply IH; auto.
Qed.
(** A whole closed walk: the rings it is split into. *)
Lemma walk_ok : forall w P out0, (2 <= List.length P)%nat -> ForallOrdPairs touch_only (edges (ring_pts P)) -> Forall (fun e => fst e <> snd e) (edges (ring_pts P)) ->
  exists k r rs, fold_res (visit w) (mkWalk [] [] out0) P = Ok k /\ from_coords (wk_ls k) w = Ok r /\ wk_out k ++ [r] = out0 ++ rs /\
    Forall (fun r => proper_ring (r_coords r) /\ region_left r = map (orient w) (edges (r_coords r))) rs /\
    Permutation (edges (ring_pts P)) (flat_map (fun r => edges (r_coords r)) rs).
Proof.
  intros w [|p P] out0 L F N; [simpl in L; lia|]. set (Q := p :: P) in *.
  assert (ER : edges (ring_pts Q) = edges Q ++ [(last Q D, p)]) by (unfold ring_pts, Q; rewrite edges_snoc by discriminate; reflexivity).
  rewrite ER in F, N. apply Forall_app in N. destruct N as [N1 N2]. inversion N2 as [|? ? NL _]; subst. simpl in NL.
  assert (V0 : winv w [] (mkWalk [] [] out0) out0).
  { split; simpl; auto.
    - constructor.
    - intros q i. split; [discriminate|destruct i; discriminate].
    - exists []. rewrite app_nil_r. auto. }
  destruct (visits_ok w Q [] _ out0 V0) as [k [E V]].
  { simpl. apply fop_app in F. tauto. }
  { simpl. auto. }
  simpl app in V. destruct V as [ND H EN [rs [O [RS PM]]]]. simpl in EN. destruct EN as [E1 [E2 E3]].
  assert (EL : edges (ring_pts (wk_ls k)) = edges (wk_ls k) ++ [(last Q D, p)]).
  { unfold ring_pts. destruct (wk_ls k) as [|q l] eqn:EQ; [congruence|]. simpl in E2. subst q. rewrite edges_snoc by discriminate. rewrite E3. reflexivity. }
  assert (PM' : Permutation (edges (ring_pts Q)) (flat_map (fun r => edges (r_coords r)) rs ++ edges (ring_pts (wk_ls k)))).
  { rewrite ER, EL, app_assoc. apply Permutation_app_tail. auto. }
  destruct (from_coords_ok (wk_ls k) w ND) as [r [ER' [Rc [Rp Rl]]]].
  - destruct (wk_ls k) as [|a [|b l]]; [congruence| |simpl; lia]. exfalso. apply NL. unfold Q. rewrite <- E3. simpl in *. auto.
  - rewrite <- ER in F. eapply fop_perm in F; [|apply touch_sym|exact PM']. apply fop_app in F. tauto.
  - exists k, r, (rs ++ [r]). split; auto. split; auto. split; [rewrite O, app_assoc; reflexivity|].
    split; [apply Forall_app; split; auto; constructor; auto; split; auto; rewrite Rc; auto|].
    rewrite PM', flat_map_app. simpl. rewrite Rc, app_nil_r. reflexivity.
Qed.
