Require Import List String Bool Arith Lia Permutation Sorted.
From Verif Require Import Base Scalar M_Events M_Geo M_LineOrPoint M_Slab S_Geo P_Geo M_MonoPoly S_Mono P_Mono M_Rings S_Rings.
Import ListNotations.
Local Open Scope list_scope.

(** ** Maps and lists *)
Lemma peqb_refl : forall p, peqb p p = true. Proof. intros. apply peqb_iff. reflexivity. Qed.
Lemma peqb_neq : forall p q, peqb p q = false <-> p <> q.
Proof. intros. rewrite <- (peqb_iff p q). destruct (peqb p q); split; congruence. Qed.
Lemma pt_dec : forall p q : pt, {p = q} + {p <> q}.
Proof. intros. destruct (peqb p q) eqn:E; [left; apply peqb_iff; auto|right; apply peqb_neq; auto]. Qed.
Lemma get_del : forall {V} (m : list (pt * V)) p q, map_get (map_del m p) q = if peqb p q then None else map_get m q.
Proof.
  intros V m p q. induction m as [|[r v] m IH]; simpl; [destruct (peqb p q); auto|].
  destruct (peqb p r) eqn:E; simpl.
  - rewrite IH. destruct (peqb p q) eqn:E'; auto. apply peqb_iff in E. subst r.
    replace (peqb q p) with false; auto. symmetry. apply peqb_neq. apply peqb_neq in E'. congruence.
  - rewrite IH. destruct (peqb q r) eqn:E'; auto. apply peqb_iff in E'. subst r. rewrite E. reflexivity.
Qed.
Lemma get_insert : forall {V} (m : list (pt * V)) p v q, map_get (map_insert m p v) q = if peqb p q then Some v else map_get m q.
Proof.
  intros. unfold map_insert. simpl. rewrite get_del. destruct (peqb p q) eqn:E.
  - apply peqb_iff in E. subst. rewrite peqb_refl. reflexivity.
  - replace (peqb q p) with false; auto. symmetry. apply peqb_neq. apply peqb_neq in E. congruence.
Qed.
Lemma set_length : forall {A} n (a : A) l, List.length (list_set n a l) = List.length l.
Proof. intros A n a l. revert n. induction l as [|x l IH]; intros [|n]; simpl; auto. Qed.
Lemma set_nth : forall {A} n (a : A) l k, nth_error (list_set n a l) k =
  if (Nat.eqb k n && (n <? List.length l))%nat then Some a else nth_error l k.
Proof.
  intros A n a l. revert n. induction l as [|x l IH]; intros [|n] [|k]; simpl; auto; try (rewrite andb_false_r; auto).
  rewrite IH. reflexivity.
Qed.
Lemma set_nth_eq : forall {A} n (a b : A) l, nth_error l n = Some b -> nth_error (list_set n a l) n = Some a.
Proof.
  intros A n a b l H. rewrite set_nth, Nat.eqb_refl. replace (n <? List.length l)%nat with true; auto.
  symmetry. apply Nat.ltb_lt. apply nth_error_Some. congruence.
Qed.
Lemma set_nth_ne : forall {A} n (a : A) l k, k <> n -> nth_error (list_set n a l) k = nth_error l k.
Proof. intros A n a l k H. rewrite set_nth. apply Nat.eqb_neq in H. rewrite H. reflexivity. Qed.

Lemma nth_ext' : forall {A} (l l' : list A), (forall i, nth_error l i = nth_error l' i) -> l = l'.
Proof.
  intros A l. induction l as [|a l IH]; intros [|b l'] H; auto.
  - specialize (H 0%nat). discriminate.
  - specialize (H 0%nat). discriminate.
  - pose proof (H 0%nat) as H0. injection H0 as ->. f_equal. apply IH. intros i. apply (H (S i)).
Qed.
(** One list of a list of lists grows. *)
Lemma concat_grow : forall {E} (L L' : list (list E)) k e, List.length L' = List.length L -> (k < List.length L)%nat ->
  (forall i, i <> k -> nth_error L' i = nth_error L i) ->
  (forall a b, nth_error L k = Some a -> nth_error L' k = Some b -> Permutation b (e :: a)) ->
  Permutation (List.concat L') (e :: List.concat L).
Proof.
  intros E L. induction L as [|a L IH]; intros [|a' L'] k e Hl Hk Ho Hs; simpl in *; try lia.
  destruct k as [|k].
  - rewrite (Hs a a' eq_refl eq_refl). simpl. constructor. apply Permutation_app_head.
    replace L' with L; [reflexivity|]. apply nth_ext'. intros i. symmetry. apply (Ho (S i)). lia.
  - assert (a' = a). { specialize (Ho 0%nat). simpl in Ho. injection Ho; auto. } subst a'.
    rewrite (IH L' k e); [rewrite <- Permutation_middle; reflexivity|lia|lia| |auto].
    intros i Hi. apply (Ho (S i)). lia.
Qed.

(** ** Ends of chains *)
Definition D : pt := mkC (Q2Qc 0) (Q2Qc 0).
Definition end_pt (c : chain) (f : bool) : pt := if f then hd D (ch_items c) else last (ch_items c) D.
Definition next (c : chain) (f : bool) : option link := if f then ch_nf c else ch_nb c.
(** The winding seen when leaving the chain over that end. *)
Definition out_w (c : chain) (f : bool) : winding := if f then winding_inverse (ch_winding c) else ch_winding c.
Definition orient (w : winding) (e : pt * pt) : pt * pt := match w with Ccw => e | Cw => reversed e end.
(** The end over which the chain is left when its region is to be on the left. *)
Definition exit (c : chain) : bool := match ch_winding c with Ccw => false | Cw => true end.
Lemma out_exit : forall c, out_w c (exit c) = Ccw.
Proof. intros c. unfold out_w, exit. destruct (ch_winding c); auto. Qed.
Lemma exit_of : forall c f, out_w c f = Ccw -> f = exit c.
Proof. intros c [|]; unfold out_w, exit; destruct (ch_winding c); simpl; congruence. Qed.
Lemma exit_not : forall c f, out_w c f = Cw -> f <> exit c.
Proof. intros c f H ->. rewrite out_exit in H. discriminate. Qed.
Lemma inv_inv : forall w, winding_inverse (winding_inverse w) = w. Proof. intros []; auto. Qed.
Lemma winding_eqb_iff : forall a b, winding_eqb a b = true <-> a = b.
Proof. intros [] []; simpl; split; congruence. Qed.
(** The directed edges of a chain, with the edge of its link at the exit. *)
Definition link_edge (cs : list chain) (c : chain) : list (pt * pt) :=
  match next c (exit c) with
  | None => []
  | Some b =>
      match nth_error cs (k_idx b) with
      | Some d => [(end_pt c (exit c), end_pt d (k_front b))]
      | None => []
      end
  end.
Definition contrib (cs : list chain) (c : chain) : list (pt * pt) :=
  match ch_items c with
  | [] => []
  | _ => map (orient (ch_winding c)) (edges (ch_items c)) ++ link_edge cs c
  end.

Record inv (r : rings) (es : list (lop * winding)) : Prop := {
  i_items : forall i c, nth_error (rg_chains r) i = Some c -> (2 <= List.length (ch_items c))%nat;
  i_open : forall p a, map_get (rg_ends r) p = Some a <->
    exists c, nth_error (rg_chains r) (k_idx a) = Some c /\ end_pt c (k_front a) = p /\ next c (k_front a) = None;
  i_sym : forall i f c b, nth_error (rg_chains r) i = Some c -> next c f = Some b ->
    exists d, nth_error (rg_chains r) (k_idx b) = Some d /\ next d (k_front b) = Some (mkLink i f) /\
      out_w c f = winding_inverse (out_w d (k_front b));
  i_pend : forall p, match map_get (rg_ends r) p with
    | None => Nat.even (List.length (turns p es)) = true
    | Some a => exists c l, nth_error (rg_chains r) (k_idx a) = Some c /\ Nat.even (List.length l) = true /\
        turns p es = l ++ [winding_eqb (out_w c (k_front a)) Cw]
    end;
  i_perm : Permutation (map directed es) (List.concat (map (contrib (rg_chains r)) (rg_chains r)))
}.

Lemma pt_eqb_iff : forall p q, pt_eqb p q = true <-> p = q.
Proof.
  intros [a b] [c d]. unfold pt_eqb. simpl. rewrite andb_true_iff, !qeqb_iff. split; [intros [-> ->]; auto|intros H; inversion H; auto].
Qed.
Lemma inv_start : inv rings_default [].
Proof.
  split; simpl.
  - intros [|i] c H; discriminate.
  - intros p a. split; [discriminate|]. intros [c [H _]]. destruct (k_idx a); discriminate.
  - intros [|i] f c b H; discriminate.
  - auto.
  - constructor.
Qed.

Lemma turns_app : forall p es es', turns p (es ++ es') = turns p es ++ turns p es'.
Proof. intros. unfold turns. rewrite flat_map_app. reflexivity. Qed.
(** The new edge at its two ends, and elsewhere. *)
Lemma turns_new : forall p a b w, a <> b ->
  turns p [(Line a b, w)] =
    if peqb a p then [winding_eqb w Ccw] else if peqb b p then [winding_eqb w Cw] else [].
Proof.
  intros p a b w H. unfold turns. simpl. rewrite app_nil_r.
  assert (E : forall x, pt_eqb x p = peqb x p).
  { intros x. destruct (peqb x p) eqn:E; [apply peqb_iff in E; apply pt_eqb_iff; auto|].
    destruct (pt_eqb x p) eqn:E'; auto. apply pt_eqb_iff in E'. apply peqb_neq in E. congruence. }
  unfold directed. simpl. destruct w; simpl; rewrite !E; destruct (peqb a p) eqn:Ea, (peqb b p) eqn:Eb; auto;
  apply peqb_iff in Ea; apply peqb_iff in Eb; congruence.
Qed.
Lemma alternate_last : forall l a b, Nat.even (List.length l) = true -> alternate (l ++ [a; b]) -> a <> b.
Proof.
  intros l. remember (List.length l) as n. revert l Heqn. induction n as [n IH] using lt_wf_ind.
  intros [|x [|y l]] -> a b E A; simpl in *.
  - tauto.
  - discriminate.
  - destruct A as [_ A]. apply (IH (List.length l)) with (l := l); auto.
Qed.

(** ** Adding a point to a chain *)
Definition pushed (c : chain) (f : bool) (q : pt) : chain :=
  mkChain (ch_winding c) (if f then q :: ch_items c else ch_items c ++ [q]) (ch_nf c) (ch_nb c).
Lemma push_link_ok : forall cs l q c w, nth_error cs (k_idx l) = Some c -> next c (k_front l) = None ->
  out_w c (k_front l) = w -> push_link cs l q w = Ok (list_set (k_idx l) (pushed c (k_front l) q) cs).
Proof.
  intros cs [i f] q c w H N W. simpl in *. unfold push_link, chain_at. simpl. rewrite H. simpl. destruct f; simpl in *.
  - unfold push_front. rewrite N. simpl. rewrite <- W, inv_inv. destruct c as [[] ? ? ?]; simpl in *; subst; reflexivity.
  - unfold push_back. rewrite N. simpl. rewrite <- W. destruct c as [[] ? ? ?]; simpl in *; subst; reflexivity.
Qed.
Lemma pushed_far : forall c f q g, ch_items c <> [] -> g <> f -> end_pt (pushed c f q) g = end_pt c g.
Proof.
  intros c f q g N G. unfold end_pt, pushed. simpl. destruct g, f; try congruence.
  - destruct (ch_items c); [congruence|reflexivity].
  - destruct (ch_items c); [congruence|reflexivity].
Qed.
Lemma pushed_near : forall c f q, end_pt (pushed c f q) f = q.
Proof. intros c [|] q; unfold end_pt, pushed; simpl; auto. apply last_last. Qed.
Lemma edges_snoc : forall l q, l <> [] -> edges (l ++ [q]) = edges l ++ [(last l D, q)].
Proof.
  intros l q. induction l as [|a [|b l] IH]; intros N; [congruence|reflexivity|].
  change ((a :: b :: l) ++ [q]) with (a :: b :: (l ++ [q])). rewrite edges_cons. change (b :: (l ++ [q])) with ((b :: l) ++ [q]).
  rewrite IH by discriminate. reflexivity.
Qed.
Lemma orient_inv : forall w p q, orient w (p, q) = orient (winding_inverse w) (q, p).
Proof. intros [] p q; reflexivity. Qed.
Lemma pushed_edges : forall c f q, ch_items c <> [] ->
  Permutation (map (orient (ch_winding c)) (edges (ch_items (pushed c f q))))
              (orient (out_w c f) (end_pt c f, q) :: map (orient (ch_winding c)) (edges (ch_items c))).
Proof.
  intros c f q N. destruct f; unfold pushed, out_w, end_pt; simpl.
  - destruct (ch_items c) as [|x l]; [congruence|]. rewrite edges_cons. simpl. rewrite <- orient_inv. reflexivity.
  - rewrite edges_snoc by auto. rewrite map_app. simpl. symmetry. apply Permutation_cons_append.
Qed.
Lemma contrib_frame : forall cs cs' c,
  (forall b, next c (exit c) = Some b -> exists d d', nth_error cs (k_idx b) = Some d /\ nth_error cs' (k_idx b) = Some d' /\
     end_pt d' (k_front b) = end_pt d (k_front b)) -> contrib cs' c = contrib cs c.
Proof.
  intros cs cs' c H. unfold contrib. destruct (ch_items c) as [|x l]; auto. f_equal. unfold link_edge.
  destruct (next c (exit c)) as [b|]; auto. destruct (H b eq_refl) as [d [d' [-> [-> ->]]]]. reflexivity.
Qed.
Lemma items_ne : forall c, (2 <= List.length (ch_items c))%nat -> ch_items c <> [].
Proof. intros c H E. rewrite E in H. simpl in H. lia. Qed.

Lemma remove_ok : forall {V} (m : list (pt * V)) p v msg, map_get m p = Some v -> map_remove m p msg = Ok (map_del m p).
Proof. intros V m p v msg H. unfold map_remove. rewrite H. reflexivity. Qed.
(** The winding of the chain found at an end of the new edge. *)
Lemma at_first : forall r es a b w i, inv r es -> a <> b -> map_get (rg_ends r) a = Some i ->
  alternate (turns a (es ++ [(Line a b, w)])) ->
  exists c, nth_error (rg_chains r) (k_idx i) = Some c /\ end_pt c (k_front i) = a /\ next c (k_front i) = None /\ out_w c (k_front i) = w.
Proof.
  intros r es a b w i I N G A. destruct (proj1 (i_open _ _ I a i) G) as [c [Hc [He Hn]]]. exists c. repeat split; auto.
  pose proof (i_pend _ _ I a) as P. rewrite G in P. destruct P as [c' [l [Hc' [El Et]]]]. rewrite Hc in Hc'. injection Hc' as <-.
  rewrite turns_app, turns_new, Et, peqb_refl, <- app_assoc in A by auto. simpl in A.
  apply alternate_last in A; auto. destruct (out_w c (k_front i)), w; simpl in A; congruence.
Qed.
Lemma at_second : forall r es a b w i, inv r es -> a <> b -> map_get (rg_ends r) b = Some i ->
  alternate (turns b (es ++ [(Line a b, w)])) ->
  exists c, nth_error (rg_chains r) (k_idx i) = Some c /\ end_pt c (k_front i) = b /\ next c (k_front i) = None /\
    out_w c (k_front i) = winding_inverse w.
Proof.
  intros r es a b w i I N G A. destruct (proj1 (i_open _ _ I b i) G) as [c [Hc [He Hn]]]. exists c. repeat split; auto.
  pose proof (i_pend _ _ I b) as P. rewrite G in P. destruct P as [c' [l [Hc' [El Et]]]]. rewrite Hc in Hc'. injection Hc' as <-.
  rewrite turns_app, turns_new, Et, peqb_refl, <- app_assoc in A by auto.
  replace (peqb a b) with false in A by (symmetry; apply peqb_neq; auto). simpl in A.
  apply alternate_last in A; auto. destruct (out_w c (k_front i)), w; simpl in A; simpl; congruence.
Qed.

(** Pushing [q] at the end [i], at the point [p], over the edge [e]. *)
Lemma push_inv : forall r es e i c p q, inv r es -> p <> q -> nth_error (rg_chains r) (k_idx i) = Some c ->
  end_pt c (k_front i) = p -> next c (k_front i) = None -> map_get (rg_ends r) q = None ->
  directed e = orient (out_w c (k_front i)) (p, q) ->
  (forall x, turns x [e] = if peqb p x then [winding_eqb (out_w c (k_front i)) Ccw] else if peqb q x then [winding_eqb (out_w c (k_front i)) Cw] else []) ->
  inv (mkRings (list_set (k_idx i) (pushed c (k_front i) q) (rg_chains r)) (map_insert (map_del (rg_ends r) p) q i)) (es ++ [e]).
Proof.
  intros r es e i c p q I N Hc He Hn Hq De Te. set (c' := pushed c (k_front i) q).
  assert (IC : ch_items c <> []) by (apply items_ne; apply (i_items _ _ I _ _ Hc)).
  assert (GP : map_get (rg_ends r) p = Some i) by (apply (i_open _ _ I); eauto).
  assert (NX : forall f, next c' f = next c f) by (intros []; reflexivity).
  assert (OW : forall f, out_w c' f = out_w c f) by (intros []; reflexivity).
  assert (AT : forall k d, nth_error (list_set (k_idx i) c' (rg_chains r)) k = Some d ->
    (k = k_idx i /\ d = c') \/ (k <> k_idx i /\ nth_error (rg_chains r) k = Some d)).
  { intros k d H. destruct (Nat.eq_dec k (k_idx i)) as [->|K]; [left|right].
    - rewrite (set_nth_eq _ _ c) in H; auto. split; congruence.
    - rewrite set_nth_ne in H; auto. }
  assert (OLD : forall k d, nth_error (rg_chains r) k = Some d -> exists d', nth_error (list_set (k_idx i) c' (rg_chains r)) k = Some d' /\
    (forall f, next d' f = next d f) /\ (forall f, out_w d' f = out_w d f) /\
    (forall f, mkLink k f <> i -> end_pt d' f = end_pt d f)).
  { intros k d H. destruct (Nat.eq_dec k (k_idx i)) as [->|K].
    - exists c'. rewrite (set_nth_eq _ _ c); auto. rewrite Hc in H. injection H as <-. repeat split; auto.
      intros f Hf. apply pushed_far; auto. intros ->. apply Hf. destruct i; reflexivity.
    - exists d. rewrite set_nth_ne; auto. }
  assert (NEW : forall k d', nth_error (list_set (k_idx i) c' (rg_chains r)) k = Some d' -> exists d, nth_error (rg_chains r) k = Some d /\
    (forall f, next d' f = next d f) /\ (forall f, out_w d' f = out_w d f) /\
    (forall f, mkLink k f <> i -> end_pt d' f = end_pt d f)).
  { intros k d' H. destruct (nth_error (rg_chains r) k) as [d|] eqn:Hd.
    - destruct (OLD k d Hd) as [d1 [H1 H2]]. rewrite H in H1. injection H1 as <-. exists d. auto.
    - exfalso. destruct (AT k d' H) as [[-> _]|[_ H']]; congruence. }
  split; cbn [rg_chains rg_ends].
  - intros k d H. destruct (AT k d H) as [[-> ->]|[_ H']]; [|apply (i_items _ _ I _ _ H')].
    pose proof (i_items _ _ I _ _ Hc). unfold c', pushed. simpl. destruct (k_front i); simpl; [lia|rewrite app_length; simpl; lia].
  - intros x a. rewrite get_insert, get_del. destruct (peqb q x) eqn:Eq.
    + apply peqb_iff in Eq. subst x. split.
      * intros H. injection H as <-. exists c'. rewrite (set_nth_eq _ _ c); auto. split; auto. split; [apply pushed_near|]. rewrite NX; auto.
      * intros [d' [H1 [H2 H3]]]. f_equal. destruct (NEW _ _ H1) as [d [K1 [K2 [_ K4]]]].
        destruct (Nat.eq_dec (k_idx a) (k_idx i)) as [K|K]; [destruct (bool_dec (k_front a) (k_front i)) as [K'|K']|].
        -- destruct a, i; simpl in *; congruence.
        -- exfalso. rewrite K4 in H2 by (destruct a, i; simpl in *; congruence). rewrite K2 in H3.
           assert (X : map_get (rg_ends r) q = Some a) by (apply (i_open _ _ I); eauto). congruence.
        -- exfalso. rewrite K4 in H2 by (destruct a, i; simpl in *; congruence). rewrite K2 in H3.
           assert (X : map_get (rg_ends r) q = Some a) by (apply (i_open _ _ I); eauto). congruence.
    + apply peqb_neq in Eq. destruct (peqb p x) eqn:Ep.
      * apply peqb_iff in Ep. subst x. split; [discriminate|]. intros [d' [H1 [H2 H3]]]. exfalso.
        destruct (NEW _ _ H1) as [d [K1 [K2 [_ K4]]]].
        assert (L : a = i \/ a <> i).
        { destruct a as [ai af], i as [ii fi]. destruct (Nat.eq_dec ai ii), (bool_dec af fi); subst; auto; right; congruence. }
        destruct L as [->|L].
        -- rewrite (set_nth_eq _ _ c) in H1; auto. injection H1 as <-. unfold c' in H2. rewrite pushed_near in H2. congruence.
        -- rewrite K4 in H2 by (destruct a; auto). rewrite K2 in H3.
           assert (X : map_get (rg_ends r) p = Some a) by (apply (i_open _ _ I); eauto). congruence.
      * apply peqb_neq in Ep. rewrite (i_open _ _ I x a). split.
        -- intros [d [K1 [K2 K3]]]. destruct (OLD _ _ K1) as [d' [H1 [H2 [_ H4]]]]. exists d'. split; auto. rewrite H2. split; auto.
           rewrite H4; auto. intros L. apply Ep. destruct a; simpl in *. subst i. simpl in *. congruence.
        -- intros [d' [H1 [H2 H3]]]. destruct (NEW _ _ H1) as [d [K1 [K2 [_ K4]]]]. exists d. split; auto. rewrite <- K2. split; auto.
           rewrite <- K4; auto. intros L. destruct a as [ai af]. simpl in *. subst i. simpl in *.
           rewrite (set_nth_eq _ _ c) in H1; auto. injection H1 as <-. unfold c' in H2. rewrite pushed_near in H2. congruence.
  - intros k f d' b H1 H2. destruct (NEW _ _ H1) as [d [K1 [K2 [K3 _]]]]. rewrite K2 in H2.
    destruct (i_sym _ _ I k f d b K1 H2) as [d2 [L1 [L2 L3]]]. destruct (OLD _ _ L1) as [d2' [M1 [M2 [M3 _]]]].
    exists d2'. rewrite M2, M3, K3. auto.
  - intros x. rewrite get_insert, get_del, turns_app, Te. pose proof (i_pend _ _ I x) as P.
    destruct (peqb q x) eqn:Eq.
    + apply peqb_iff in Eq. subst x. replace (peqb p q) with false by (symmetry; apply peqb_neq; auto).
      rewrite Hq in P. exists c', (turns q es). rewrite (set_nth_eq _ _ c) by auto. auto.
    + destruct (peqb p x) eqn:Ep.
      * apply peqb_iff in Ep. subst x. rewrite GP in P. destruct P as [d [l [_ [El ->]]]]. rewrite !app_length. simpl.
        rewrite <- Nat.add_assoc, Nat.even_add, El. reflexivity.
      * rewrite app_nil_r. destruct (map_get (rg_ends r) x) as [a|]; auto. destruct P as [d [l [H1 [H2 H3]]]].
        destruct (OLD _ _ H1) as [d' [K1 [_ [K3 _]]]]. exists d', l. rewrite K3. auto.
  - rewrite map_app. simpl. rewrite (Permutation_app_comm _ [_]). simpl.
    symmetry. etransitivity; [|apply Permutation_cons; [reflexivity|symmetry; apply (i_perm _ _ I)]].
    set (cs' := list_set (k_idx i) c' (rg_chains r)) in *.
    assert (FR : forall k d, nth_error (rg_chains r) k = Some d -> contrib cs' d = contrib (rg_chains r) d).
    { intros k d H. apply contrib_frame. intros b Hb. destruct (i_sym _ _ I _ _ _ _ H Hb) as [d2 [L1 [L2 _]]].
      destruct (OLD _ _ L1) as [d2' [M1 [_ [_ M4]]]]. exists d2, d2'. split; auto. split; auto. apply M4.
      intros X. rewrite <- X in Hn, Hc. simpl in Hn, Hc. rewrite L1 in Hc. injection Hc as ->. congruence. }
    apply (concat_grow _ _ (k_idx i)).
    + rewrite !map_length. unfold cs'. apply set_length.
    + rewrite map_length. apply nth_error_Some. congruence.
    + intros k K. rewrite !nth_error_map. unfold cs' at 2. rewrite set_nth_ne by auto.
      destruct (nth_error (rg_chains r) k) as [d|] eqn:Hd; auto. simpl. f_equal. apply (FR k d Hd).
    + intros A B HA HB. rewrite nth_error_map in HA, HB. unfold cs' in HB at 2. rewrite (set_nth_eq _ _ c) in HB by auto. rewrite Hc in HA.
      simpl in HA, HB. injection HA as <-. injection HB as <-. rewrite De, <- He.
      assert (LE : link_edge cs' c' = link_edge (rg_chains r) c).
      { unfold link_edge. replace (exit c') with (exit c) by reflexivity. rewrite NX.
        destruct (next c (exit c)) as [b|] eqn:Hb; auto.
        assert (XF : exit c <> k_front i) by congruence.
        destruct (i_sym _ _ I _ _ _ _ Hc Hb) as [d2 [L1 [L2 _]]]. destruct (OLD _ _ L1) as [d2' [M1 [_ [_ M4]]]].
        rewrite M1, L1. rewrite M4. 2:{ intros X. rewrite <- X in Hn, Hc. simpl in Hn, Hc. rewrite L1 in Hc. injection Hc as ->. congruence. }
        unfold c'. rewrite pushed_far; auto. }
      unfold contrib at 1. destruct (ch_items c') as [|y l] eqn:Ei.
      { exfalso. unfold c', pushed in Ei. simpl in Ei. destruct (k_front i); [discriminate|destruct (ch_items c); discriminate]. }
      rewrite <- Ei. change (ch_winding c') with (ch_winding c). pose proof (pushed_edges c (k_front i) q IC) as PE. fold c' in PE. rewrite PE, LE.
      unfold contrib. destruct (ch_items c); [congruence|]. reflexivity.
Qed.

(** ** Joining two ends *)
Definition link_dec : forall a b : link, {a = b} + {a <> b}.
Proof. decide equality; [apply bool_dec|apply Nat.eq_dec]. Qed.
Definition linked (c : chain) (f : bool) (b : link) : chain :=
  if f then mkChain (ch_winding c) (ch_items c) (Some b) (ch_nb c) else mkChain (ch_winding c) (ch_items c) (ch_nf c) (Some b).
Lemma linked_next : forall c f b g, next (linked c f b) g = if bool_dec g f then Some b else next c g.
Proof. intros c [] b []; reflexivity. Qed.
Lemma linked_items : forall c f b, ch_items (linked c f b) = ch_items c. Proof. intros c []; reflexivity. Qed.
Lemma linked_winding : forall c f b, ch_winding (linked c f b) = ch_winding c. Proof. intros c []; reflexivity. Qed.
Lemma link_chains_ok : forall cs i j c d w, i <> j -> nth_error cs (k_idx i) = Some c -> next c (k_front i) = None -> out_w c (k_front i) = w ->
  nth_error cs (k_idx j) = Some d -> next d (k_front j) = None -> out_w d (k_front j) = winding_inverse w ->
  exists cs', link_chains cs i j w = Ok cs' /\ List.length cs' = List.length cs /\
    forall k x, nth_error cs k = Some x -> exists x', nth_error cs' k = Some x' /\ ch_items x' = ch_items x /\ ch_winding x' = ch_winding x /\
      forall f, next x' f = if link_dec (mkLink k f) i then Some j else if link_dec (mkLink k f) j then Some i else next x f.
Proof.
  intros cs i j c d w N Hc Nc Wc Hd Nd Wd.
  set (cs1 := list_set (k_idx i) (linked c (k_front i) j) cs).
  assert (J : exists d1, nth_error cs1 (k_idx j) = Some d1 /\ next d1 (k_front j) = None /\ ch_items d1 = ch_items d /\ ch_winding d1 = ch_winding d /\
    d1 = if Nat.eq_dec (k_idx j) (k_idx i) then linked c (k_front i) j else d).
  { unfold cs1. destruct (Nat.eq_dec (k_idx j) (k_idx i)) as [E|E].
    - exists (linked c (k_front i) j). rewrite E, (set_nth_eq _ _ c) by auto. rewrite E, Hc in Hd. injection Hd as <-.
      rewrite linked_next, linked_items, linked_winding. split; auto. split; [|auto]. destruct (bool_dec (k_front j) (k_front i)); auto.
      exfalso. apply N. destruct i, j; simpl in *; congruence.
    - exists d. rewrite set_nth_ne by auto. auto. }
  destruct J as [d1 [Hd1 [Nd1 [Id1 [Wd1 Ed1]]]]].
  exists (list_set (k_idx j) (linked d1 (k_front j) i) cs1). split; [|split].
  - unfold link_chains, chain_at. rewrite Hc. cbn [bind].
    transitivity (let* d' := chain_at cs1 (k_idx j) in if k_front j then
        let* d'' := link_front d' i in
        let* _ := check (winding_eqb (ch_winding d'') w) "rings.rs:171 debug_assert_eq" in
        Ok (list_set (k_idx j) d'' cs1)
      else
        let* d'' := link_back d' i in
        let* _ := check (winding_eqb (ch_winding d'') (winding_inverse w)) "rings.rs:174 debug_assert_eq" in
        Ok (list_set (k_idx j) d'' cs1)).
    + unfold cs1. destruct (k_front i); simpl in *.
      * unfold link_front. rewrite Nc. simpl. rewrite <- Wc, inv_inv. destruct c as [[] ? ? ?]; simpl in *; subst; reflexivity.
      * unfold link_back. rewrite Nc. simpl. rewrite <- Wc. destruct c as [[] ? ? ?]; simpl in *; subst; reflexivity.
    + unfold chain_at. rewrite Hd1. cbn [bind]. destruct (k_front j); simpl in *.
      * unfold link_front. rewrite Nd1. simpl. rewrite Wd1. destruct (ch_winding d), w; simpl in *; try discriminate; reflexivity.
      * unfold link_back. rewrite Nd1. simpl. rewrite Wd1, Wd. destruct (ch_winding d), w; simpl in *; try discriminate; reflexivity.
  - unfold cs1. rewrite !set_length. reflexivity.
  - intros k x Hx. destruct (Nat.eq_dec k (k_idx j)) as [->|Kj].
    + rewrite Hd in Hx. injection Hx as <-. exists (linked d1 (k_front j) i). rewrite (set_nth_eq _ _ d1) by auto.
      rewrite linked_items, linked_winding. do 3 (split; auto). intros f. rewrite linked_next.
      destruct (bool_dec f (k_front j)) as [->|Fj].
      * destruct (link_dec _ i) as [<-|_]; [exfalso; apply N; destruct j; reflexivity|].
        destruct (link_dec _ j) as [_|X]; auto. exfalso. apply X. destruct j; reflexivity.
      * destruct (link_dec _ j) as [X|_]; [exfalso; apply Fj; rewrite <- X; reflexivity|].
        subst d1. destruct (Nat.eq_dec (k_idx j) (k_idx i)) as [E|E].
        -- rewrite linked_next. rewrite E, Hc in Hd. injection Hd as <-. destruct (bool_dec f (k_front i)) as [->|Fi].
           ++ destruct (link_dec _ i) as [_|X]; auto. exfalso. apply X. rewrite E. destruct i; reflexivity.
           ++ destruct (link_dec _ i) as [X|_]; auto. exfalso. apply Fi. rewrite <- X. reflexivity.
        -- destruct (link_dec _ i) as [X|_]; auto. exfalso. apply E. rewrite <- X. reflexivity.
    + destruct (Nat.eq_dec k (k_idx i)) as [->|Ki].
      * rewrite Hc in Hx. injection Hx as <-. exists (linked c (k_front i) j). rewrite set_nth_ne by auto. unfold cs1.
        rewrite (set_nth_eq _ _ c) by auto. rewrite linked_items, linked_winding. do 3 (split; auto). intros f. rewrite linked_next.
        destruct (link_dec _ j) as [X|_]; [exfalso; apply Kj; rewrite <- X; reflexivity|].
        destruct (bool_dec f (k_front i)) as [->|Fi].
        -- destruct (link_dec _ i) as [_|X]; auto. exfalso. apply X. destruct i; reflexivity.
        -- destruct (link_dec _ i) as [X|_]; auto. exfalso. apply Fi. rewrite <- X. reflexivity.
      * exists x. rewrite set_nth_ne by auto. unfold cs1. rewrite set_nth_ne by auto. do 3 (split; auto). intros f.
        destruct (link_dec _ i) as [X|_]; [exfalso; apply Ki; rewrite <- X; reflexivity|].
        destruct (link_dec _ j) as [X|_]; [exfalso; apply Kj; rewrite <- X; reflexivity|]. reflexivity.
Qed.

Lemma link_concat : forall cs cs' a b ca cb, List.length cs' = List.length cs ->
  (forall k x, nth_error cs k = Some x -> exists x', nth_error cs' k = Some x' /\ ch_items x' = ch_items x /\ ch_winding x' = ch_winding x /\
      forall f, next x' f = if link_dec (mkLink k f) a then Some b else if link_dec (mkLink k f) b then Some a else next x f) ->
  (forall i c, nth_error cs i = Some c -> ch_items c <> []) ->
  nth_error cs (k_idx a) = Some ca -> next ca (k_front a) = None -> out_w ca (k_front a) = Ccw ->
  nth_error cs (k_idx b) = Some cb -> next cb (k_front b) = None -> out_w cb (k_front b) = Cw ->
  Permutation (List.concat (map (contrib cs') cs')) ((end_pt ca (k_front a), end_pt cb (k_front b)) :: List.concat (map (contrib cs) cs)).
Proof.
  intros cs cs' a b ca cb L H NE Ha Na Wa Hb Nb Wb.
  assert (EP : forall x x' f, ch_items x' = ch_items x -> end_pt x' f = end_pt x f) by (intros x x' f E; unfold end_pt; rewrite E; auto).
  assert (EX : forall x x', ch_winding x' = ch_winding x -> exit x' = exit x) by (intros x x' E; unfold exit; rewrite E; auto).
  apply (concat_grow _ _ (k_idx a)).
  - rewrite !map_length. auto.
  - rewrite map_length. apply nth_error_Some. congruence.
  - intros k K. rewrite !nth_error_map. destruct (nth_error cs k) as [x|] eqn:Hx.
    2:{ apply nth_error_None in Hx. rewrite <- L in Hx. apply nth_error_None in Hx. rewrite Hx. auto. }
    destruct (H k x Hx) as [x' [Hx' [I [W X]]]]. rewrite Hx'. simpl. f_equal. unfold contrib. rewrite I.
    destruct (ch_items x) eqn:Ei; auto. rewrite W. f_equal. unfold link_edge. rewrite (EX x x' W), X.
    destruct (link_dec _ a) as [E|_]; [exfalso; apply K; rewrite <- E; auto|].
    destruct (link_dec _ b) as [E|_].
    { exfalso. rewrite <- E in Hb, Wb. simpl in Hb, Wb. rewrite Hx in Hb. injection Hb as ->. rewrite out_exit in Wb. discriminate. }
    destruct (next x (exit x)) as [y|]; auto. destruct (nth_error cs (k_idx y)) as [d|] eqn:Hd.
    2:{ apply nth_error_None in Hd. rewrite <- L in Hd. apply nth_error_None in Hd. rewrite Hd. auto. }
    destruct (H _ d Hd) as [d' [Hd' [Id _]]]. rewrite Hd'. rewrite (EP x x'), (EP d d' _ Id) by congruence. reflexivity.
  - intros A B HA HB. rewrite nth_error_map in HA, HB. destruct (H _ _ Ha) as [x' [Hx' [I [W X]]]]. rewrite Ha in HA. rewrite Hx' in HB.
    simpl in HA, HB. injection HA as <-. injection HB as <-. unfold contrib. rewrite I. pose proof (NE _ _ Ha) as N.
    destruct (ch_items ca) eqn:Ei; [congruence|]. rewrite W. unfold link_edge. rewrite (EX ca x' W), X, <- (exit_of ca (k_front a) Wa).
    rewrite Na. destruct (link_dec _ a) as [_|E]; [|exfalso; apply E; destruct a; auto].
    destruct (H _ _ Hb) as [d' [Hd' [Id _]]]. rewrite Hd', (EP cb d' _ Id), app_nil_r, (EP ca x' _) by congruence.
    symmetry. apply Permutation_cons_append.
Qed.
Lemma link_inv : forall r cs' es e i j c d p q w, inv r es -> p <> q -> i <> j ->
  nth_error (rg_chains r) (k_idx i) = Some c -> end_pt c (k_front i) = p -> next c (k_front i) = None -> out_w c (k_front i) = w ->
  nth_error (rg_chains r) (k_idx j) = Some d -> end_pt d (k_front j) = q -> next d (k_front j) = None -> out_w d (k_front j) = winding_inverse w ->
  List.length cs' = List.length (rg_chains r) ->
  (forall k x, nth_error (rg_chains r) k = Some x -> exists x', nth_error cs' k = Some x' /\ ch_items x' = ch_items x /\ ch_winding x' = ch_winding x /\
      forall f, next x' f = if link_dec (mkLink k f) i then Some j else if link_dec (mkLink k f) j then Some i else next x f) ->
  directed e = orient w (p, q) ->
  (forall x, turns x [e] = if peqb p x then [winding_eqb w Ccw] else if peqb q x then [winding_eqb w Cw] else []) ->
  inv (mkRings cs' (map_del (map_del (rg_ends r) p) q)) (es ++ [e]).
Proof.
  intros r cs' es e i j c d p q w I NPQ NIJ Hc Ec Nc Wc Hd Ed Nd Wd L H De Te.
  assert (GP : map_get (rg_ends r) p = Some i) by (apply (i_open _ _ I); eauto).
  assert (GQ : map_get (rg_ends r) q = Some j) by (apply (i_open _ _ I); eauto).
  assert (H' : forall k x', nth_error cs' k = Some x' -> exists x, nth_error (rg_chains r) k = Some x /\
    (forall f, end_pt x' f = end_pt x f) /\ (forall f, out_w x' f = out_w x f) /\ ch_items x' = ch_items x /\
      forall f, next x' f = if link_dec (mkLink k f) i then Some j else if link_dec (mkLink k f) j then Some i else next x f).
  { intros k x' Hx'. destruct (nth_error (rg_chains r) k) as [x|] eqn:Hx.
    - destruct (H k x Hx) as [x1 [K1 [K2 [K3 K4]]]]. rewrite Hx' in K1. injection K1 as <-. exists x.
      split; auto. split; [intros f; unfold end_pt; rewrite K2; auto|]. split; [intros f; unfold out_w; rewrite K3; auto|]. auto.
    - exfalso. apply nth_error_None in Hx. rewrite <- L in Hx. apply nth_error_None in Hx. congruence. }
  assert (ET : forall a : link, mkLink (k_idx a) (k_front a) = a) by (intros []; auto).
  split; cbn [rg_chains rg_ends].
  - intros k x' Hx'. destruct (H' k x' Hx') as [x [Hx [_ [_ [-> _]]]]]. apply (i_items _ _ I _ _ Hx).
  - intros x a. rewrite !get_del. split.
    + destruct (peqb q x) eqn:Eq; [discriminate|]. destruct (peqb p x) eqn:Ep; [discriminate|]. intros G.
      apply peqb_neq in Eq. apply peqb_neq in Ep. apply (i_open _ _ I) in G. destruct G as [y [Hy [Ey Ny]]].
      destruct (H _ _ Hy) as [y' [Hy' [K2 [_ K4]]]]. exists y'. split; auto. split; [unfold end_pt in *; rewrite K2; auto|].
      rewrite K4, ET. destruct (link_dec a i) as [->|_]; [congruence|]. destruct (link_dec a j) as [->|_]; [congruence|]. auto.
    + intros [y' [Hy' [Ey' Ny']]]. destruct (H' _ _ Hy') as [y [Hy [Ey [_ [_ Ny]]]]]. rewrite Ny, ET in Ny'. rewrite Ey in Ey'.
      destruct (link_dec a i) as [_|Ai]; [discriminate|]. destruct (link_dec a j) as [_|Aj]; [discriminate|].
      assert (G : map_get (rg_ends r) x = Some a) by (apply (i_open _ _ I); eauto).
      replace (peqb q x) with false by (symmetry; apply peqb_neq; congruence).
      replace (peqb p x) with false by (symmetry; apply peqb_neq; congruence). auto.
  - intros k f x' b Hx' Nx'. destruct (H' _ _ Hx') as [x [Hx [_ [Wx [_ Nx]]]]]. rewrite Nx in Nx'.
    destruct (link_dec _ i) as [Ei|Ei].
    { injection Nx' as <-. destruct (H _ _ Hd) as [d' [Hd' [_ [Wd' Nd']]]]. exists d'. split; auto. split.
      - rewrite Nd', ET. destruct (link_dec j i) as [E|_]; [congruence|]. destruct (link_dec j j) as [_|E]; congruence.
      - rewrite Wx. replace (out_w d' (k_front j)) with (out_w d (k_front j)) by (unfold out_w; rewrite Wd'; auto). rewrite Wd, inv_inv.
        subst i. simpl in *. rewrite Hx in Hc. injection Hc as ->. auto. }
    destruct (link_dec _ j) as [Ej|Ej].
    { injection Nx' as <-. destruct (H _ _ Hc) as [c' [Hc' [_ [Wc' Nc']]]]. exists c'. split; auto. split.
      - rewrite Nc', ET. destruct (link_dec i i) as [_|E]; congruence.
      - rewrite Wx. replace (out_w c' (k_front i)) with (out_w c (k_front i)) by (unfold out_w; rewrite Wc'; auto). rewrite Wc.
        subst j. simpl in *. rewrite Hx in Hd. injection Hd as ->. auto. }
    destruct (i_sym _ _ I _ _ _ _ Hx Nx') as [y [Hy [Ny Wy]]]. destruct (H _ _ Hy) as [y' [Hy' [_ [Wy' Ny']]]]. exists y'. split; auto. split.
    + rewrite Ny', ET. destruct (link_dec b i) as [->|_]; [congruence|]. destruct (link_dec b j) as [->|_]; [congruence|]. auto.
    + rewrite Wx, Wy. unfold out_w. rewrite Wy'. auto.
  - intros x. rewrite !get_del, turns_app, Te. pose proof (i_pend _ _ I x) as P.
    destruct (peqb q x) eqn:Eq.
    + apply peqb_iff in Eq. subst x. replace (peqb p q) with false by (symmetry; apply peqb_neq; auto).
      rewrite GQ in P. destruct P as [y [l [_ [El ->]]]]. rewrite !app_length. simpl. rewrite <- Nat.add_assoc, Nat.even_add, El. reflexivity.
    + destruct (peqb p x) eqn:Ep.
      * apply peqb_iff in Ep. subst x. rewrite GP in P. destruct P as [y [l [_ [El ->]]]]. rewrite !app_length. simpl. rewrite <- Nat.add_assoc, Nat.even_add, El. reflexivity.
      * rewrite app_nil_r. destruct (map_get (rg_ends r) x) as [a|]; auto. destruct P as [y [l [H1 [H2 H3]]]].
        destruct (H _ _ H1) as [y' [K1 [_ [K3 _]]]]. exists y', l. unfold out_w in *. rewrite K3. auto.
  - rewrite map_app. simpl. rewrite (Permutation_app_comm _ [_]). simpl.
    symmetry. etransitivity; [|apply Permutation_cons; [reflexivity|symmetry; apply (i_perm _ _ I)]]. rewrite De.
    assert (NE : forall k x, nth_error (rg_chains r) k = Some x -> ch_items x <> []) by (intros k x Hx; apply items_ne; apply (i_items _ _ I _ _ Hx)).
    destruct w; simpl in *; unfold reversed; simpl.
    + rewrite <- Ec, <- Ed. apply link_concat; auto. intros k x Hx. destruct (H k x Hx) as [x' [K1 [K2 [K3 K4]]]]. exists x'.
      do 3 (split; auto). intros f. rewrite K4. destruct (link_dec _ i) as [E1|E1], (link_dec _ j) as [E2|E2]; congruence.
    + rewrite <- Ec, <- Ed. apply link_concat; auto.
Qed.
Lemma new_inv : forall r es a b w, inv r es -> a <> b -> map_get (rg_ends r) a = None -> map_get (rg_ends r) b = None ->
  inv (mkRings (rg_chains r ++ [chain_new a b w])
        (map_insert (map_insert (rg_ends r) a (mkLink (List.length (rg_chains r)) true)) b (mkLink (List.length (rg_chains r)) false)))
      (es ++ [(Line a b, w)]).
Proof.
  intros r es a b w I N Ga Gb. set (n := List.length (rg_chains r)). set (c := chain_new a b w).
  assert (AT : forall k x, nth_error (rg_chains r ++ [c]) k = Some x -> (k = n /\ x = c) \/ (k <> n /\ nth_error (rg_chains r) k = Some x)).
  { intros k x H. destruct (Nat.lt_ge_cases k n) as [K|K].
    - right. rewrite nth_error_app1 in H by auto. split; [lia|auto].
    - left. rewrite nth_error_app2 in H by auto. fold n in H. destruct (k - n)%nat as [|[|m]] eqn:E; simpl in H; try discriminate. split; [lia|congruence]. }
  assert (ATn : nth_error (rg_chains r ++ [c]) n = Some c).
  { rewrite nth_error_app2 by (unfold n; lia). replace (n - _)%nat with 0%nat by (unfold n; lia). reflexivity. }
  assert (OLD : forall k x, nth_error (rg_chains r) k = Some x -> nth_error (rg_chains r ++ [c]) k = Some x).
  { intros k x H. rewrite nth_error_app1; auto. apply nth_error_Some. congruence. }
  split; cbn [rg_chains rg_ends].
  - intros k x H. destruct (AT k x H) as [[_ ->]|[_ H']]; [simpl; lia|apply (i_items _ _ I _ _ H')].
  - intros x l. rewrite !get_insert. split.
    + destruct (peqb b x) eqn:Eb; [apply peqb_iff in Eb; subst x; intros E; injection E as <-; exists c; auto|].
      destruct (peqb a x) eqn:Ea; [apply peqb_iff in Ea; subst x; intros E; injection E as <-; exists c; auto|].
      intros G. apply (i_open _ _ I) in G. destruct G as [d [H1 H2]]. eauto.
    + intros [d [H1 [H2 H3]]]. destruct (AT _ _ H1) as [[E1 ->]|[E1 H1']].
      * destruct l as [k [|]]; simpl in *; subst k.
        -- unfold end_pt in H2. simpl in H2. subst x. rewrite peqb_refl. replace (peqb b a) with false by (symmetry; apply peqb_neq; auto). auto.
        -- unfold end_pt in H2. simpl in H2. subst x. rewrite peqb_refl. auto.
      * assert (G : map_get (rg_ends r) x = Some l) by (apply (i_open _ _ I); eauto).
        replace (peqb b x) with false by (symmetry; apply peqb_neq; congruence).
        replace (peqb a x) with false by (symmetry; apply peqb_neq; congruence). auto.
  - intros k f x y H1 H2. destruct (AT _ _ H1) as [[-> ->]|[E1 H1']].
    + destruct f; discriminate.
    + destruct (i_sym _ _ I _ _ _ _ H1' H2) as [d [K1 K2]]. exists d. auto.
  - intros x. rewrite !get_insert, turns_app, turns_new by auto. pose proof (i_pend _ _ I x) as P.
    destruct (peqb b x) eqn:Eb.
    + apply peqb_iff in Eb. subst x. replace (peqb a b) with false by (symmetry; apply peqb_neq; auto).
      rewrite Gb in P. exists c, (turns b es). split; auto.
    + destruct (peqb a x) eqn:Ea.
      * apply peqb_iff in Ea. subst x. rewrite Ga in P. exists c, (turns a es). split; auto. split; auto. simpl. destruct w; reflexivity.
      * rewrite app_nil_r. destruct (map_get (rg_ends r) x) as [l|]; auto. destruct P as [d [k [H1 H2]]]. exists d, k. auto.
  - rewrite !map_app, concat_app. apply Permutation_app.
    + replace (map (contrib (rg_chains r ++ [c])) (rg_chains r)) with (map (contrib (rg_chains r)) (rg_chains r)); [apply (i_perm _ _ I)|].
      apply map_ext_in. intros d Hd. symmetry. apply contrib_frame. apply In_nth_error in Hd. destruct Hd as [k Hk]. intros y Hy.
      destruct (i_sym _ _ I _ _ _ _ Hk Hy) as [z [K1 _]]. exists z, z. auto.
    + simpl. unfold contrib, link_edge. simpl. unfold directed, exit. simpl. destruct w; simpl; reflexivity.
Qed.
Lemma add_edge_inv : forall r es a b w, inv r es -> a <> b ->
  (forall p, alternate (turns p (es ++ [(Line a b, w)]))) ->
  exists r', add_edge r (Line a b) w = Ok r' /\ inv r' (es ++ [(Line a b, w)]).
Proof.
  intros r es a b w I N A. unfold add_edge. cbn [lop_first lop_second].
  destruct (map_get (rg_ends r) a) as [i|] eqn:Ga, (map_get (rg_ends r) b) as [j|] eqn:Gb.
  - destruct (at_first _ _ _ _ _ _ I N Ga (A a)) as [c [Hc [Ec [Nc Wc]]]].
    destruct (at_second _ _ _ _ _ _ I N Gb (A b)) as [d [Hd [Ed [Nd Wd]]]].
    assert (NIJ : i <> j) by congruence.
    destruct (link_chains_ok _ _ _ _ _ _ NIJ Hc Nc Wc Hd Nd Wd) as [cs' [-> [L H]]]. cbn [bind].
    rewrite (remove_ok _ _ _ _ Ga). cbn [bind]. rewrite (remove_ok _ _ j).
    2:{ rewrite get_del. replace (peqb a b) with false by (symmetry; apply peqb_neq; auto). auto. } cbn [bind].
    eexists. split; [reflexivity|]. apply link_inv with (i := i) (j := j) (c := c) (d := d) (w := w); auto.
    intros x. rewrite turns_new by auto. reflexivity.
  - destruct (at_first _ _ _ _ _ _ I N Ga (A a)) as [c [Hc [Ec [Nc Wc]]]].
    rewrite (push_link_ok _ _ _ c) by auto. cbn [bind]. rewrite (remove_ok _ _ _ _ Ga). cbn [bind].
    eexists. split; [reflexivity|]. apply push_inv; auto.
    + rewrite Wc. destruct w; reflexivity.
    + intros x. rewrite turns_new, Wc by auto. reflexivity.
  - destruct (at_second _ _ _ _ _ _ I N Gb (A b)) as [d [Hd [Ed [Nd Wd]]]].
    rewrite (push_link_ok _ _ _ d) by auto. cbn [bind]. rewrite (remove_ok _ _ _ _ Gb). cbn [bind].
    eexists. split; [reflexivity|]. apply push_inv; auto.
    + rewrite Wd. destruct w; reflexivity.
    + intros x. rewrite turns_new, Wd by auto. destruct (peqb a x) eqn:E1, (peqb b x) eqn:E2; auto.
      * apply peqb_iff in E1. apply peqb_iff in E2. congruence.
      * destruct w; reflexivity.
      * destruct w; reflexivity.
  - eexists. split; [reflexivity|]. apply new_inv; auto.
Qed.
