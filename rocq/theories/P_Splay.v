(** Proofs about the splay tree model. *)
Require Import List String Bool Arith Lia Sorted.
From Verif Require Import Base S_Map M_Splay.
Import ListNotations.

Ltac lnorm := repeat (progress (simpl; rewrite <- ?app_assoc)); try reflexivity.

Section Q0.
Context {K V : Type}.
Variable q : K -> res comparison.

Definition all_q (c : comparison) (l : list (K * V)) : Prop :=
  Forall (fun e => q (fst e) = Ok c) l.

(** The answers are defined and of the form Gt ... Gt [Eq] Lt ... Lt. *)
Definition qrel (e1 e2 : K * V) : Prop := q (fst e1) = Ok Gt \/ q (fst e2) = Ok Lt.
Definition qsorted (l : list (K * V)) : Prop :=
  Forall (fun e => exists c, q (fst e) = Ok c) l /\ StronglySorted qrel l.

Lemma ss_app : forall {A} (R : A -> A -> Prop) l1 l2,
  StronglySorted R (l1 ++ l2) <->
  StronglySorted R l1 /\ StronglySorted R l2 /\ (forall x y, In x l1 -> In y l2 -> R x y).
Proof.
  intros A R. induction l1 as [|a l1 IH]; intros l2; simpl.
  - split.
    + intros H. repeat split; [constructor|exact H|intros ? ? []].
    + intros (_ & H & _). exact H.
  - split.
    + intros H. apply StronglySorted_inv in H as [H1 H2].
      apply IH in H1 as (H11 & H12 & H13).
      rewrite Forall_app in H2. destruct H2 as [H2 H2'].
      repeat split.
      * constructor; assumption.
      * assumption.
      * intros x y [->|Hx] Hy; [|auto].
        rewrite Forall_forall in H2'. auto.
    + intros (H1 & H2 & H3). apply StronglySorted_inv in H1 as [H11 H12].
      constructor.
      * apply IH. repeat split; auto.
      * apply Forall_app. split; [assumption|]. apply Forall_forall. intros y Hy. apply H3; auto.
Qed.

Lemma qsorted_app : forall l1 l2, qsorted (l1 ++ l2) -> qsorted l1 /\ qsorted l2.
Proof.
  intros l1 l2 [H1 H2]. apply Forall_app in H1. apply ss_app in H2. unfold qsorted. tauto.
Qed.

Lemma qsorted_mid : forall l1 e l2, qsorted (l1 ++ e :: l2) ->
  (q (fst e) = Ok Eq -> all_q Gt l1 /\ all_q Lt l2) /\
  (q (fst e) = Ok Lt -> all_q Lt l2) /\
  (q (fst e) = Ok Gt -> all_q Gt l1).
Proof.
  intros l1 e l2 [H1 H2]. apply ss_app in H2 as (Ha & Hb & Hc).
  apply StronglySorted_inv in Hb as [Hb1 Hb2]. rewrite Forall_forall in Hb2.
  assert (HL : q (fst e) <> Ok Gt -> all_q Lt l2).
  { intros Hn. apply Forall_forall. intros x Hx. destruct (Hb2 x Hx) as [H|H]; [contradiction|exact H]. }
  assert (HG : q (fst e) <> Ok Lt -> all_q Gt l1).
  { intros Hn. apply Forall_forall. intros x Hx.
    destruct (Hc x e Hx (or_introl eq_refl)) as [H|H]; [exact H|contradiction]. }
  split; [intros E; split; [apply HG|apply HL]; rewrite E; discriminate|].
  split; intros E; [apply HL|apply HG]; rewrite E; discriminate.
Qed.

Lemma all_q_app : forall c l1 l2, all_q c (l1 ++ l2) <-> all_q c l1 /\ all_q c l2.
Proof. intros. apply Forall_app. Qed.
Lemma all_q_cons : forall c e l, all_q c (e :: l) <-> q (fst e) = Ok c /\ all_q c l.
Proof. intros. unfold all_q. rewrite Forall_cons_iff. tauto. Qed.
Lemma all_q_nil : forall c, all_q c [].
Proof. intros. constructor. Qed.

Lemma qsorted_ok : forall l1 e l2, qsorted (l1 ++ e :: l2) -> exists c, q (fst e) = Ok c.
Proof.
  intros l1 e l2 [H _]. apply Forall_app in H as [_ H]. inversion H; assumption.
Qed.

(** List searches by the answers of [q]. *)
Definition q_is (c : comparison) (e : K * V) : bool :=
  match q (fst e), c with
  | Ok Lt, Lt | Ok Eq, Eq | Ok Gt, Gt => true
  | _, _ => false
  end.

Lemma q_is_true : forall c e, q_is c e = true <-> q (fst e) = Ok c.
Proof.
  intros c e. unfold q_is. destruct (q (fst e)) as [[]| |], c; split; intro H; congruence || discriminate || reflexivity.
Qed.
Lemma q_is_false : forall c d e, q (fst e) = Ok d -> c <> d -> q_is c e = false.
Proof.
  intros c d e H Hn. destruct (q_is c e) eqn:E; [|reflexivity].
  apply q_is_true in E. congruence.
Qed.

Lemma find_all_other : forall c d l, all_q d l -> c <> d -> find (q_is c) l = None.
Proof.
  induction l as [|e l IH]; intros H Hn; [reflexivity|]. simpl.
  apply all_q_cons in H as [H1 H2]. rewrite (q_is_false c d); auto.
Qed.
Lemma find_all_hd : forall c l, all_q c l -> find (q_is c) l = hd_error l.
Proof.
  intros c [|e l] H; [reflexivity|]. simpl. apply all_q_cons in H as [H _].
  apply q_is_true in H. rewrite H. reflexivity.
Qed.
Lemma find_app_none : forall {A} (f : A -> bool) l1 l2, find f l1 = None -> find f (l1 ++ l2) = find f l2.
Proof.
  induction l1 as [|a l1 IH]; intros l2 H; [reflexivity|]. simpl in *.
  destruct (f a); [discriminate|auto].
Qed.

Lemma all_q_rev : forall c l, all_q c l -> all_q c (rev l).
Proof. intros c l H. unfold all_q in *. apply Forall_rev. exact H. Qed.

Lemma find_app_some : forall {A} (f : A -> bool) l1 l2 e, find f l1 = Some e -> find f (l1 ++ l2) = Some e.
Proof.
  induction l1 as [|a l1 IH]; intros l2 e H; [discriminate|]. simpl in *.
  destruct (f a); [assumption|auto].
Qed.

(** Decomposition of the entries around the query key. *)
Lemma qsorted_split : forall l, qsorted l ->
  exists b m a, l = b ++ m ++ a /\ all_q Gt b /\ all_q Eq m /\ all_q Lt a /\ List.length m <= 1.
Proof.
  induction l as [|e l IH]; intros Hs.
  - exists [], [], []. repeat split; try apply all_q_nil. simpl; lia.
  - assert (Hs' : qsorted l) by (change (e :: l) with ([e] ++ l) in Hs; apply qsorted_app in Hs; tauto).
    destruct (qsorted_ok [] e l Hs) as [c Hc].
    destruct (qsorted_mid [] e l Hs) as (HE & HL & HG).
    destruct c.
    + exists [], [e], l. destruct (HE Hc). repeat split; auto; try (apply all_q_nil).
      apply all_q_cons; split; [assumption|apply all_q_nil].
    + exists [], [], (e :: l). repeat split; try apply all_q_nil.
      * apply all_q_cons; auto.
      * simpl; lia.
    + destruct (IH Hs') as (b & m & a & -> & Hb & Hm & Ha & Hlen).
      exists (e :: b), m, a. repeat split; auto. apply all_q_cons; auto.
Qed.

End Q0.

Section P.
Context {K V : Type}.
Variable comparator : K -> K -> res comparison.
Notation tree := (tree K V).

Fixpoint entries (t : tree) : list (K * V) :=
  match t with
  | Leaf => []
  | Node l k v r => entries l ++ (k, v) :: entries r
  end.

Fixpoint ctxl (c : list (pending K V)) : list (K * V) :=
  match c with
  | [] => []
  | (lt, k, v) :: c' => ctxl c' ++ entries lt ++ [(k, v)]
  end.
Fixpoint ctxr (c : list (pending K V)) : list (K * V) :=
  match c with
  | [] => []
  | (rt, k, v) :: c' => (k, v) :: entries rt ++ ctxr c'
  end.

Lemma entries_close_left : forall c t, entries (close_left c t) = ctxl c ++ entries t.
Proof.
  induction c as [|[[lt k] v] c IH]; intros t; simpl; [reflexivity|].
  rewrite IH. simpl. rewrite <- !app_assoc. reflexivity.
Qed.
Lemma entries_close_right : forall c t, entries (close_right c t) = entries t ++ ctxr c.
Proof.
  induction c as [|[[lt k] v] c IH]; intros t; simpl; [rewrite app_nil_r; reflexivity|].
  rewrite IH. simpl. rewrite <- !app_assoc. reflexivity.
Qed.
Lemma entries_done : forall lc rc l k v r,
  entries (splay_done lc rc l k v r) = ctxl lc ++ entries (Node l k v r) ++ ctxr rc.
Proof.
  intros. unfold splay_done. simpl. rewrite entries_close_left, entries_close_right.
  rewrite <- !app_assoc. reflexivity.
Qed.

(** Induction following the recursion of [splay_loop]. *)
Fixpoint tsize (t : tree) : nat :=
  match t with Leaf => 0 | Node l _ _ r => S (tsize l + tsize r) end.

Lemma splay_loop_node : forall key (l : tree) k v r lc rc,
  splay_loop comparator key (Node l k v r) lc rc =
      let* o := comparator key k in
      match o with
      | Eq => Ok (splay_done lc rc l k v r)
      | Lt =>
          match l with
          | Leaf => Ok (splay_done lc rc Leaf k v r)
          | Node ll kl vl lr =>
              let* o2 := comparator key kl in
              if is_lt o2 then
                match ll with
                | Leaf => Ok (splay_done lc rc Leaf kl vl (Node lr k v r))
                | Node _ _ _ _ => splay_loop comparator key ll lc ((Node lr k v r, kl, vl) :: rc)
                end
              else splay_loop comparator key l lc ((r, k, v) :: rc)
          end
      | Gt =>
          match r with
          | Leaf => Ok (splay_done lc rc l k v Leaf)
          | Node rl kr vr rr =>
              let* o2 := comparator key kr in
              if is_gt o2 then
                match rr with
                | Leaf => Ok (splay_done lc rc (Node l k v rl) kr vr Leaf)
                | Node _ _ _ _ => splay_loop comparator key rr ((Node l k v rl, kr, vr) :: lc) rc
                end
              else splay_loop comparator key r ((l, k, v) :: lc) rc
          end
      end.
Proof. reflexivity. Qed.
Local Opaque splay_loop.

Lemma splay_loop_entries : forall n key t lc rc t',
  tsize t <= n ->
  splay_loop comparator key t lc rc = Ok t' ->
  entries t' = ctxl lc ++ entries t ++ ctxr rc.
Proof.
  induction n as [|n IH]; intros key t lc rc t' Hs H.
  - destruct t; simpl in *; [|lia]. Transparent splay_loop. discriminate H.
  - destruct t as [|l k v r]; [discriminate H|]. Opaque splay_loop.
    rewrite splay_loop_node in H.
    destruct (comparator key k) as [o| |] eqn:Eo; simpl in H; try discriminate.
    destruct o.
    + inversion H; subst. apply entries_done.
    + destruct l as [|ll kl vl lr].
      { inversion H; subst. rewrite entries_done. reflexivity. }
      destruct (comparator key kl) as [o2| |] eqn:Eo2; simpl in H; try discriminate.
      destruct (is_lt o2).
      * destruct ll as [|a b c d].
        { inversion H; subst. rewrite entries_done. simpl. reflexivity. }
        apply IH in H; [|simpl in *; lia]. rewrite H. lnorm.
      * apply IH in H; [|simpl in *; lia]. rewrite H. lnorm.
    + destruct r as [|rl kr vr rr].
      { inversion H; subst. rewrite entries_done. reflexivity. }
      destruct (comparator key kr) as [o2| |] eqn:Eo2; simpl in H; try discriminate.
      destruct (is_gt o2).
      * destruct rr as [|a b c d].
        { inversion H; subst. rewrite entries_done. lnorm. }
        apply IH in H; [|simpl in *; lia]. rewrite H. lnorm.
      * apply IH in H; [|simpl in *; lia]. rewrite H. lnorm.
Qed.

(** Every lookup keeps the entries, whatever the comparator does. *)
Lemma splay_entries : forall key t t', splay comparator key t = Ok t' -> entries t' = entries t.
Proof.
  intros key t t' H. unfold splay in H.
  apply (splay_loop_entries (tsize t)) in H; [|lia]. simpl in H. rewrite app_nil_r in H. exact H.
Qed.


(** * Behaviour when the answers are monotone along the in-order list *)
Section Q.
Variable q : K -> res comparison.
Notation all_q := (@all_q K V q).
Notation qsorted := (@qsorted K V q).
Notation q_is := (@q_is K V q).
Notation all_q_nil := (@all_q_nil K V q).
Notation all_q_app := (@all_q_app K V q).
Notation all_q_cons := (@all_q_cons K V q).
Notation all_q_rev := (@all_q_rev K V q).
Notation qsorted_app := (@qsorted_app K V q).
Notation qsorted_mid := (@qsorted_mid K V q).
Notation qsorted_ok := (@qsorted_ok K V q).
Notation q_is_true := (@q_is_true K V q).
Notation q_is_false := (@q_is_false K V q).
Notation find_all_other := (@find_all_other K V q).
Variable key : K.
Hypothesis Hq : forall k, comparator key k = q k.

Definition rooted (t : tree) : Prop :=
  match t with
  | Leaf => False
  | Node l k v r =>
      (q k = Ok Eq /\ all_q Gt (entries l) /\ all_q Lt (entries r)) \/
      (q k = Ok Gt /\ all_q Gt (entries l) /\ all_q Lt (entries r)) \/
      (q k = Ok Lt /\ all_q Gt (entries l) /\ all_q Lt (entries r))
  end.

Lemma rooted_done : forall lc rc l k v r c,
  q k = Ok c -> all_q Gt (ctxl lc) -> all_q Lt (ctxr rc) ->
  all_q Gt (entries l) -> all_q Lt (entries r) ->
  rooted (splay_done lc rc l k v r).
Proof.
  intros. unfold splay_done. simpl. rewrite entries_close_left, entries_close_right.
  rewrite !all_q_app. destruct c; tauto.
Qed.

Lemma splay_loop_rooted : forall n t lc rc,
  tsize t <= n -> t <> Leaf -> qsorted (entries t) ->
  all_q Gt (ctxl lc) -> all_q Lt (ctxr rc) ->
  exists t', splay_loop comparator key t lc rc = Ok t' /\ rooted t'.
Proof.
  induction n as [|n IH]; intros t lc rc Hs Hl Hsort Hlc Hrc.
  - destruct t; simpl in *; [congruence|lia].
  - destruct t as [|l k v r]; [congruence|]. rewrite splay_loop_node.
    simpl in Hsort.
    destruct (qsorted_ok _ _ _ Hsort) as [c Hc]. simpl in Hc.
    destruct (qsorted_mid _ _ _ Hsort) as (HE & HL & HG). simpl in HE, HL, HG.
    rewrite Hq, Hc. cbn [bind]. destruct c.
    + eexists; split; [reflexivity|]. destruct (HE Hc). eapply rooted_done; eauto.
    + destruct l as [|ll kl vl lr].
      { eexists; split; [reflexivity|]. eapply rooted_done; eauto. apply all_q_nil. }
      pose proof Hsort as Hsort0.
      apply qsorted_app in Hsort as [Hsl Hsr].
      simpl in Hsl.
      destruct (qsorted_ok _ _ _ Hsl) as [c2 Hc2]. simpl in Hc2.
      destruct (qsorted_mid _ _ _ Hsl) as (HE2 & HL2 & HG2). simpl in HE2, HL2, HG2.
      rewrite Hq, Hc2. cbn [bind].
      destruct (is_lt c2) eqn:E2.
      * destruct c2; try discriminate.
        assert (Hnew : all_q Lt (entries (Node lr k v r))).
        { simpl. rewrite all_q_app, all_q_cons. simpl. auto. }
        destruct ll as [|a b cc d].
        { eexists; split; [reflexivity|]. eapply rooted_done; eauto. apply all_q_nil. }
        apply IH.
        -- simpl in *; lia.
        -- discriminate.
        -- apply qsorted_app in Hsl as [Hsl _]. exact Hsl.
        -- exact Hlc.
        -- simpl. rewrite !all_q_cons, !all_q_app, all_q_cons. simpl. repeat split; auto.
      * apply IH.
        -- simpl in *; lia.
        -- discriminate.
        -- exact Hsl.
        -- exact Hlc.
        -- simpl. rewrite !all_q_cons, !all_q_app. simpl. repeat split; auto.
    + destruct r as [|rl kr vr rr].
      { eexists; split; [reflexivity|]. eapply rooted_done; eauto. apply all_q_nil. }
      pose proof Hsort as Hsort0.
      assert (Hsr : qsorted (entries (Node rl kr vr rr))).
      { change ((k, v) :: entries (Node rl kr vr rr)) with ([(k, v)] ++ entries (Node rl kr vr rr)) in Hsort.
        apply qsorted_app in Hsort as [_ Hsort]. apply qsorted_app in Hsort as [_ Hsort]. exact Hsort. }
      simpl in Hsr.
      destruct (qsorted_ok _ _ _ Hsr) as [c2 Hc2]. simpl in Hc2.
      destruct (qsorted_mid _ _ _ Hsr) as (HE2 & HL2 & HG2). simpl in HE2, HL2, HG2.
      rewrite Hq, Hc2. cbn [bind].
      destruct (is_gt c2) eqn:E2.
      * destruct c2; try discriminate.
        assert (Hnew : all_q Gt (entries (Node l k v rl))).
        { simpl. rewrite all_q_app, all_q_cons. simpl. auto. }
        destruct rr as [|a b cc d].
        { eexists; split; [reflexivity|]. eapply rooted_done; eauto. apply all_q_nil. }
        apply IH.
        -- simpl in *; lia.
        -- discriminate.
        -- change ((kr, vr) :: entries (Node a b cc d)) with ([(kr, vr)] ++ entries (Node a b cc d)) in Hsr.
           apply qsorted_app in Hsr as [_ Hsr]. apply qsorted_app in Hsr as [_ Hsr]. exact Hsr.
        -- simpl. simpl in Hnew. rewrite !all_q_app, all_q_cons in *. simpl in *.
           rewrite !all_q_cons. simpl. intuition. apply all_q_nil.
        -- exact Hrc.
      * apply IH.
        -- simpl in *; lia.
        -- discriminate.
        -- exact Hsr.
        -- simpl. rewrite !all_q_app, all_q_cons. simpl. repeat split; auto. apply all_q_nil.
        -- exact Hrc.
Qed.

Lemma splay_rooted : forall t, t <> Leaf -> qsorted (entries t) ->
  exists l k v r c, splay comparator key t = Ok (Node l k v r) /\
    entries t = entries l ++ (k, v) :: entries r /\
    comparator key k = Ok c /\ q k = Ok c /\
    all_q Gt (entries l) /\ all_q Lt (entries r).
Proof.
  intros t Hl Hs.
  destruct (splay_loop_rooted (tsize t) t [] [] (le_n _) Hl Hs (all_q_nil _) (all_q_nil _)) as (t' & H & Hr).
  pose proof (splay_entries key t t' H) as He.
  destruct t' as [|l k v r]; [destruct Hr|]. simpl in He, Hr.
  unfold splay. rewrite H.
  destruct Hr as [(? & ? & ?)|[(? & ? & ?)|(? & ? & ?)]];
    exists l, k, v, r; eexists; rewrite Hq; repeat split; eauto.
Qed.

(** [find]. *)
Lemma st_find_ok : forall s, qsorted (entries (root s)) ->
  exists t', st_find comparator s key = Ok (mkTree t' (size s), find (q_is Eq) (entries (root s)))
             /\ entries t' = entries (root s).
Proof.
  intros s Hs. unfold st_find. destruct (root s) as [|a b c d] eqn:E.
  - exists Leaf. split; [|reflexivity]. f_equal. f_equal. destruct s; simpl in *; congruence.
  - assert (Hn : Node a b c d <> Leaf) by discriminate.
    destruct (splay_rooted _ Hn Hs) as (l & k & v & r & o & H1 & H2 & H3 & H4 & H5 & H6).
    rewrite H1. cbn [bind]. rewrite H3. cbn [bind]. exists (Node l k v r). split; [|symmetry; exact H2].
    f_equal. f_equal. rewrite H2.
    rewrite find_app_none; [|apply (find_all_other Eq Gt); [assumption|discriminate]].
    simpl. destruct o; simpl.
    + assert (q_is Eq (k, v) = true) by (apply q_is_true; assumption). rewrite H. reflexivity.
    + rewrite (q_is_false Eq Lt); [|assumption|discriminate].
      symmetry. apply (find_all_other Eq Lt); [assumption|discriminate].
    + rewrite (q_is_false Eq Gt); [|assumption|discriminate].
      symmetry. apply (find_all_other Eq Lt); [assumption|discriminate].
Qed.

Lemma next_loop_ok : forall t o, qsorted (entries t) ->
  next_loop comparator key t o = Ok (match find (q_is Lt) (entries t) with Some e => Some e | None => o end).
Proof.
  induction t as [|l IHl k v r IHr]; intros o Hs; [reflexivity|]. simpl in *.
  destruct (qsorted_ok _ _ _ Hs) as [c Hc]. simpl in Hc.
  destruct (qsorted_mid _ _ _ Hs) as (HE & HL & HG). simpl in HE, HL, HG.
  assert (Hl : qsorted (entries l)) by (apply qsorted_app in Hs; tauto).
  assert (Hr : qsorted (entries r)).
  { change ((k, v) :: entries r) with ([(k, v)] ++ entries r) in Hs.
    apply qsorted_app in Hs as [_ Hs]. apply qsorted_app in Hs. tauto. }
  rewrite Hq, Hc. cbn [bind]. destruct c.
  - destruct (HE Hc) as [HA HB]. rewrite IHr; [|assumption].
    rewrite find_app_none; [|apply (find_all_other Lt Gt); [assumption|discriminate]].
    simpl. rewrite (q_is_false Lt Eq); [reflexivity|assumption|discriminate].
  - rewrite IHl; [|assumption]. f_equal.
    destruct (find (q_is Lt) (entries l)) as [e|] eqn:Ef.
    + clear -Ef. induction (entries l) as [|a ll IH]; simpl in *; [discriminate|].
      destruct (q_is Lt a); [congruence|auto].
    + rewrite find_app_none; [|assumption]. simpl.
      assert (q_is Lt (k, v) = true) by (apply q_is_true; assumption). rewrite H. reflexivity.
  - rewrite IHr; [|assumption].
    rewrite find_app_none; [|apply (find_all_other Lt Gt); [auto|discriminate]].
    simpl. rewrite (q_is_false Lt Gt); [reflexivity|assumption|discriminate].
Qed.

Lemma prev_loop_ok : forall t o, qsorted (entries t) ->
  prev_loop comparator key t o = Ok (match find (q_is Gt) (rev (entries t)) with Some e => Some e | None => o end).
Proof.
  induction t as [|l IHl k v r IHr]; intros o Hs; [reflexivity|]. simpl in *.
  destruct (qsorted_ok _ _ _ Hs) as [c Hc]. simpl in Hc.
  destruct (qsorted_mid _ _ _ Hs) as (HE & HL & HG). simpl in HE, HL, HG.
  assert (Hl : qsorted (entries l)) by (apply qsorted_app in Hs; tauto).
  assert (Hr : qsorted (entries r)).
  { change ((k, v) :: entries r) with ([(k, v)] ++ entries r) in Hs.
    apply qsorted_app in Hs as [_ Hs]. apply qsorted_app in Hs. tauto. }
  rewrite rev_app_distr. simpl. rewrite <- app_assoc.
  rewrite Hq, Hc. cbn [bind]. destruct c.
  - destruct (HE Hc) as [HA HB]. rewrite IHl; [|assumption].
    rewrite find_app_none; [|apply (find_all_other Gt Lt); [apply all_q_rev; assumption|discriminate]].
    simpl. rewrite (q_is_false Gt Eq); [reflexivity|assumption|discriminate].
  - rewrite IHl; [|assumption].
    rewrite find_app_none; [|apply (find_all_other Gt Lt); [apply all_q_rev; auto|discriminate]].
    simpl. rewrite (q_is_false Gt Lt); [reflexivity|assumption|discriminate].
  - rewrite IHr; [|assumption]. f_equal.
    destruct (find (q_is Gt) (rev (entries r))) as [e|] eqn:Ef.
    + rewrite (find_app_some _ _ _ _ Ef). reflexivity.
    + rewrite find_app_none; [|assumption]. simpl.
      assert (q_is Gt (k, v) = true) by (apply q_is_true; assumption). rewrite H. reflexivity.
Qed.

Lemma st_next_ok : forall s, qsorted (entries (root s)) ->
  exists t', st_next comparator s key = Ok (mkTree t' (size s), find (q_is Lt) (entries (root s)))
             /\ entries t' = entries (root s).
Proof.
  intros s Hs. unfold st_next. destruct (root s) as [|a b c d] eqn:E.
  - exists Leaf. split; [|reflexivity]. f_equal. f_equal. destruct s; simpl in *; congruence.
  - assert (Hn : Node a b c d <> Leaf) by discriminate.
    destruct (splay_rooted _ Hn Hs) as (l & k & v & r & o & H1 & H2 & H3 & H4 & H5 & H6).
    rewrite H1. cbn [bind]. rewrite next_loop_ok.
    + cbn [bind]. exists (Node l k v r). split; [|symmetry; exact H2].
      rewrite H2. simpl entries. destruct (find _ _); reflexivity.
    + simpl. rewrite <- H2. exact Hs.
Qed.

Lemma st_prev_ok : forall s, qsorted (entries (root s)) ->
  exists t', st_prev comparator s key = Ok (mkTree t' (size s), find (q_is Gt) (rev (entries (root s))))
             /\ entries t' = entries (root s).
Proof.
  intros s Hs. unfold st_prev. destruct (root s) as [|a b c d] eqn:E.
  - exists Leaf. split; [|reflexivity]. f_equal. f_equal. destruct s; simpl in *; congruence.
  - assert (Hn : Node a b c d <> Leaf) by discriminate.
    destruct (splay_rooted _ Hn Hs) as (l & k & v & r & o & H1 & H2 & H3 & H4 & H5 & H6).
    rewrite H1. cbn [bind]. rewrite prev_loop_ok.
    + cbn [bind]. exists (Node l k v r). split; [|symmetry; exact H2].
      rewrite H2. simpl entries. destruct (find _ _); reflexivity.
    + simpl. rewrite <- H2. exact Hs.
Qed.

Lemma st_insert_ok : forall s v, qsorted (entries (root s)) ->
  exists b m a t', entries (root s) = b ++ m ++ a /\ all_q Gt b /\ all_q Eq m /\ all_q Lt a /\
    match m with
    | [] => st_insert comparator s key v = Ok (mkTree t' (S (size s)), None) /\
            entries t' = b ++ (key, v) :: a
    | [(k', v')] => st_insert comparator s key v = Ok (mkTree t' (size s), Some v') /\
            entries t' = b ++ (k', v) :: a
    | _ => False
    end.
Proof.
  intros s v Hs. unfold st_insert. destruct (root s) as [|x0 x1 x2 x3] eqn:E.
  - exists [], [], []. eexists. repeat split; try apply all_q_nil.
  - assert (Hn : Node x0 x1 x2 x3 <> Leaf) by discriminate.
    destruct (splay_rooted _ Hn Hs) as (l & k & v0 & r & o & H1 & H2 & H3 & H4 & H5 & H6).
    rewrite H1. cbn [bind]. rewrite H3. cbn [bind]. rewrite H2. destruct o.
    + exists (entries l), [(k, v0)], (entries r). eexists.
      repeat split; auto; try reflexivity. apply all_q_cons; split; [assumption|apply all_q_nil].
    + exists (entries l), [], ((k, v0) :: entries r). eexists.
      repeat split; auto; try reflexivity; try (apply all_q_nil). apply all_q_cons; auto.
    + exists (entries l ++ [(k, v0)]), [], (entries r). eexists.
      repeat split; auto; try reflexivity; try apply all_q_nil.
      * rewrite <- app_assoc. reflexivity.
      * apply all_q_app. split; [assumption|]. apply all_q_cons; split; [assumption|apply all_q_nil].
Qed.

Lemma splay_all_gt : forall t, t <> Leaf -> all_q Gt (entries t) ->
  exists l k v, splay comparator key t = Ok (Node l k v Leaf) /\ entries t = entries l ++ [(k, v)].
Proof.
  intros t Hl Ha.
  assert (Hs : qsorted (entries t)).
  { split.
    - eapply Forall_impl; [|exact Ha]. intros e He. exists Gt. exact He.
    - clear Hl. induction (entries t) as [|e l IH]; [constructor|].
      apply all_q_cons in Ha as [H1 H2]. constructor; [auto|].
      apply Forall_forall. intros y Hy. left. exact H1. }
  destruct (splay_rooted _ Hl Hs) as (l & k & v & r & o & H1 & H2 & H3 & H4 & H5 & H6).
  rewrite H2 in Ha. apply all_q_app in Ha as [_ Ha]. apply all_q_cons in Ha as [_ Ha].
  assert (r = Leaf).
  { destruct r as [|ra rk rv rb]; [reflexivity|]. exfalso. simpl in *.
    apply all_q_app in Ha as [_ Ha]. apply all_q_cons in Ha as [Ha _].
    apply all_q_app in H6 as [_ H6]. apply all_q_cons in H6 as [H6 _]. simpl in *. congruence. }
  subst r. exists l, k, v. split; [exact H1|exact H2].
Qed.

Lemma st_remove_ok : forall s, qsorted (entries (root s)) -> size s = List.length (entries (root s)) ->
  exists b m a t', entries (root s) = b ++ m ++ a /\ all_q Gt b /\ all_q Eq m /\ all_q Lt a /\
    entries t' = b ++ a /\
    match m with
    | [] => st_remove comparator s key = Ok (mkTree t' (size s), None)
    | [(k', v')] => st_remove comparator s key = Ok (mkTree t' (pred (size s)), Some v')
    | _ => False
    end.
Proof.
  intros s Hs Hsz. unfold st_remove. destruct (root s) as [|x0 x1 x2 x3] eqn:E.
  - exists [], [], [], Leaf. repeat split; try apply all_q_nil. f_equal. f_equal.
    destruct s; simpl in *; congruence.
  - assert (Hn : Node x0 x1 x2 x3 <> Leaf) by discriminate.
    destruct (splay_rooted _ Hn Hs) as (l & k & v0 & r & o & H1 & H2 & H3 & H4 & H5 & H6).
    rewrite H1. cbn [bind]. rewrite H3. cbn [bind]. rewrite H2. destruct o; cbn [is_eq].
    + assert (Hd : usize_dec (size s) = Ok (pred (size s))).
      { rewrite Hsz, H2, app_length. simpl. rewrite Nat.add_succ_r. reflexivity. }
      destruct l as [|l0 l1 l2 l3].
      * cbn [bind]. rewrite Hd. cbn [bind].
        exists [], [(k, v0)], (entries r), r. repeat split; auto; try apply all_q_nil.
        apply all_q_cons; split; [assumption|apply all_q_nil].
      * assert (Hn2 : Node l0 l1 l2 l3 <> Leaf) by discriminate.
        destruct (splay_all_gt _ Hn2 H5) as (l' & k' & v' & Hsp & He).
        rewrite Hsp. cbn [bind]. rewrite Hd. cbn [bind].
        exists (entries (Node l0 l1 l2 l3)), [(k, v0)], (entries r), (Node l' k' v' r).
        repeat split; auto.
        -- apply all_q_cons; split; [assumption|apply all_q_nil].
        -- rewrite He. simpl. rewrite <- app_assoc. reflexivity.
    + exists (entries l), [], ((k, v0) :: entries r), (Node l k v0 r).
      repeat split; auto; try apply all_q_nil. apply all_q_cons; auto.
    + exists (entries l ++ [(k, v0)]), [], (entries r), (Node l k v0 r).
      repeat split; auto; try apply all_q_nil.
      * rewrite <- app_assoc. reflexivity.
      * apply all_q_app. split; [assumption|]. apply all_q_cons; split; [assumption|apply all_q_nil].
      * simpl. rewrite <- app_assoc. reflexivity.
Qed.

Lemma st_get_mut_ok : forall s f, qsorted (entries (root s)) ->
  exists b m a t', entries (root s) = b ++ m ++ a /\ all_q Gt b /\ all_q Eq m /\ all_q Lt a /\
    match m with
    | [] => st_get_mut comparator s key f = Ok (mkTree t' (size s), None) /\ entries t' = b ++ a
    | [(k', v')] => st_get_mut comparator s key f = Ok (mkTree t' (size s), Some v') /\
          entries t' = b ++ (k', f v') :: a
    | _ => False
    end.
Proof.
  intros s f Hs. unfold st_get_mut. destruct (root s) as [|x0 x1 x2 x3] eqn:E.
  - exists [], [], [], Leaf. repeat split; try apply all_q_nil. f_equal. f_equal.
    destruct s; simpl in *; congruence.
  - assert (Hn : Node x0 x1 x2 x3 <> Leaf) by discriminate.
    destruct (splay_rooted _ Hn Hs) as (l & k & v0 & r & o & H1 & H2 & H3 & H4 & H5 & H6).
    rewrite H1. cbn [bind]. rewrite H3. cbn [bind]. rewrite H2. destruct o; cbn [is_eq].
    + exists (entries l), [(k, v0)], (entries r). eexists.
      repeat split; auto; try reflexivity. apply all_q_cons; split; [assumption|apply all_q_nil].
    + exists (entries l), [], ((k, v0) :: entries r), (Node l k v0 r).
      repeat split; auto; try reflexivity; try (apply all_q_nil). apply all_q_cons; auto.
    + exists (entries l ++ [(k, v0)]), [], (entries r), (Node l k v0 r).
      repeat split; auto; try reflexivity; try apply all_q_nil.
      * rewrite <- app_assoc. reflexivity.
      * apply all_q_app. split; [assumption|]. apply all_q_cons; split; [assumption|apply all_q_nil].
      * simpl. rewrite <- app_assoc. reflexivity.
Qed.

End Q.
End P.
