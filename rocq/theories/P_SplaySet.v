(** SplaySet refines the sorted list; extra facts about the sorted map. *)
Require Import List String Bool Arith Lia Sorted.
From Verif Require Import Base S_Map M_Splay P_Splay P_SplayMap.
Import ListNotations.

Section SetRefine.
Context {T : Type}.
Variable cmp : T -> T -> comparison.
Hypothesis TO : total_order cmp.
Notation comparator := (fun a b => Ok (cmp a b)).

Definition up (t : T) : T * unit := (t, tt).
Notation ups := (map up).

Lemma up_find : forall t l, sm_find cmp t (ups l) = option_map up (set_find cmp t l).
Proof.
  intros t l. unfold sm_find, set_find. induction l as [|e l IH]; [reflexivity|]. simpl.
  destruct (key_eqb cmp t e); [reflexivity|exact IH].
Qed.
Lemma up_next : forall t l, sm_next cmp t (ups l) = option_map up (set_next cmp t l).
Proof.
  intros t l. unfold sm_next, set_next. induction l as [|e l IH]; [reflexivity|]. simpl.
  destruct (key_ltb cmp t e); [reflexivity|exact IH].
Qed.
Lemma up_prev : forall t l, sm_prev cmp t (ups l) = option_map up (set_prev cmp t l).
Proof.
  intros t l. unfold sm_prev, set_prev. rewrite <- map_rev. induction (rev l) as [|e l' IH]; [reflexivity|]. simpl.
  destruct (key_ltb cmp e t); [reflexivity|exact IH].
Qed.
Lemma up_insert : forall t l, sm_insert cmp t tt (ups l) = ups (set_insert cmp t l).
Proof.
  intros t l. induction l as [|e l IH]; [reflexivity|]. simpl.
  destruct (key_eqb cmp t e); [reflexivity|]. destruct (key_ltb cmp t e); [reflexivity|].
  simpl. rewrite IH. reflexivity.
Qed.
Lemma up_remove : forall t l, sm_remove cmp t (ups l) = ups (set_remove cmp t l).
Proof.
  intros t l. unfold sm_remove, set_remove. induction l as [|e l IH]; [reflexivity|]. simpl.
  destruct (negb (key_eqb cmp t e)); simpl; rewrite IH; reflexivity.
Qed.

Lemma set_step_ok : forall op s l, repr s (ups l) -> sm_sorted cmp (ups l) ->
  exists s', ss_step comparator s op = Ok (s', snd (set_step cmp l op)) /\
    repr s' (ups (fst (set_step cmp l op))) /\ sm_sorted cmp (ups (fst (set_step cmp l op))).
Proof.
  intros op s l Hr Hs.
  destruct op; simpl; unfold ss_insert, ss_remove, ss_contains, ss_find, ss_next, ss_prev, ss_min, ss_max, ss_len, ss_is_empty.
  - destruct (repr_insert cmp TO s _ t tt Hr Hs) as (s' & E & H). rewrite E. simpl.
    rewrite up_find. rewrite up_insert in H. exists s'. split; [|split; [assumption|]].
    + destruct (set_find cmp t l); reflexivity.
    + rewrite <- up_insert. apply sm_insert_sorted; assumption.
  - destruct (repr_remove cmp TO s _ t Hr Hs) as (s' & E & H). rewrite E. simpl.
    rewrite up_find. rewrite up_remove in H. exists s'. split; [|split; [assumption|]].
    + destruct (set_find cmp t l); reflexivity.
    + rewrite <- up_remove. apply sm_remove_sorted; assumption.
  - unfold st_contains, st_find_key. destruct (repr_find cmp TO s _ t Hr Hs) as (s' & E & H). rewrite E. simpl.
    rewrite up_find. exists s'. split; [|split; assumption]. destruct (set_find cmp t l); reflexivity.
  - unfold st_find_key. destruct (repr_find cmp TO s _ t Hr Hs) as (s' & E & H). rewrite E. simpl.
    rewrite up_find. exists s'. split; [|split; assumption]. destruct (set_find cmp t l); reflexivity.
  - destruct (repr_next cmp TO s _ t Hr Hs) as (s' & E & H). rewrite E. simpl.
    rewrite up_next. exists s'. split; [|split; assumption]. destruct (set_next cmp t l); reflexivity.
  - destruct (repr_prev cmp TO s _ t Hr Hs) as (s' & E & H). rewrite E. simpl.
    rewrite up_prev. exists s'. split; [|split; assumption]. destruct (set_prev cmp t l); reflexivity.
  - exists s. split; [|split; assumption]. unfold st_min. rewrite min_node_ok. destruct Hr as [-> _].
    destruct l; reflexivity.
  - exists s. split; [|split; assumption]. unfold st_max. rewrite max_node_ok. destruct Hr as [-> _].
    rewrite <- map_rev. destruct (rev l); reflexivity.
  - exists s. split; [|split; assumption]. unfold st_len. destruct Hr as [_ ->]. rewrite map_length. reflexivity.
  - exists s. split; [|split; assumption]. unfold ss_len, st_len. destruct Hr as [_ ->]. rewrite map_length. reflexivity.
  - assert (H : exists s', ss_extend comparator s items = Ok s' /\
      repr s' (ups (fold_left (fun l t => set_insert cmp t l) items l)) /\
      sm_sorted cmp (ups (fold_left (fun l t => set_insert cmp t l) items l))).
    { revert s l Hr Hs. induction items as [|t items IH]; intros s l Hr Hs; simpl.
      - exists s. split; [reflexivity|split; assumption].
      - destruct (repr_insert cmp TO s _ t tt Hr Hs) as (s' & E & H). unfold ss_extend. simpl.
        unfold ss_insert at 1. rewrite E. simpl.
        rewrite up_insert in H. apply IH; [assumption|].
        rewrite <- up_insert. apply sm_insert_sorted; assumption. }
    destruct H as (s' & E & H). rewrite E. simpl. eauto.
  - eexists. split; [reflexivity|]. split; [split; reflexivity|exact I].
Qed.

Lemma set_run_ok : forall ops s l, repr s (ups l) -> sm_sorted cmp (ups l) ->
  exists s', ss_run comparator s ops = Ok (s', snd (set_run cmp l ops)) /\
    repr s' (ups (fst (set_run cmp l ops))) /\ sm_sorted cmp (ups (fst (set_run cmp l ops))).
Proof.
  induction ops as [|op ops IH]; intros s l Hr Hs; simpl; [eauto|].
  destruct (set_step_ok op s l Hr Hs) as (s1 & E1 & H1 & Hs1). rewrite E1. simpl.
  destruct (set_step cmp l op) as [l1 a]. simpl in *.
  destruct (IH s1 l1 H1 Hs1) as (s2 & E2 & H2 & H3). rewrite E2. simpl.
  destruct (set_run cmp l1 ops) as [l2 r]. simpl in *. eauto.
Qed.

Lemma ss_iter_run_ok : forall calls (it : into_iter T unit) l,
  entries (cur it) = ups l -> remaining it = List.length l ->
  ss_iter_run it calls = Ok (deque_run l calls).
Proof.
  induction calls as [|[|] calls IH]; intros it l H Hn; simpl; [reflexivity| |].
  - unfold ss_iter_next.
    assert (Hl : remaining it = List.length (entries (cur it))) by (rewrite H, map_length; exact Hn).
    destruct (iter_next_ok it Hl) as (it' & H1 & H2 & H3). rewrite H1. simpl.
    rewrite (IH it' (tl l)).
    + simpl. rewrite H. unfold iter_size_hint. rewrite Hn. destruct l; reflexivity.
    + rewrite H2, H. destruct l; reflexivity.
    + rewrite H3, H2, H. destruct l; simpl; [reflexivity|]. apply map_length.
  - unfold ss_iter_next_back.
    assert (Hl : remaining it = List.length (entries (cur it))) by (rewrite H, map_length; exact Hn).
    destruct (iter_back_ok it Hl) as (it' & H1 & H2 & H3). rewrite H1. simpl.
    assert (Hr : removelast (ups l) = ups (removelast l)).
    { clear. induction l as [|a [|b l] IH]; [reflexivity|reflexivity|].
      change (removelast (up a :: ups (b :: l)) = up a :: ups (removelast (b :: l))).
      change (up a :: removelast (ups (b :: l)) = up a :: ups (removelast (b :: l))).
      rewrite IH. reflexivity. }
    rewrite (IH it' (removelast l)).
    + simpl. rewrite H, <- map_rev. unfold iter_size_hint. rewrite Hn. destruct (rev l); reflexivity.
    + rewrite H2, H. exact Hr.
    + rewrite H3, H2, H, Hr. apply map_length.
Qed.

Lemma ups_sorted : forall l, sm_sorted cmp (ups l) -> StronglySorted (fun a b => cmp a b = Lt) l.
Proof.
  induction l as [|a l IH]; intros H; [constructor|]. destruct H as [H1 H2]. constructor; [auto|].
  rewrite Forall_forall in *. intros x Hx. apply (H1 (up x)). apply in_map. exact Hx.
Qed.
End SetRefine.

Section More.
Context {K V : Type}.
Variable cmp : K -> K -> comparison.
Hypothesis TO : total_order cmp.
Notation comparator := (fun a b => Ok (cmp a b)).

Lemma sm_find_insert : forall k k' v (l : list (K * V)), sm_sorted cmp l ->
  option_map snd (sm_find cmp k (sm_insert cmp k' v l)) =
  if key_eqb cmp k k' then Some v else option_map snd (sm_find cmp k l).
Proof.
  intros k k' v l. unfold sm_find. induction l as [|[k1 v1] l IH]; intros Hs; simpl.
  - destruct (key_eqb cmp k k'); reflexivity.
  - destruct Hs as [H1 H2]. specialize (IH H2).
    destruct (key_eqb cmp k' k1) eqn:E1; simpl.
    + assert (Hk : key_eqb cmp k k1 = key_eqb cmp k k').
      { unfold key_eqb in *. destruct (cmp k' k1) eqn:E; try discriminate.
        assert (Ha : cmp k1 k' = Eq) by (rewrite (to_opp _ TO k' k1), E; reflexivity).
        destruct (cmp k k') eqn:Ek.
        - destruct (cmp k k1) eqn:Ek1; [reflexivity| |].
          + rewrite (cmp_lt_le cmp TO k k1 k') in Ek; [discriminate|assumption|rewrite Ha; discriminate].
          + exfalso. apply (to_trans _ TO k k' k1); [rewrite Ek|rewrite E|]; congruence.
        - rewrite (cmp_lt_le cmp TO k k' k1); [reflexivity|assumption|rewrite E; discriminate].
        - destruct (cmp k k1) eqn:Ek1; [|reflexivity|reflexivity]. exfalso.
          apply (to_trans _ TO k k1 k'); [rewrite Ek1|rewrite Ha|]; congruence. }
      rewrite Hk. destruct (key_eqb cmp k k'); reflexivity.
    + destruct (key_ltb cmp k' k1) eqn:E2; simpl.
      * destruct (key_eqb cmp k k'); reflexivity.
      * destruct (key_eqb cmp k k1) eqn:E3.
        -- destruct (key_eqb cmp k k') eqn:E4; [|reflexivity]. exfalso.
           unfold key_eqb, key_ltb in *.
           destruct (cmp k k1) eqn:A; try discriminate. destruct (cmp k k') eqn:B; try discriminate.
           assert (cmp k' k1 <> Gt).
           { apply (to_trans _ TO k' k k1); [rewrite (to_opp _ TO k k'), B|rewrite A]; discriminate. }
           destruct (cmp k' k1); congruence.
        -- exact IH.
Qed.

(** Value of the last item whose key equals [k]. *)
Definition last_value (k : K) (items : list (K * V)) : option V :=
  option_map snd (find (fun e => key_eqb cmp k (fst e)) (rev items)).

Lemma sm_find_extend : forall k items (l : list (K * V)), sm_sorted cmp l ->
  option_map snd (sm_find cmp k (fold_left (fun l kv => sm_insert cmp (fst kv) (snd kv) l) items l)) =
  match last_value k items with Some v => Some v | None => option_map snd (sm_find cmp k l) end.
Proof.
  intros k items. unfold last_value. induction items as [|[k1 v1] items IH]; intros l Hs; [reflexivity|].
  simpl. rewrite IH by (apply sm_insert_sorted; assumption).
  destruct (find _ (rev items)) as [e|] eqn:E.
  - rewrite (find_app_some _ _ _ _ E). reflexivity.
  - rewrite find_app_none by assumption. simpl.
    rewrite sm_find_insert by assumption. destruct (key_eqb cmp k k1); reflexivity.
Qed.

Lemma find_spec : forall {A} (f : A -> bool) l,
  match find f l with
  | Some e => exists l1 l2, l = l1 ++ e :: l2 /\ f e = true /\ Forall (fun x => f x = false) l1
  | None => Forall (fun x => f x = false) l
  end.
Proof.
  intros A f. induction l as [|a l IH]; simpl; [constructor|].
  destruct (f a) eqn:E.
  - exists [], l. auto.
  - destruct (find f l) as [e|].
    + destruct IH as (l1 & l2 & -> & H1 & H2). exists (a :: l1), l2. auto.
    + constructor; assumption.
Qed.

Lemma sm_next_spec : forall k (l : list (K * V)), sm_sorted cmp l ->
  match sm_next cmp k l with
  | Some e => In e l /\ cmp k (fst e) = Lt /\ (forall e', In e' l -> cmp k (fst e') = Lt -> cmp (fst e) (fst e') <> Gt)
  | None => forall e', In e' l -> cmp k (fst e') <> Lt
  end.
Proof.
  intros k l Hs. unfold sm_next.
  pose proof (find_spec (fun e => key_ltb cmp k (fst e)) l) as H. destruct (find _ l) as [e|].
  - destruct H as (l1 & l2 & -> & H1 & H2). apply sorted_app in Hs as (Ha & Hb & Hc). simpl in Hb. destruct Hb as [Hb1 Hb2].
    unfold key_ltb in *. split; [apply in_or_app; right; left; reflexivity|]. split.
    + destruct (cmp k (fst e)); congruence.
    + intros e' Hin Hlt. apply in_app_or in Hin as [Hin|[->|Hin]].
      * rewrite Forall_forall in H2. specialize (H2 e' Hin). simpl in H2. rewrite Hlt in H2. discriminate.
      * rewrite (cmp_refl cmp TO). discriminate.
      * rewrite Forall_forall in Hb1. rewrite (Hb1 e' Hin). discriminate.
  - intros e' Hin Hlt. rewrite Forall_forall in H. specialize (H e' Hin). unfold key_ltb in H. rewrite Hlt in H. discriminate.
Qed.

Lemma sm_prev_spec : forall k (l : list (K * V)), sm_sorted cmp l ->
  match sm_prev cmp k l with
  | Some e => In e l /\ cmp (fst e) k = Lt /\ (forall e', In e' l -> cmp (fst e') k = Lt -> cmp (fst e') (fst e) <> Gt)
  | None => forall e', In e' l -> cmp (fst e') k <> Lt
  end.
Proof.
  intros k l Hs. unfold sm_prev.
  pose proof (find_spec (fun e => key_ltb cmp (fst e) k) (rev l)) as H. destruct (find _ (rev l)) as [e|].
  - destruct H as (l1 & l2 & E & H1 & H2). apply (f_equal (@rev _)) in E. rewrite rev_involutive in E. subst l.
    rewrite rev_app_distr in *. simpl in *. rewrite <- app_assoc in *. simpl in *.
    apply sorted_app in Hs as (Ha & Hb & Hc). simpl in Hb. destruct Hb as [Hb1 Hb2].
    unfold key_ltb in *. split; [apply in_or_app; right; left; reflexivity|]. split.
    + destruct (cmp (fst e) k); congruence.
    + intros e' Hin Hlt. apply in_app_or in Hin as [Hin|[->|Hin]].
      * rewrite (Hc e' e Hin (or_introl eq_refl)). discriminate.
      * rewrite (cmp_refl cmp TO). discriminate.
      * exfalso. rewrite Forall_forall in H2. apply in_rev in Hin. specialize (H2 e' Hin). simpl in H2.
        rewrite Hlt in H2. discriminate.
  - intros e' Hin Hlt. rewrite Forall_forall in H. apply in_rev in Hin. specialize (H e' Hin).
    unfold key_ltb in H. rewrite Hlt in H. discriminate.
Qed.

Lemma sorted_in_unique : forall (l : list (K * V)) e e', sm_sorted cmp l -> In e l -> In e' l ->
  cmp (fst e) (fst e') = Eq -> e = e'.
Proof.
  induction l as [|a l IH]; intros e e' Hs Hi Hi' He; [destruct Hi|].
  destruct Hs as [H1 H2].
  rewrite Forall_forall in H1. destruct Hi as [->|Hi], Hi' as [->|Hi'].
  - reflexivity.
  - rewrite (H1 e' Hi') in He. discriminate.
  - rewrite (to_opp _ TO (fst e') (fst e)), (H1 e Hi) in He. discriminate.
  - auto.
Qed.

Lemma sm_find_spec : forall k (l : list (K * V)) e, sm_sorted cmp l ->
  sm_find cmp k l = Some e <-> In e l /\ cmp k (fst e) = Eq.
Proof.
  intros k l e Hs. unfold sm_find.
  pose proof (find_spec (fun e => key_eqb cmp k (fst e)) l) as H. unfold key_eqb in H.
  split.
  - intros E. unfold key_eqb in E. rewrite E in H. destruct H as (l1 & l2 & -> & H1 & H2).
    split; [apply in_or_app; right; left; reflexivity|]. destruct (cmp k (fst e)); congruence.
  - intros [Hin He]. unfold key_eqb. destruct (find _ l) as [e1|].
    + destruct H as (l1 & l2 & E & H1 & H2). f_equal.
      apply (sorted_in_unique l); auto.
      * rewrite E. apply in_or_app. right. left. reflexivity.
      * destruct (cmp k (fst e1)) eqn:E1; try discriminate.
        assert (Hle : cmp (fst e1) (fst e) <> Gt).
        { apply (to_trans _ TO _ k); [rewrite (to_opp _ TO k), E1; discriminate|rewrite He; discriminate]. }
        assert (Hge : cmp (fst e) (fst e1) <> Gt).
        { apply (to_trans _ TO _ k); [rewrite (to_opp _ TO k), He; discriminate|rewrite E1; discriminate]. }
        rewrite (to_opp _ TO (fst e1) (fst e)) in Hge.
        destruct (cmp (fst e1) (fst e)); simpl in *; congruence.
    + rewrite Forall_forall in H. specialize (H e Hin). simpl in H. rewrite He in H. discriminate.
Qed.
End More.
