(** Properties C01-C08 (src/splay). *)
Require Import List String Bool Arith Lia Sorted.
From Verif Require Import Base S_Map M_Splay P_Splay P_SplayMap P_SplaySet.
Import ListNotations.

(** Comparator closures that never panic. *)
Notation pure cmp := (fun a b => Ok (cmp a b)).

(** A state reached by some history of calls from the empty tree. *)
Definition reached {K V} (cmp : K -> K -> comparison) (s : splay_tree K V) : Prop :=
  exists ops ans, st_run (pure cmp) st_new ops = Ok (s, ans).

Lemma reached_sorted : forall {K V} cmp (TO : total_order cmp) (s : splay_tree K V), reached cmp s ->
  exists l, st_collect s = Ok l /\ repr s l /\ sm_sorted cmp l.
Proof.
  intros K V cmp TO s H. destruct (reachable_repr cmp TO s H) as (l & Hr & Hs).
  exists l. split; [apply repr_collect; assumption|auto].
Qed.

(** C01: every history of calls gets the answers of a sorted association list,
    never panics, and leaves the content of that list. *)
Theorem C01_splay_tree_is_a_sorted_map :
  forall (K V : Type) (cmp : K -> K -> comparison), total_order cmp ->
  forall ops : list (@map_op K V),
  exists s, st_run (pure cmp) st_new ops = Ok (s, snd (sm_run cmp [] ops)) /\
            st_collect s = Ok (fst (sm_run cmp [] ops)).
Proof.
  intros K V cmp TO ops.
  destruct (repr_run cmp TO ops st_new [] repr_new I) as (s & E & Hr & Hs).
  exists s. split; [exact E|apply repr_collect; exact Hr].
Qed.

(** C02: a lookup that returns does not change the content or the length, for
    any comparator whatsoever and any tree. *)
Theorem C02_lookups_are_pure :
  forall (K V : Type) (comparator : K -> K -> res comparison) (s s' : splay_tree K V) op a,
  is_lookup op -> st_step comparator s op = Ok (s', a) ->
  st_collect s' = st_collect s /\ st_len s' = st_len s.
Proof. intros K V c s s' op a. apply lookup_pure. Qed.

(** C03: [next]/[prev] return the closest strictly larger/smaller entry. *)
Theorem C03_next_is_strict_successor :
  forall (K V : Type) (cmp : K -> K -> comparison), total_order cmp ->
  forall (s : splay_tree K V) k, reached cmp s ->
  exists l s' o, st_collect s = Ok l /\ st_next (pure cmp) s k = Ok (s', o) /\ reached cmp s' /\
    match o with
    | Some e => In e l /\ cmp k (fst e) = Lt /\
                (forall e', In e' l -> cmp k (fst e') = Lt -> cmp (fst e) (fst e') <> Gt)
    | None => forall e', In e' l -> cmp k (fst e') <> Lt
    end.
Proof.
  intros K V cmp TO s k H. destruct (reached_sorted cmp TO s H) as (l & Hc & Hr & Hs).
  destruct (repr_next cmp TO s l k Hr Hs) as (s' & E & Hr').
  exists l, s', (sm_next cmp k l). repeat split; auto.
  - destruct H as (ops & ans & H). exists (ops ++ [ONext k]).
    assert (G : forall ops s0, st_run (pure cmp) s0 ops = Ok (s, ans) ->
       exists ans', st_run (pure cmp) s0 (ops ++ [ONext k]) = Ok (s', ans')).
    { clear -E. intros ops. revert ans. induction ops as [|op ops IH]; intros ans s0 H; simpl in *.
      - inversion H; subst. rewrite E. simpl. eauto.
      - destruct (st_step (pure cmp) s0 op) as [[s1 a]| |]; simpl in *; try discriminate.
        destruct (st_run (pure cmp) s1 ops) as [[s2 r]| |] eqn:E2; simpl in *; try discriminate.
        inversion H; subst. destruct (IH r s1 E2) as (ans' & Hx). rewrite Hx. simpl. eauto. }
    apply (G ops st_new H).
  - apply sm_next_spec; assumption.
Qed.

Theorem C03_prev_is_strict_predecessor :
  forall (K V : Type) (cmp : K -> K -> comparison), total_order cmp ->
  forall (s : splay_tree K V) k, reached cmp s ->
  exists l s' o, st_collect s = Ok l /\ st_prev (pure cmp) s k = Ok (s', o) /\
    match o with
    | Some e => In e l /\ cmp (fst e) k = Lt /\
                (forall e', In e' l -> cmp (fst e') k = Lt -> cmp (fst e') (fst e) <> Gt)
    | None => forall e', In e' l -> cmp (fst e') k <> Lt
    end.
Proof.
  intros K V cmp TO s k H. destruct (reached_sorted cmp TO s H) as (l & Hc & Hr & Hs).
  destruct (repr_prev cmp TO s l k Hr Hs) as (s' & E & Hr').
  exists l, s', (sm_prev cmp k l). repeat split; auto. apply sm_prev_spec; assumption.
Qed.

(** C04: [min]/[max]. *)
Theorem C04_min_max :
  forall (K V : Type) (cmp : K -> K -> comparison), total_order cmp ->
  forall (s : splay_tree K V), reached cmp s ->
  exists l, st_collect s = Ok l /\
    (st_min s = None <-> l = []) /\ (st_max s = None <-> l = []) /\
    (forall k, st_min s = Some k -> In k (map fst l) /\ forall k', In k' (map fst l) -> cmp k k' <> Gt) /\
    (forall k, st_max s = Some k -> In k (map fst l) /\ forall k', In k' (map fst l) -> cmp k' k <> Gt).
Proof.
  intros K V cmp TO s H. destruct (reached_sorted cmp TO s H) as (l & Hc & Hr & Hs).
  exists l. destruct Hr as [Hr _]. unfold st_min, st_max. rewrite min_node_ok, max_node_ok, Hr. clear Hr.
  split; [exact Hc|]. split; [|split; [|split]].
  - destruct l; simpl; split; congruence.
  - destruct l as [|a l]; [simpl; tauto|]. simpl. destruct (rev l) eqn:E; simpl; split; congruence.
  - intros k Hk. destruct l as [|[k0 v0] l]; simpl in *; [discriminate|]. inversion Hk; subst.
    split; [auto|]. intros k' [->|Hin]; [rewrite (cmp_refl cmp TO); discriminate|].
    apply in_map_iff in Hin as (e & <- & Hin). destruct Hs as [Hs _]. rewrite Forall_forall in Hs.
    specialize (Hs e Hin). simpl in Hs. rewrite Hs. discriminate.
  - intros k Hk. destruct (rev l) as [|[k0 v0] l'] eqn:E; simpl in *; [discriminate|]. inversion Hk; subst.
    apply (f_equal (@rev _)) in E. rewrite rev_involutive in E. simpl in E. subst l.
    apply sorted_app in Hs as (_ & _ & Hs). rewrite map_app. simpl. split.
    + apply in_or_app. right. left. reflexivity.
    + intros k' Hin. apply in_app_or in Hin as [Hin|[<-|[]]]; [|rewrite (cmp_refl cmp TO); discriminate].
      apply in_map_iff in Hin as (e & <- & Hin). pose proof (Hs e (k, v0) Hin (or_introl eq_refl)) as Hx. simpl in Hx. rewrite Hx. discriminate.
Qed.

(** C05: [len] is the number of entries. *)
Theorem C05_len_is_exact :
  forall (K V : Type) (cmp : K -> K -> comparison), total_order cmp ->
  forall (s : splay_tree K V), reached cmp s ->
  exists l, st_collect s = Ok l /\ st_len s = List.length l /\ (st_is_empty s = true <-> l = []).
Proof.
  intros K V cmp TO s H. destruct (reached_sorted cmp TO s H) as (l & Hc & [Hr Hn] & Hs).
  exists l. unfold st_is_empty, st_len. rewrite Hn. repeat split; auto.
  - destruct l; simpl; congruence.
  - intros ->. reflexivity.
Qed.

(** C06: iteration from both ends. *)
Theorem C06_into_iter_is_a_deque :
  forall (K V : Type) (cmp : K -> K -> comparison), total_order cmp ->
  forall (s : splay_tree K V), reached cmp s ->
  exists l, st_collect s = Ok l /\ StronglySorted (fun a b => cmp (fst a) (fst b) = Lt) l /\
    forall calls, iter_run (st_into_iter s) calls = Ok (deque_run l calls).
Proof.
  intros K V cmp TO s H. destruct (reached_sorted cmp TO s H) as (l & Hc & [Hr Hn] & Hs).
  exists l. split; [exact Hc|]. split.
  - clear -Hs. induction l as [|a l IH]; [constructor|]. destruct Hs. constructor; auto.
  - intros calls. rewrite iter_run_ok; simpl; rewrite Hr; [reflexivity|exact Hn].
Qed.

(** C07: indexing panics exactly on absent keys; [extend]. *)
Theorem C07_index_panics_iff_absent :
  forall (K V : Type) (cmp : K -> K -> comparison), total_order cmp ->
  forall (s : splay_tree K V) k, reached cmp s ->
  exists l, st_collect s = Ok l /\
    match st_index (pure cmp) s k with
    | Ok (_, v) => exists k', In (k', v) l /\ cmp k k' = Eq
    | Panic _ => forall e, In e l -> cmp k (fst e) <> Eq
    | NoFuel => False
    end.
Proof.
  intros K V cmp TO s k H. destruct (reached_sorted cmp TO s H) as (l & Hc & Hr & Hs).
  exists l. split; [exact Hc|].
  unfold st_index, st_get. destruct (repr_find cmp TO s l k Hr Hs) as (s' & E & Hr'). rewrite E. simpl.
  destruct (sm_find cmp k l) as [[k' v]|] eqn:Ef; simpl.
  - apply (sm_find_spec cmp TO) in Ef; [|assumption]. exists k'. exact Ef.
  - intros e Hin He. assert (sm_find cmp k l = Some e) by (apply (sm_find_spec cmp TO); auto). congruence.
Qed.

Theorem C07_extend_last_value_wins :
  forall (K V : Type) (cmp : K -> K -> comparison), total_order cmp ->
  forall (s : splay_tree K V) items k, reached cmp s ->
  exists l s' s'', st_collect s = Ok l /\ st_extend (pure cmp) s items = Ok s' /\
    st_get (pure cmp) s' k = Ok (s'',
      match find (fun e => key_eqb cmp k (fst e)) (rev items) with
      | Some e => Some (snd e)
      | None => option_map snd (find (fun e => key_eqb cmp k (fst e)) l)
      end).
Proof.
  intros K V cmp TO s items k H. destruct (reached_sorted cmp TO s H) as (l & Hc & Hr & Hs).
  destruct (repr_step cmp TO (OExtend items) s l Hr Hs) as (s' & E & Hr').
  pose proof (sm_step_sorted cmp TO (OExtend items) l Hs) as Hs'. simpl in *.
  destruct (st_extend (pure cmp) s items) as [s1| |]; simpl in E; try discriminate. inversion E; subst s1.
  destruct (repr_find cmp TO s' _ k Hr' Hs') as (s'' & E2 & _).
  exists l, s', s''. split; [exact Hc|]. split; [reflexivity|]. unfold st_get. rewrite E2. simpl.
  rewrite (sm_find_extend cmp TO) by assumption. unfold last_value, sm_find.
  destruct (find _ (rev items)); reflexivity.
Qed.

(** C08: SplaySet. *)
Theorem C08_splay_set_is_a_sorted_set :
  forall (T : Type) (cmp : T -> T -> comparison), total_order cmp ->
  forall ops : list (@set_op T),
  exists s, ss_run (pure cmp) ss_new ops = Ok (s, snd (set_run cmp [] ops)) /\
    StronglySorted (fun a b => cmp a b = Lt) (fst (set_run cmp [] ops)) /\
    forall calls, ss_iter_run (ss_into_iter s) calls = Ok (deque_run (fst (set_run cmp [] ops)) calls).
Proof.
  intros T cmp TO ops.
  destruct (set_run_ok cmp TO ops ss_new [] (conj eq_refl eq_refl) I) as (s & E & Hr & Hs).
  exists s. split; [exact E|]. split; [apply ups_sorted; exact Hs|].
  intros calls. destruct Hr as [Hr Hn]. apply ss_iter_run_ok; simpl; [exact Hr|].
  rewrite Hn. apply map_length.
Qed.

(** ** The hypotheses are met by non-trivial cases *)
Lemma nat_total : total_order Nat.compare.
Proof.
  split.
  - intros a b. apply Nat.compare_antisym.
  - intros a b c H1 H2. apply Nat.compare_le_iff in H1, H2. apply Nat.compare_le_iff. lia.
Qed.

Example history_runs :
  exists s, st_run (pure Nat.compare) st_new
      [OInsert 5 1; OInsert 2 7; OInsert 9 3; OInsert 5 4; ONext 5; OPrev 4; ORemove 2; OLen; OMin; OMax]
    = Ok (s, [AVal None; AVal None; AVal None; AVal (Some 1); AEntry (Some (9, 3)); AEntry (Some (2, 7));
              AVal (Some 7); ANat 2; AKey (Some 5); AKey (Some 9)]).
Proof. eexists. vm_compute. reflexivity. Qed.

Example reached_nontrivial :
  exists s, reached Nat.compare s /\ st_collect s = Ok [(2, 7); (5, 1); (9, 3)].
Proof.
  eexists. split.
  - exists [OInsert 5 1; OInsert 2 7; OInsert 9 3], [AVal None; AVal None; AVal None]. vm_compute. reflexivity.
  - vm_compute. reflexivity.
Qed.

Example lookup_with_lawless_comparator :
  exists s s' : splay_tree nat nat, exists a,
    st_step (fun _ _ => Ok Lt) s (OGet 3) = Ok (s', a) /\ root s <> root s'.
Proof.
  exists (mkTree (Node (Node (Node Leaf 7 0 Leaf) 1 0 Leaf) 2 0 Leaf) 3). eexists. eexists. split.
  - vm_compute. reflexivity.
  - vm_compute. discriminate.
Qed.

Example set_history_runs :
  exists s, ss_run (pure Nat.compare) ss_new [SInsert 4; SInsert 4; SInsert 1; SNext 1; SRemove 3; SRemove 4; SLen]
    = Ok (s, [SBool true; SBool false; SBool true; SElem (Some 4); SBool false; SBool true; SNat 1]).
Proof. eexists. vm_compute. reflexivity. Qed.

Print Assumptions C01_splay_tree_is_a_sorted_map.
Print Assumptions C02_lookups_are_pure.
Print Assumptions C03_next_is_strict_successor.
Print Assumptions C03_prev_is_strict_predecessor.
Print Assumptions C04_min_max.
Print Assumptions C05_len_is_exact.
Print Assumptions C06_into_iter_is_a_deque.
Print Assumptions C07_index_panics_iff_absent.
Print Assumptions C07_extend_last_value_wins.
Print Assumptions C08_splay_set_is_a_sorted_set.
