(** The splay tree refines the sorted association list. *)
Require Import List String Bool Arith Lia Sorted.
From Verif Require Import Base S_Map M_Splay P_Splay.
Import ListNotations.

(** * Iterators *)
Section Iter.
Context {K V : Type}.
Notation tree := (tree K V).

Lemma iter_next_loop_ok : forall l k v r e t,
  @iter_next_loop K V l k v r = (e, t) -> entries l ++ (k, v) :: entries r = e :: entries t.
Proof.
  induction l as [|ll IHl kl vl lr _]; intros k v r e t H; simpl in *.
  - inversion H; subst. reflexivity.
  - apply IHl in H. simpl in H. rewrite <- H. lnorm.
Qed.

Lemma iter_back_loop_ok : forall r l k v e t,
  @iter_back_loop K V l k v r = (e, t) -> entries l ++ (k, v) :: entries r = entries t ++ [e].
Proof.
  induction r as [|rl _ kr vr rr IHr]; intros l k v e t H; simpl in *.
  - inversion H; subst. reflexivity.
  - apply IHr in H. rewrite <- H. lnorm.
Qed.

Lemma iter_next_ok : forall it : into_iter K V, remaining it = List.length (entries (cur it)) ->
  exists it', iter_next it = Ok (it', hd_error (entries (cur it))) /\
    entries (cur it') = tl (entries (cur it)) /\ remaining it' = List.length (entries (cur it')).
Proof.
  intros it H. unfold iter_next. destruct (cur it) as [|l k v r] eqn:E.
  - exists it. rewrite E. simpl in *. auto.
  - destruct (iter_next_loop l k v r) as [e t] eqn:El.
    apply iter_next_loop_ok in El. simpl. rewrite El. simpl in H. rewrite El in H. simpl in H.
    rewrite H. simpl. eexists. split; [reflexivity|]. simpl. auto.
Qed.

Lemma iter_back_ok : forall it : into_iter K V, remaining it = List.length (entries (cur it)) ->
  exists it', iter_next_back it = Ok (it', hd_error (rev (entries (cur it)))) /\
    entries (cur it') = removelast (entries (cur it)) /\ remaining it' = List.length (entries (cur it')).
Proof.
  intros it H. unfold iter_next_back. destruct (cur it) as [|l k v r] eqn:E.
  - exists it. rewrite E. simpl in *. auto.
  - destruct (iter_back_loop l k v r) as [e t] eqn:El.
    apply iter_back_loop_ok in El. simpl. rewrite El. simpl in H. rewrite El in H.
    rewrite app_length in H. simpl in H. rewrite Nat.add_1_r in H.
    rewrite H. simpl. eexists. split; [rewrite rev_app_distr; reflexivity|]. simpl.
    rewrite removelast_last. auto.
Qed.

Lemma iter_run_ok : forall calls (it : into_iter K V), remaining it = List.length (entries (cur it)) ->
  iter_run it calls = Ok (deque_run (entries (cur it)) calls).
Proof.
  induction calls as [|[|] calls IH]; intros it H; simpl; [reflexivity| |].
  - destruct (iter_next_ok it H) as (it' & H1 & H2 & H3). rewrite H1. simpl.
    rewrite (IH _ H3). simpl. unfold iter_size_hint. rewrite H, H2. reflexivity.
  - destruct (iter_back_ok it H) as (it' & H1 & H2 & H3). rewrite H1. simpl.
    rewrite (IH _ H3). simpl. unfold iter_size_hint. rewrite H, H2. reflexivity.
Qed.

Lemma iter_collect_ok : forall fuel (it : into_iter K V),
  remaining it = List.length (entries (cur it)) -> remaining it < fuel ->
  iter_collect fuel it = Ok (entries (cur it)).
Proof.
  induction fuel as [|fuel IH]; intros it H Hf; [lia|]. simpl.
  destruct (iter_next_ok it H) as (it' & H1 & H2 & H3). rewrite H1. simpl.
  destruct (entries (cur it)) as [|e l] eqn:E; simpl in *; [reflexivity|].
  rewrite IH; [|assumption|].
  - simpl. rewrite H2. reflexivity.
  - rewrite H3, H2. lia.
Qed.

Lemma st_collect_ok : forall s : splay_tree K V, size s = List.length (entries (root s)) ->
  st_collect s = Ok (entries (root s)).
Proof. intros s H. unfold st_collect. apply iter_collect_ok; simpl; [assumption|lia]. Qed.

Lemma iter_collect_congr : forall fuel (t1 t2 : tree) n, entries t1 = entries t2 ->
  iter_collect fuel (mkIter t1 n) = iter_collect fuel (mkIter t2 n).
Proof.
  induction fuel as [|fuel IH]; intros t1 t2 n H; [reflexivity|]. simpl.
  unfold iter_next; simpl.
  destruct t1 as [|l1 k1 v1 r1], t2 as [|l2 k2 v2 r2]; simpl in *; try reflexivity.
  - destruct (entries l2); discriminate.
  - destruct (entries l1); discriminate.
  - destruct (iter_next_loop l1 k1 v1 r1) as [e1 t1] eqn:E1.
    destruct (iter_next_loop l2 k2 v2 r2) as [e2 t2] eqn:E2.
    apply iter_next_loop_ok in E1. apply iter_next_loop_ok in E2.
    rewrite E1, E2 in H. inversion H; subst.
    destruct (usize_dec n); simpl; try reflexivity. rewrite (IH _ _ a H2). reflexivity.
Qed.
End Iter.

(** * Lookups never change the content, for any comparator *)
Section Pure.
Context {K V : Type}.
Variable comparator : K -> K -> res comparison.

Lemma st_find_entries : forall (s s' : splay_tree K V) k o, st_find comparator s k = Ok (s', o) ->
  entries (root s') = entries (root s) /\ size s' = size s.
Proof.
  intros s s' k o H. unfold st_find in H. destruct (root s) as [|a b c d] eqn:E.
  - inversion H; subst. rewrite E. auto.
  - destruct (splay comparator k (Node a b c d)) as [t| |] eqn:Es; simpl in H; try discriminate.
    apply splay_entries in Es. destruct t as [|l k' v r]; [discriminate|].
    destruct (comparator k k') as [cc| |]; simpl in H; try discriminate.
    inversion H; subst; simpl. auto.
Qed.
Lemma st_next_entries : forall (s s' : splay_tree K V) k o, st_next comparator s k = Ok (s', o) ->
  entries (root s') = entries (root s) /\ size s' = size s.
Proof.
  intros s s' k o H. unfold st_next in H. destruct (root s) as [|a b c d] eqn:E.
  - inversion H; subst. rewrite E. auto.
  - destruct (splay comparator k (Node a b c d)) as [t| |] eqn:Es; simpl in H; try discriminate.
    apply splay_entries in Es. destruct (next_loop comparator k t None); simpl in H; try discriminate.
    inversion H; subst; simpl. auto.
Qed.
Lemma st_prev_entries : forall (s s' : splay_tree K V) k o, st_prev comparator s k = Ok (s', o) ->
  entries (root s') = entries (root s) /\ size s' = size s.
Proof.
  intros s s' k o H. unfold st_prev in H. destruct (root s) as [|a b c d] eqn:E.
  - inversion H; subst. rewrite E. auto.
  - destruct (splay comparator k (Node a b c d)) as [t| |] eqn:Es; simpl in H; try discriminate.
    apply splay_entries in Es. destruct (prev_loop comparator k t None); simpl in H; try discriminate.
    inversion H; subst; simpl. auto.
Qed.

Lemma collect_of_entries : forall s s' : splay_tree K V,
  entries (root s') = entries (root s) /\ size s' = size s -> st_collect s' = st_collect s.
Proof.
  intros s s' [H1 H2]. unfold st_collect, st_into_iter. rewrite H2. apply iter_collect_congr. assumption.
Qed.

Lemma lookup_pure : forall op (s s' : splay_tree K V) a, is_lookup op ->
  st_step comparator s op = Ok (s', a) -> st_collect s' = st_collect s /\ st_len s' = st_len s.
Proof.
  intros op s s' a Hop H. unfold st_len.
  assert (Hg : entries (root s') = entries (root s) /\ size s' = size s).
  { destruct op; simpl in *; try contradiction; unfold st_get, st_contains, st_find_key in H;
      try (inversion H; subst; auto; fail).
    - destruct (st_find comparator s k) as [[s1 o]| |] eqn:E; simpl in H; try discriminate.
      apply st_find_entries in E. inversion H; subst; auto.
    - destruct (st_find comparator s k) as [[s1 o]| |] eqn:E; simpl in H; try discriminate.
      apply st_find_entries in E. inversion H; subst; auto.
    - destruct (st_find comparator s k) as [[s1 o]| |] eqn:E; simpl in H; try discriminate.
      apply st_find_entries in E. inversion H; subst; auto.
    - destruct (st_next comparator s k) as [[s1 o]| |] eqn:E; simpl in H; try discriminate.
      apply st_next_entries in E. inversion H; subst; auto.
    - destruct (st_prev comparator s k) as [[s1 o]| |] eqn:E; simpl in H; try discriminate.
      apply st_prev_entries in E. inversion H; subst; auto. }
  split; [apply collect_of_entries; assumption|tauto].
Qed.
End Pure.

(** * Refinement *)
Section Refine.
Context {K V : Type}.
Variable cmp : K -> K -> comparison.
Hypothesis TO : total_order cmp.
Notation comparator := (fun a b => Ok (cmp a b)).

Lemma cmp_refl : forall a, cmp a a = Eq.
Proof. intros a. pose proof (to_opp _ TO a a) as H. destruct (cmp a a); simpl in H; congruence. Qed.

Lemma cmp_le_lt : forall a b c, cmp a b <> Gt -> cmp b c = Lt -> cmp a c = Lt.
Proof.
  intros a b c H1 H2. destruct (cmp a c) eqn:E; [|reflexivity|].
  - exfalso. assert (H : cmp c b <> Gt).
    { apply (to_trans _ TO c a b); [rewrite (to_opp _ TO a c), E; discriminate|assumption]. }
    rewrite (to_opp _ TO b c), H2 in H. apply H. reflexivity.
  - exfalso. apply (to_trans _ TO a b c); [assumption|rewrite H2; discriminate|assumption].
Qed.
Lemma cmp_lt_le : forall a b c, cmp a b = Lt -> cmp b c <> Gt -> cmp a c = Lt.
Proof.
  intros a b c H1 H2. destruct (cmp a c) eqn:E; [|reflexivity|].
  - exfalso. assert (H : cmp b a <> Gt).
    { apply (to_trans _ TO b c a); [assumption|rewrite (to_opp _ TO a c), E; discriminate]. }
    rewrite (to_opp _ TO a b), H1 in H. apply H. reflexivity.
  - exfalso. apply (to_trans _ TO a b c); [rewrite H1; discriminate|assumption|assumption].
Qed.

Definition qk (k : K) : K -> res comparison := fun k' => Ok (cmp k k').

Lemma sorted_qsorted : forall k (l : list (K * V)), sm_sorted cmp l -> qsorted (qk k) l.
Proof.
  intros k l H. split.
  - apply Forall_forall. intros e _. eexists. reflexivity.
  - induction l as [|e l IH]; [constructor|]. destruct H as [H1 H2].
    constructor; [auto|]. rewrite Forall_forall in *. intros y Hy. unfold qrel, qk.
    destruct (cmp k (fst e)) eqn:E; [right|right|left]; try reflexivity;
      f_equal; apply (cmp_le_lt k (fst e)); auto; rewrite E; discriminate.
Qed.

Definition allc (k : K) (c : comparison) (l : list (K * V)) : Prop := Forall (fun e => cmp k (fst e) = c) l.
Lemma allc_q : forall k c l, all_q (qk k) c l -> allc k c l.
Proof.
  intros k c l H. unfold allc, all_q, qk in *. eapply Forall_impl; [|exact H].
  simpl. intros e He. congruence.
Qed.

Lemma find_qk_eq : forall k (l : list (K * V)), find (q_is (qk k) Eq) l = sm_find cmp k l.
Proof.
  intros. unfold sm_find. induction l as [|e l IH]; [reflexivity|]. simpl. rewrite IH.
  unfold q_is, qk, key_eqb. destruct (cmp k (fst e)); reflexivity.
Qed.
Lemma find_qk_lt : forall k (l : list (K * V)), find (q_is (qk k) Lt) l = sm_next cmp k l.
Proof.
  intros. unfold sm_next. induction l as [|e l IH]; [reflexivity|]. simpl. rewrite IH.
  unfold q_is, qk, key_ltb. destruct (cmp k (fst e)); reflexivity.
Qed.
Lemma find_qk_gt : forall k (l : list (K * V)), find (q_is (qk k) Gt) (rev l) = sm_prev cmp k l.
Proof.
  intros. unfold sm_prev. induction (rev l) as [|e l' IH]; [reflexivity|]. simpl. rewrite IH.
  unfold q_is, qk, key_ltb. rewrite (to_opp _ TO k (fst e)). destruct (cmp k (fst e)); reflexivity.
Qed.

Lemma sm_find_split : forall k b m a, allc k Gt b -> allc k Eq m -> allc k Lt a ->
  sm_find cmp k (b ++ m ++ a) = hd_error m.
Proof.
  intros k b m a Hb Hm Ha. unfold sm_find. rewrite find_app_none.
  - destruct m as [|e m]; simpl.
    + clear -Ha. induction Ha as [|e a He Ha IH]; [reflexivity|]. simpl. unfold key_eqb. rewrite He. exact IH.
    + inversion Hm; subst. unfold key_eqb. rewrite H1. reflexivity.
  - clear -Hb. induction Hb as [|e b He Hb IH]; [reflexivity|]. simpl. unfold key_eqb. rewrite He. exact IH.
Qed.
Lemma sm_insert_split : forall k v b a, allc k Gt b -> allc k Lt a ->
  sm_insert cmp k v (b ++ a) = b ++ (k, v) :: a.
Proof.
  intros k v b a Hb Ha. induction Hb as [|[k' v'] b He Hb IH]; simpl.
  - destruct a as [|[k' v'] a]; [reflexivity|]. simpl. inversion Ha; subst. simpl in *.
    unfold key_eqb, key_ltb. rewrite H1. reflexivity.
  - simpl in *. unfold key_eqb, key_ltb. rewrite He. f_equal. exact IH.
Qed.
Lemma sm_insert_split_eq : forall k v b k' v' a, allc k Gt b -> cmp k k' = Eq ->
  sm_insert cmp k v (b ++ (k', v') :: a) = b ++ (k', v) :: a.
Proof.
  intros k v b k' v' a Hb He. induction Hb as [|[k1 v1] b He1 Hb IH]; simpl in *.
  - unfold key_eqb. rewrite He. reflexivity.
  - unfold key_eqb at 1, key_ltb at 1. rewrite He1. f_equal. exact IH.
Qed.
Lemma filter_allc : forall k c l, allc k c l -> c <> Eq ->
  filter (fun e => negb (key_eqb cmp k (fst e))) l = l.
Proof.
  intros k c l H Hc. induction H as [|e l He H IH]; [reflexivity|]. simpl. unfold key_eqb at 1. rewrite He.
  destruct c; simpl; [congruence|f_equal; exact IH|f_equal; exact IH].
Qed.
Lemma map_allc : forall k c f l, allc k c l -> c <> Eq ->
  map (fun e : K * V => if key_eqb cmp k (fst e) then (fst e, f (snd e)) else e) l = l.
Proof.
  intros k c f l H Hc. induction H as [|e l He H IH]; [reflexivity|]. simpl. unfold key_eqb at 1. rewrite He.
  destruct c; simpl; [congruence|f_equal; exact IH|f_equal; exact IH].
Qed.

Lemma sorted_app : forall l1 l2 : list (K * V), sm_sorted cmp (l1 ++ l2) <->
  sm_sorted cmp l1 /\ sm_sorted cmp l2 /\ (forall x y, In x l1 -> In y l2 -> cmp (fst x) (fst y) = Lt).
Proof.
  induction l1 as [|a l1 IH]; intros l2; simpl.
  - split; [intros H; repeat split; auto; intros ? ? []|tauto].
  - rewrite IH, Forall_app, !Forall_forall. split.
    + intros ((H1 & H2) & H3 & H4 & H5). repeat split; auto.
      intros x y [->|Hx] Hy; auto.
    + intros ((H1 & H2) & H3 & H4). repeat split; auto.
Qed.

Lemma sm_insert_sorted : forall k v (l : list (K * V)), sm_sorted cmp l -> sm_sorted cmp (sm_insert cmp k v l).
Proof.
  intros k v l Hs.
  destruct (qsorted_split (qk k) l (sorted_qsorted k l Hs)) as (b & m & a & -> & Hb & Hm & Ha & Hl).
  apply allc_q in Hb, Hm, Ha.
  destruct m as [|[k' v'] [|]]; simpl in Hl; try lia.
  - simpl in *. rewrite sm_insert_split by assumption.
    apply sorted_app in Hs as (H1 & H2 & H3). apply sorted_app. simpl. repeat split; auto.
    intros x y Hx [<-|Hy]; [|auto]. simpl. unfold allc in Hb. rewrite Forall_forall in Hb.
    rewrite (to_opp _ TO k), (Hb x Hx). reflexivity.
  - simpl in *. inversion Hm; subst. simpl in *.
    rewrite sm_insert_split_eq by assumption.
    apply sorted_app in Hs as (H1' & H2' & H3'). simpl in H2'. destruct H2' as [H4 H5].
    apply sorted_app. simpl. repeat split; auto.
    intros x y Hx [<-|Hy]; simpl; [apply (H3' x (k', v')); auto; left; reflexivity|apply H3'; auto; right; auto].
Qed.

Lemma sm_remove_sorted : forall k (l : list (K * V)), sm_sorted cmp l -> sm_sorted cmp (sm_remove cmp k l).
Proof.
  intros k l. unfold sm_remove. induction l as [|e l IH]; intros H; [exact I|]. simpl in *.
  destruct H as [H1 H2]. destruct (negb _); simpl; auto. split; auto.
  rewrite Forall_forall in *. intros x Hx. apply filter_In in Hx. apply H1. tauto.
Qed.
Lemma sm_update_sorted : forall k f (l : list (K * V)), sm_sorted cmp l -> sm_sorted cmp (sm_update cmp k f l).
Proof.
  intros k f l. unfold sm_update. induction l as [|e l IH]; intros H; [exact I|]. simpl in *.
  destruct H as [H1 H2]. split; auto.
  rewrite Forall_forall in *. intros x Hx. apply in_map_iff in Hx as (y & <- & Hy).
  specialize (H1 y Hy). destruct (key_eqb cmp k (fst e)), (key_eqb cmp k (fst y)); simpl; exact H1.
Qed.

Lemma sm_step_sorted : forall op (l : list (K * V)), sm_sorted cmp l -> sm_sorted cmp (fst (sm_step cmp l op)).
Proof.
  intros op l H. destruct op; simpl; auto using sm_insert_sorted, sm_remove_sorted, sm_update_sorted.
  revert l H. induction items as [|[k v] items IH]; intros l H; simpl; auto using sm_insert_sorted.
Qed.

(** Representation relation. *)
Definition repr (s : splay_tree K V) (l : list (K * V)) : Prop :=
  entries (root s) = l /\ size s = List.length l.

Lemma repr_insert : forall s l k v, repr s l -> sm_sorted cmp l ->
  exists s', st_insert comparator s k v = Ok (s', option_map snd (sm_find cmp k l)) /\
    repr s' (sm_insert cmp k v l).
Proof.
  intros s l k v [H1 H2] Hs. subst l.
  pose proof (sorted_qsorted k _ Hs) as Hq.
  destruct (st_insert_ok comparator (qk k) k (fun _ => eq_refl) s v Hq)
    as (b & m & a & t' & E & Hb & Hm & Ha & Hres).
  apply allc_q in Hb, Hm, Ha. rewrite E in *.
  rewrite sm_find_split by assumption.
  destruct m as [|[k' v'] [|]]; [| |contradiction]; destruct Hres as [R1 R2]; rewrite R1; simpl.
  - eexists. split; [reflexivity|]. simpl in *. rewrite sm_insert_split by assumption.
    split; simpl; [assumption|]. rewrite H2, !app_length. simpl. lia.
  - eexists. split; [reflexivity|]. simpl in *. inversion Hm; subst. rewrite sm_insert_split_eq by assumption.
    split; simpl; [assumption|]. rewrite H2, !app_length. simpl. lia.
Qed.

Lemma repr_remove : forall s l k, repr s l -> sm_sorted cmp l ->
  exists s', st_remove comparator s k = Ok (s', option_map snd (sm_find cmp k l)) /\
    repr s' (sm_remove cmp k l).
Proof.
  intros s l k [H1 H2] Hs. subst l.
  pose proof (sorted_qsorted k _ Hs) as Hq.
  destruct (st_remove_ok comparator (qk k) k (fun _ => eq_refl) s Hq H2)
    as (b & m & a & t' & E & Hb & Hm & Ha & Het & Hres).
  apply allc_q in Hb, Hm, Ha. rewrite E in *.
  rewrite sm_find_split by assumption. unfold sm_remove. rewrite !filter_app.
  rewrite (filter_allc k Gt b), (filter_allc k Lt a) by (assumption || discriminate).
  destruct m as [|[k' v'] [|]]; [| |contradiction]; rewrite Hres; simpl.
  - eexists. split; [reflexivity|]. split; simpl; [assumption|]. rewrite H2. reflexivity.
  - eexists. split; [reflexivity|]. simpl in *. apply Forall_inv in Hm. simpl in *.
    unfold key_eqb. rewrite Hm. simpl. split; simpl; [assumption|]. rewrite H2, !app_length. simpl. lia.
Qed.

Lemma repr_get_mut : forall s l k f, repr s l -> sm_sorted cmp l ->
  exists s', st_get_mut comparator s k f = Ok (s', option_map snd (sm_find cmp k l)) /\
    repr s' (sm_update cmp k f l).
Proof.
  intros s l k f [H1 H2] Hs. subst l.
  pose proof (sorted_qsorted k _ Hs) as Hq.
  destruct (st_get_mut_ok comparator (qk k) k (fun _ => eq_refl) s f Hq)
    as (b & m & a & t' & E & Hb & Hm & Ha & Hres).
  apply allc_q in Hb, Hm, Ha. rewrite E in *.
  rewrite sm_find_split by assumption. unfold sm_update. rewrite !map_app.
  rewrite (map_allc k Gt f b), (map_allc k Lt f a) by (assumption || discriminate).
  destruct m as [|[k' v'] [|]]; [| |contradiction]; destruct Hres as [R1 R2]; rewrite R1; simpl.
  - eexists. split; [reflexivity|]. split; simpl; [assumption|]. rewrite H2. reflexivity.
  - eexists. split; [reflexivity|]. simpl in *. apply Forall_inv in Hm. simpl in *.
    unfold key_eqb. rewrite Hm. simpl. split; simpl; [assumption|]. rewrite H2, !app_length. simpl. lia.
Qed.

Lemma repr_find : forall s l k, repr s l -> sm_sorted cmp l ->
  exists s', st_find comparator s k = Ok (s', sm_find cmp k l) /\ repr s' l.
Proof.
  intros s l k [H1 H2] Hs. subst l.
  destruct (st_find_ok comparator (qk k) k (fun _ => eq_refl) s (sorted_qsorted k _ Hs)) as (t' & E & He).
  rewrite E, find_qk_eq. eexists. split; [reflexivity|]. split; simpl; assumption.
Qed.
Lemma repr_next : forall s l k, repr s l -> sm_sorted cmp l ->
  exists s', st_next comparator s k = Ok (s', sm_next cmp k l) /\ repr s' l.
Proof.
  intros s l k [H1 H2] Hs. subst l.
  destruct (st_next_ok comparator (qk k) k (fun _ => eq_refl) s (sorted_qsorted k _ Hs)) as (t' & E & He).
  rewrite E, find_qk_lt. eexists. split; [reflexivity|]. split; simpl; assumption.
Qed.
Lemma repr_prev : forall s l k, repr s l -> sm_sorted cmp l ->
  exists s', st_prev comparator s k = Ok (s', sm_prev cmp k l) /\ repr s' l.
Proof.
  intros s l k [H1 H2] Hs. subst l.
  destruct (st_prev_ok comparator (qk k) k (fun _ => eq_refl) s (sorted_qsorted k _ Hs)) as (t' & E & He).
  rewrite E, find_qk_gt. eexists. split; [reflexivity|]. split; simpl; assumption.
Qed.

Lemma min_node_ok : forall t : tree K V, min_node t = hd_error (entries t).
Proof.
  induction t as [|l IHl k v r _]; [reflexivity|].
  destruct l as [|a b c d]; [reflexivity|]. change (min_node (Node (Node a b c d) k v r)) with (min_node (Node a b c d)).
  rewrite IHl. change (entries (Node (Node a b c d) k v r)) with (entries (Node a b c d) ++ (k, v) :: entries r).
  destruct (entries (Node a b c d)) eqn:E; [|reflexivity].
  simpl in E. destruct (entries a); discriminate.
Qed.
Lemma max_node_ok : forall t : tree K V, max_node t = hd_error (rev (entries t)).
Proof.
  induction t as [|l _ k v r IHr]; [reflexivity|].
  destruct r as [|a b c d].
  - simpl. rewrite rev_app_distr. reflexivity.
  - change (max_node (Node l k v (Node a b c d))) with (max_node (Node a b c d)).
    rewrite IHr. change (entries (Node l k v (Node a b c d))) with (entries l ++ (k, v) :: entries (Node a b c d)).
    rewrite rev_app_distr. cbn [rev]. rewrite <- app_assoc.
    destruct (rev (entries (Node a b c d))) eqn:E; [|reflexivity].
    simpl in E. rewrite rev_app_distr in E. simpl in E. rewrite <- app_assoc in E.
    destruct (rev (entries d)); discriminate.
Qed.

Lemma repr_step : forall op s l, repr s l -> sm_sorted cmp l ->
  exists s', st_step comparator s op = Ok (s', snd (sm_step cmp l op)) /\ repr s' (fst (sm_step cmp l op)).
Proof.
  intros op s l Hr Hs. destruct op; simpl.
  - destruct (repr_insert s l k v Hr Hs) as (s' & E & H). rewrite E. simpl. eauto.
  - destruct (repr_remove s l k Hr Hs) as (s' & E & H). rewrite E. simpl. eauto.
  - unfold st_get. destruct (repr_find s l k Hr Hs) as (s' & E & H). rewrite E. simpl. eauto.
  - destruct (repr_get_mut s l k f Hr Hs) as (s' & E & H). rewrite E. simpl. eauto.
  - unfold st_contains, st_find_key. destruct (repr_find s l k Hr Hs) as (s' & E & H). rewrite E. simpl.
    exists s'. split; [|assumption]. destruct (sm_find cmp k l); reflexivity.
  - unfold st_find_key. destruct (repr_find s l k Hr Hs) as (s' & E & H). rewrite E. simpl. eauto.
  - destruct (repr_next s l k Hr Hs) as (s' & E & H). rewrite E. simpl. eauto.
  - destruct (repr_prev s l k Hr Hs) as (s' & E & H). rewrite E. simpl. eauto.
  - exists s. split; [|assumption]. unfold st_min, sm_first. rewrite min_node_ok. destruct Hr as [-> _].
    destruct l; reflexivity.
  - exists s. split; [|assumption]. unfold st_max, sm_last. rewrite max_node_ok. destruct Hr as [-> _].
    destruct (rev l); reflexivity.
  - exists s. split; [|assumption]. unfold st_len. destruct Hr as [_ ->]. reflexivity.
  - exists s. split; [|assumption]. unfold st_is_empty, st_len. destruct Hr as [_ ->]. destruct l; reflexivity.
  - assert (H : exists s', st_extend comparator s items = Ok s' /\
      repr s' (fold_left (fun l kv => sm_insert cmp (fst kv) (snd kv) l) items l)).
    { revert s l Hr Hs. induction items as [|[k v] items IH]; intros s l Hr Hs; simpl.
      - exists s. split; [reflexivity|assumption].
      - destruct (repr_insert s l k v Hr Hs) as (s' & E & H). unfold st_extend. simpl. rewrite E. simpl.
        apply IH; auto using sm_insert_sorted. }
    destruct H as (s' & E & H). rewrite E. simpl. eauto.
  - eexists. split; [reflexivity|]. split; reflexivity.
Qed.

Lemma repr_run : forall ops s l, repr s l -> sm_sorted cmp l ->
  exists s', st_run comparator s ops = Ok (s', snd (sm_run cmp l ops)) /\ repr s' (fst (sm_run cmp l ops)) /\
     sm_sorted cmp (fst (sm_run cmp l ops)).
Proof.
  induction ops as [|op ops IH]; intros s l Hr Hs; simpl; [eauto|].
  destruct (repr_step op s l Hr Hs) as (s1 & E1 & H1). rewrite E1. simpl.
  pose proof (sm_step_sorted op l Hs) as Hs1.
  destruct (sm_step cmp l op) as [l1 a]. simpl in *.
  destruct (IH s1 l1 H1 Hs1) as (s2 & E2 & H2 & H3). rewrite E2. simpl.
  destruct (sm_run cmp l1 ops) as [l2 r]. simpl in *. eauto.
Qed.

Lemma repr_new : repr st_new [].
Proof. split; reflexivity. Qed.

(** Every state reached by a history of calls. *)
Definition reachable (s : splay_tree K V) : Prop := exists ops ans, st_run comparator st_new ops = Ok (s, ans).

Lemma reachable_repr : forall s, reachable s -> exists l, repr s l /\ sm_sorted cmp l.
Proof.
  intros s (ops & ans & H).
  destruct (repr_run ops st_new [] repr_new I) as (s' & E & H1 & H2).
  rewrite E in H. inversion H; subst. eauto.
Qed.

Lemma repr_collect : forall s l, repr s l -> st_collect s = Ok l.
Proof. intros s l [H1 H2]. rewrite st_collect_ok; [rewrite H1; reflexivity|rewrite H1; assumption]. Qed.

End Refine.
