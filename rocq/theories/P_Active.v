(** Proofs about the active set (src/active.rs). *)
Require Import List String Bool Arith Lia Sorted.
From Verif Require Import Base S_Map M_Splay P_Splay M_Slab M_Active.
Import ListNotations.

Section Act.
Context {A : Type}.
Variable partial_cmp : A -> A -> option comparison.
Notation acmp := (active_cmp partial_cmp).

(** The set holds exactly the keys [ks], in this order. *)
Definition holds (t : active_set) (ks : list nat) : Prop :=
  map fst (entries (root t)) = ks /\ size t = List.length ks.

Lemma holds_new : holds active_new [].
Proof. split; reflexivity. Qed.

Lemma ups_of : forall (l : list (nat * unit)), l = map (fun k => (k, tt)) (map fst l).
Proof. induction l as [|[k []] l IH]; simpl; congruence. Qed.
Lemma hd_error_map : forall {X Y} (f : X -> Y) l, hd_error (map f l) = option_map f (hd_error l).
Proof. intros X Y f [|]; reflexivity. Qed.

(** [k] sits between [b] and [a]; [m] holds the keys that compare equal. *)
Definition sits (st : slab A) (k : nat) (b m a : list nat) : Prop :=
  (forall x, In x b -> acmp st k x = Ok Gt) /\
  (forall x, In x m -> acmp st k x = Ok Eq) /\
  (forall x, In x a -> acmp st k x = Ok Lt) /\
  (List.length m <= 1)%nat.

Lemma all_q_keys : forall st k c (l : list (nat * unit)),
  (forall x, In x (map fst l) -> acmp st k x = Ok c) -> all_q (acmp st k) c l.
Proof.
  intros st k c l H. apply Forall_forall. intros e He. apply H. apply in_map. exact He.
Qed.
Lemma map_app_inv : forall {X Y} (f : X -> Y) l b c, map f l = b ++ c ->
  exists l1 l2, l = l1 ++ l2 /\ map f l1 = b /\ map f l2 = c.
Proof.
  intros X Y f l b. revert l. induction b as [|y b IH]; intros l c H; simpl in *.
  - exists [], l. auto.
  - destruct l as [|x l]; [discriminate|]. simpl in H. injection H as H1 H2.
    destruct (IH l c H2) as (l1 & l2 & E1 & E2 & E3). exists (x :: l1), l2. subst. auto.
Qed.

Lemma sits_qsorted : forall st k b m a (l : list (nat * unit)), sits st k b m a ->
  map fst l = b ++ m ++ a -> qsorted (acmp st k) l.
Proof.
  intros st k b m a l (Hb & Hm & Ha & Hl) E. split.
  - apply Forall_forall. intros e He. apply (in_map fst) in He. rewrite E in He.
    rewrite !in_app_iff in He. destruct He as [He|[He|He]]; eauto.
  - apply map_app_inv in E as (l1 & l2 & -> & <- & E). apply map_app_inv in E as (l3 & l4 & -> & <- & <-).
    assert (B : all_q (acmp st k) Gt l1) by (apply all_q_keys; auto).
    assert (L : all_q (acmp st k) Lt l4) by (apply all_q_keys; auto).
    assert (SG : forall l, all_q (acmp st k) Gt l -> StronglySorted (@qrel nat unit (acmp st k)) l).
    { induction l as [|e l IH]; intros H; constructor.
      - apply IH. inversion H; auto.
      - inversion H; subst. apply Forall_forall. intros; left; auto. }
    assert (SL : forall l, all_q (acmp st k) Lt l -> StronglySorted (@qrel nat unit (acmp st k)) l).
    { induction l as [|e l IH]; intros H; constructor.
      - apply IH. inversion H; auto.
      - inversion H; subst. eapply Forall_impl; [|eassumption]. intros; right; auto. }
    apply ss_app. split; [auto|]. split.
    + apply ss_app. split; [|split; [auto|]].
      * destruct l3 as [|e [|e' l3]]; [constructor|constructor; constructor|simpl in Hl; lia].
      * intros x y _ Hy. right. unfold all_q in L. rewrite Forall_forall in L. auto.
    + intros x y Hx _. left. unfold all_q in B. rewrite Forall_forall in B. auto.
Qed.

Lemma find_gt_rev : forall st k b m a (l : list (nat * unit)), sits st k b m a ->
  map fst l = b ++ m ++ a ->
  option_map fst (find (q_is (acmp st k) Gt) (rev l)) = hd_error (rev b).
Proof.
  intros st k b m a l (Hb & Hm & Ha & Hl) E.
  apply map_app_inv in E as (l1 & l2 & -> & <- & E). apply map_app_inv in E as (l3 & l4 & -> & <- & <-).
  rewrite !rev_app_distr, <- app_assoc.
  rewrite !find_app_none.
  - rewrite <- map_rev, hd_error_map. f_equal. apply find_all_hd. apply all_q_rev, all_q_keys; auto.
  - apply find_all_other with (d := Eq); [|discriminate]. apply all_q_rev, all_q_keys; auto.
  - apply find_all_other with (d := Lt); [|discriminate]. apply all_q_rev, all_q_keys; auto.
Qed.
Lemma find_lt : forall st k b m a (l : list (nat * unit)), sits st k b m a ->
  map fst l = b ++ m ++ a ->
  option_map fst (find (q_is (acmp st k) Lt) l) = hd_error a.
Proof.
  intros st k b m a l (Hb & Hm & Ha & Hl) E.
  apply map_app_inv in E as (l1 & l2 & -> & <- & E). apply map_app_inv in E as (l3 & l4 & -> & <- & <-).
  rewrite !find_app_none.
  - rewrite hd_error_map. f_equal. apply find_all_hd. apply all_q_keys; auto.
  - apply find_all_other with (d := Eq); [|discriminate]. apply all_q_keys; auto.
  - apply find_all_other with (d := Gt); [|discriminate]. apply all_q_keys; auto.
Qed.

Lemma prev_key_ok : forall st k b m a t, holds t (b ++ m ++ a) -> sits st k b m a ->
  exists t', prev_key partial_cmp t k st = Ok (t', hd_error (rev b)) /\ holds t' (b ++ m ++ a).
Proof.
  intros st k b m a t [E S] H. unfold prev_key, ss_prev.
  destruct (st_prev_ok (acmp st) (acmp st k) k (fun _ => eq_refl) t (sits_qsorted _ _ _ _ _ _ H E)) as (t' & P & Q).
  rewrite P. cbn [bind]. eexists. split.
  - f_equal. f_equal. apply (find_gt_rev _ _ _ _ _ _ H E).
  - split; simpl; [rewrite Q; auto|auto].
Qed.
Lemma next_key_ok : forall st k b m a t, holds t (b ++ m ++ a) -> sits st k b m a ->
  exists t', next_key partial_cmp t k st = Ok (t', hd_error a) /\ holds t' (b ++ m ++ a).
Proof.
  intros st k b m a t [E S] H. unfold next_key, ss_next.
  destruct (st_next_ok (acmp st) (acmp st k) k (fun _ => eq_refl) t (sits_qsorted _ _ _ _ _ _ H E)) as (t' & P & Q).
  rewrite P. cbn [bind]. eexists. split.
  - f_equal. f_equal. apply (find_lt _ _ _ _ _ _ H E).
  - split; simpl; [rewrite Q; auto|auto].
Qed.

Lemma parts_unique : forall st k b m a b' m' a' (l : list (nat * unit)), sits st k b m a ->
  map fst l = b ++ m ++ a -> l = b' ++ m' ++ a' ->
  all_q (acmp st k) Gt b' -> all_q (acmp st k) Eq m' -> all_q (acmp st k) Lt a' ->
  map fst b' = b /\ map fst m' = m /\ map fst a' = a.
Proof.
  intros st k b m a b' m' a' l (Hb & Hm & Ha & Hl) E -> Gb Gm Ga.
  rewrite !map_app in E.
  assert (C : forall c x, In x (map fst (match c with Gt => b' | Eq => m' | Lt => a' end)) -> acmp st k x = Ok c).
  { intros c x Hx. apply in_map_iff in Hx as (e & <- & He).
    unfold all_q in *. rewrite Forall_forall in Gb, Gm, Ga. destruct c; auto. }
  assert (F : forall c x, In x (match c with Gt => b | Eq => m | Lt => a end) -> acmp st k x = Ok c).
  { intros [| |] x Hx; auto. }
  set (B := map fst b') in *. set (M := map fst m') in *. set (AA := map fst a') in *.
  clear Gb Gm Ga Hb Hm Ha Hl.
  assert (U : forall (c : comparison) (l1 l2 r1 r2 : list nat),
    (forall x, In x l1 -> acmp st k x = Ok c) -> (forall x, In x l2 -> acmp st k x = Ok c) ->
    (forall x, In x r1 -> acmp st k x <> Ok c) -> (forall x, In x r2 -> acmp st k x <> Ok c) ->
    l1 ++ r1 = l2 ++ r2 -> l1 = l2 /\ r1 = r2).
  { clear. intros c. induction l1 as [|x l1 IH]; intros [|y l2] r1 r2 H1 H2 H3 H4 E; simpl in *; auto.
    - exfalso. subst r1. apply (H3 y); [left; auto|]. apply H2. left; auto.
    - exfalso. subst r2. apply (H4 x); [left; auto|]. apply H1. left; auto.
    - injection E as -> E. destruct (IH l2 r1 r2) as [-> ->]; auto. }
  assert (X1 : forall x, In x B -> acmp st k x = Ok Gt) by (intros x Hx; apply (C Gt); auto).
  assert (X2 : forall x, In x M -> acmp st k x = Ok Eq) by (intros x Hx; apply (C Eq); auto).
  assert (X3 : forall x, In x AA -> acmp st k x = Ok Lt) by (intros x Hx; apply (C Lt); auto).
  assert (Y1 : forall x, In x b -> acmp st k x = Ok Gt) by (intros x Hx; apply (F Gt); auto).
  assert (Y2 : forall x, In x m -> acmp st k x = Ok Eq) by (intros x Hx; apply (F Eq); auto).
  assert (Y3 : forall x, In x a -> acmp st k x = Ok Lt) by (intros x Hx; apply (F Lt); auto).
  destruct (U Gt B b (M ++ AA) (m ++ a) X1 Y1) as [EB E2].
  { intros x Hx. apply in_app_iff in Hx as [Hx|Hx]; [rewrite (X2 x Hx)|rewrite (X3 x Hx)]; discriminate. }
  { intros x Hx. apply in_app_iff in Hx as [Hx|Hx]; [rewrite (Y2 x Hx)|rewrite (Y3 x Hx)]; discriminate. }
  { exact E. }
  destruct (U Eq M m AA a X2 Y2) as [EM EA]; auto.
  { intros x Hx. rewrite (X3 x Hx). discriminate. }
  { intros x Hx. rewrite (Y3 x Hx). discriminate. }
Qed.

Lemma add_key_ok : forall st k b a t, holds t (b ++ a) -> sits st k b [] a ->
  slab_contains st k = true ->
  exists t', add_key partial_cmp t k st = Ok t' /\ holds t' (b ++ k :: a).
Proof.
  intros st k b a t [E S] H C. unfold add_key, ss_insert, check. rewrite C. cbn [bind].
  change (b ++ a) with (b ++ [] ++ a) in E.
  destruct (st_insert_ok (acmp st) (acmp st k) k (fun _ => eq_refl) t tt (sits_qsorted _ _ _ _ _ _ H E))
    as (b' & m' & a' & t' & P & G1 & G2 & G3 & Q).
  destruct (parts_unique _ _ _ _ _ _ _ _ _ H E P G1 G2 G3) as (E1 & E2 & E3).
  destruct m' as [|? ?]; [|discriminate]. destruct Q as [Q1 Q2]. rewrite Q1. cbn [bind].
  eexists. split; [reflexivity|]. split; simpl.
  - rewrite Q2, map_app. simpl. congruence.
  - rewrite S, !app_length. simpl. lia.
Qed.
Lemma add_key_dup : forall st k b x a t, holds t (b ++ x :: a) -> sits st k b [x] a ->
  exists msg, add_key partial_cmp t k st = Panic msg.
Proof.
  intros st k b x a t [E S] H. unfold add_key, ss_insert, check.
  destruct (slab_contains st k); cbn [bind]; [|eauto].
  change (b ++ x :: a) with (b ++ [x] ++ a) in E.
  destruct (st_insert_ok (acmp st) (acmp st k) k (fun _ => eq_refl) t tt (sits_qsorted _ _ _ _ _ _ H E))
    as (b' & m' & a' & t' & P & G1 & G2 & G3 & Q).
  destruct (parts_unique _ _ _ _ _ _ _ _ _ H E P G1 G2 G3) as (E1 & E2 & E3).
  destruct m' as [|[? ?] [|? ?]]; try discriminate; try contradiction. destruct Q as [Q1 Q2]. rewrite Q1. cbn [bind].
  eauto.
Qed.
Lemma remove_key_ok : forall st k b x a t, holds t (b ++ x :: a) -> sits st k b [x] a ->
  slab_contains st k = true ->
  exists t', remove_key partial_cmp t k st = Ok t' /\ holds t' (b ++ a).
Proof.
  intros st k b x a t [E S] H C. unfold remove_key, ss_remove, check. rewrite C. cbn [bind].
  change (b ++ x :: a) with (b ++ [x] ++ a) in E.
  assert (SZ : size t = List.length (entries (root t))).
  { rewrite S. rewrite <- (map_length fst), E. reflexivity. }
  destruct (st_remove_ok (acmp st) (acmp st k) k (fun _ => eq_refl) t (sits_qsorted _ _ _ _ _ _ H E) SZ)
    as (b' & m' & a' & t' & P & G1 & G2 & G3 & Q2 & Q1).
  destruct (parts_unique _ _ _ _ _ _ _ _ _ H E P G1 G2 G3) as (E1 & E2 & E3).
  destruct m' as [|[? ?] [|? ?]]; try discriminate; try contradiction. rewrite Q1. cbn [bind].
  eexists. split; [reflexivity|]. split; simpl.
  - rewrite Q2, map_app. congruence.
  - rewrite S, !app_length. simpl. lia.
Qed.
Lemma remove_key_absent : forall st k b a t, holds t (b ++ a) -> sits st k b [] a ->
  exists msg, remove_key partial_cmp t k st = Panic msg.
Proof.
  intros st k b a t [E S] H. unfold remove_key, ss_remove, check.
  destruct (slab_contains st k); cbn [bind]; [|eauto].
  change (b ++ a) with (b ++ [] ++ a) in E.
  assert (SZ : size t = List.length (entries (root t))).
  { rewrite S. rewrite <- (map_length fst), E. reflexivity. }
  destruct (st_remove_ok (acmp st) (acmp st k) k (fun _ => eq_refl) t (sits_qsorted _ _ _ _ _ _ H E) SZ)
    as (b' & m' & a' & t' & P & G1 & G2 & G3 & Q2 & Q1).
  destruct (parts_unique _ _ _ _ _ _ _ _ _ H E P G1 G2 G3) as (E1 & E2 & E3).
  destruct m' as [|? ?]; [|discriminate]. rewrite Q1. cbn [bind]. eauto.
Qed.
End Act.
