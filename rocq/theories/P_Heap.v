(** The event queue. *)
Require Import List Bool Arith Lia Permutation.
From Verif Require Import Base Scalar M_Events S_Geo P_Geo.
Import ListNotations.
Local Open Scope nat_scope.

(** [a] is handled no later than [b]. *)
Definition ev_le (a b : event) : Prop :=
  lex_lt (ev_point a) (ev_point b) \/ (ev_point a = ev_point b /\ ty_rank (ev_ty a) <= ty_rank (ev_ty b)).
Lemma ev_le_refl : forall a, ev_le a a.
Proof. right; auto. Qed.
Lemma ev_le_trans : forall a b c, ev_le a b -> ev_le b c -> ev_le a c.
Proof.
  intros a b c [L|[E L]] [L'|[E' L']].
  - left. lord.
  - left. rewrite <- E'. auto.
  - left. rewrite E. auto.
  - right. split; [congruence|lia].
Qed.
Lemma ev_le_total : forall a b, ev_le a b \/ ev_le b a.
Proof.
  intros a b. destruct (lex_total (ev_point a) (ev_point b)) as [[L|L]|L]; [left; left; auto| |right; left; auto].
  destruct (le_ge_dec (ty_rank (ev_ty a)) (ty_rank (ev_ty b))); [left|right]; right; auto.
Qed.
Lemma ev_cmp_le : forall a b, (match ev_cmp a b with Lt => false | _ => true end) = true <-> ev_le a b.
Proof.
  intros a b. unfold ev_cmp, ev_le, ty_cmp. destruct (pcmp_spec (ev_point a) (ev_point b)) as [E|E|E].
  - destruct (Nat.compare_spec (ty_rank (ev_ty a)) (ty_rank (ev_ty b))) as [Q|Q|Q]; simpl; split; intro K; auto; try discriminate.
    + right. split; auto. lia.
    + right. split; auto. lia.
    + exfalso. rewrite E in K. destruct K as [K|[_ K]]; [lord|lia].
  - simpl. split; auto.
  - simpl. split; [discriminate|]. intros [K|[K _]]; [lord|]. rewrite K in E. lord.
Qed.
Lemma is_max_ok : forall h e, is_max h e = true <-> (forall x, In x h -> ev_le e x).
Proof.
  intros h e. unfold is_max. rewrite forallb_forall. split; intros K x Hx; apply ev_cmp_le; auto.
Qed.
Lemma max_exists : forall h, h <> [] -> exists e, In e h /\ is_max h e = true.
Proof.
  intros h N.
  assert (G : exists e, In e h /\ forall x, In x h -> ev_le e x).
  { induction h as [|a h IH]; [contradiction|]. destruct h as [|b h].
    - exists a. split; [left; auto|]. intros x [<-|[]]. apply ev_le_refl.
    - destruct IH as (e & I & M); [discriminate|]. destruct (ev_le_total a e) as [L|L].
      + exists a. split; [left; auto|]. intros x [<-|Hx]; [apply ev_le_refl|eapply ev_le_trans; eauto].
      + exists e. split; [right; auto|]. intros x [<-|Hx]; auto. }
  destruct G as (e & I & M). exists e. split; auto. apply is_max_ok; auto.
Qed.

Lemma remove_nth_perm : forall {A} i (l : list A) a, nth_error l i = Some a -> Permutation l (a :: remove_nth i l).
Proof.
  intros A i. induction i as [|i IH]; intros [|x l] a E; try discriminate.
  - injection E as ->. reflexivity.
  - simpl in *. rewrite (IH l a E) at 1. apply perm_swap.
Qed.
Lemma max_positions_in : forall h all i j, In j (max_positions h all i) ->
  i <= j /\ exists e, nth_error h (j - i) = Some e /\ is_max all e = true.
Proof.
  induction h as [|a h IH]; intros all i j K; simpl in K; [destruct K|].
  destruct (is_max all a) eqn:E.
  - destruct K as [<-|K].
    + split; auto. exists a. rewrite Nat.sub_diag. auto.
    + destruct (IH _ _ _ K) as (L & e & N & M). split; [lia|]. exists e. replace (j - i) with (Datatypes.S (j - Datatypes.S i)) by lia. auto.
  - destruct (IH _ _ _ K) as (L & e & N & M). split; [lia|]. exists e. replace (j - i) with (Datatypes.S (j - Datatypes.S i)) by lia. auto.
Qed.
Lemma max_positions_ne : forall h all i e, In e h -> is_max all e = true -> max_positions h all i <> [].
Proof.
  induction h as [|a h IH]; intros all i e I M; [destruct I|]. simpl. destruct (is_max all a) eqn:E; [discriminate|].
  destruct I as [<-|I]; [congruence|]. eapply IH; eauto.
Qed.
(** Whatever the order among equals, pop takes an event none precedes. *)
Lemma heap_pop_ok : forall c h, h <> [] ->
  exists e h', heap_pop c h = Some (e, h') /\ Permutation h (e :: h') /\ (forall x, In x h -> ev_le e x).
Proof.
  intros c h N. unfold heap_pop. set (ps := max_positions h h 0).
  assert (P : ps <> []).
  { destruct (max_exists h N) as (e & I & M). eapply max_positions_ne; eauto. }
  assert (L : Nat.min (Nat.pred (List.length ps)) c < List.length ps) by (destruct ps; [contradiction|cbn [List.length Nat.pred]; lia]).
  destruct (nth_error ps (Nat.min (Nat.pred (List.length ps)) c)) as [i|] eqn:E; [|apply nth_error_None in E; lia].
  apply nth_error_In in E. apply max_positions_in in E as (_ & e & E & M). rewrite Nat.sub_0_r in E. rewrite E.
  exists e, (remove_nth i h). split; [auto|split; [apply remove_nth_perm; auto|]]. apply is_max_ok; auto.
Qed.
Lemma heap_pop_nil : forall c, heap_pop c [] = None.
Proof. intros. unfold heap_pop. reflexivity. Qed.
Lemma heap_peek_ok : forall h, h <> [] -> exists e, heap_peek h = Some e /\ In e h /\ (forall x, In x h -> ev_le e x).
Proof.
  intros h N. unfold heap_peek. destruct (find (is_max h) h) as [e|] eqn:E.
  - apply find_some in E as [I M]. exists e. split; [auto|split; auto]. apply is_max_ok; auto.
  - exfalso. destruct (max_exists h N) as (e & I & M). eapply find_none in E; eauto. congruence.
Qed.
