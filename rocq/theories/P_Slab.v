(** Proofs about the slab model. *)
Require Import List String Bool Arith Lia.
From Verif Require Import Base M_Slab.
Import ListNotations.

Section S.
Context {A : Type}.

(** The free list threads distinct vacant entries and ends at the length. *)
Fixpoint free_chain (es : list (entry A)) (k : nat) (l : list nat) : Prop :=
  match l with
  | [] => k = List.length es
  | x :: l' => k = x /\ exists n, nth_error es x = Some (Vacant n) /\ free_chain es n l'
  end.
Definition slab_wf (s : slab A) : Prop :=
  exists l, NoDup l /\ free_chain (s_entries s) (s_next s) l.

Lemma list_set_length : forall {B} (l : list B) n b, List.length (list_set n b l) = List.length l.
Proof. induction l as [|x l IH]; intros [|n] b; simpl; auto. Qed.
Lemma list_set_same : forall {B} (l : list B) n b, n < List.length l -> nth_error (list_set n b l) n = Some b.
Proof. induction l as [|x l IH]; intros [|n] b H; simpl in *; try lia; auto. apply IH; lia. Qed.
Lemma list_set_other : forall {B} (l : list B) n m b, n <> m -> nth_error (list_set n b l) m = nth_error l m.
Proof. induction l as [|x l IH]; intros [|n] [|m] b H; simpl in *; try lia; auto. Qed.

Lemma free_chain_frame : forall es es' l k, List.length es = List.length es' ->
  (forall x, In x l -> nth_error es' x = nth_error es x) -> free_chain es k l -> free_chain es' k l.
Proof.
  intros es es' l. induction l as [|x l IH]; intros k L H F; simpl in *.
  - congruence.
  - destruct F as (-> & n & E & F). split; auto. exists n. split; [rewrite H; auto|]. apply IH; auto.
Qed.
Lemma slab_new_wf : slab_wf slab_new.
Proof. exists []. split; [constructor|reflexivity]. Qed.
Lemma slab_get_new : forall k, slab_get (A := A) slab_new k = None.
Proof. intros [|k]; reflexivity. Qed.

Lemma slab_get_lt : forall (s : slab A) k a, slab_get s k = Some a -> k < List.length (s_entries s).
Proof.
  intros s k a H. unfold slab_get in H. apply nth_error_Some. destruct (nth_error (s_entries s) k); discriminate.
Qed.

Lemma slab_set_ok : forall (s : slab A) k a a', slab_wf s -> slab_get s k = Some a ->
  exists s', slab_set s k a' = Ok s' /\ slab_wf s' /\
    List.length (s_entries s') = List.length (s_entries s) /\
    slab_get s' k = Some a' /\ forall x, x <> k -> slab_get s' x = slab_get s x.
Proof.
  intros s k a a' (l & N & F) H. unfold slab_set. rewrite H. eexists. split; [reflexivity|].
  pose proof (slab_get_lt _ _ _ H) as L. split; [|split; [|split]].
  - exists l. split; auto. simpl. eapply free_chain_frame; [| |exact F].
    + symmetry. apply list_set_length.
    + intros x Hx. apply list_set_other. intros ->.
      assert (V : exists n, nth_error (s_entries s) x = Some (Vacant n)).
      { clear -F Hx. revert F Hx. generalize (s_next s). induction l as [|y l IH]; intros k F Hx; [destruct Hx|].
        simpl in F. destruct F as (-> & n & E & F). destruct Hx as [->|Hx]; eauto. }
      destruct V as (n & V). unfold slab_get in H. rewrite V in H. discriminate.
  - simpl. apply list_set_length.
  - unfold slab_get. simpl. rewrite list_set_same; auto.
  - intros x Hx. unfold slab_get. simpl. rewrite list_set_other; auto.
Qed.

Lemma slab_insert_ok : forall (s : slab A) a, slab_wf s ->
  exists s', slab_insert s a = Ok s' /\ slab_wf s' /\
    (List.length (s_entries s) <= List.length (s_entries s'))%nat /\
    slab_get s (slab_vacant_key s) = None /\
    slab_get s' (slab_vacant_key s) = Some a /\
    forall x, x <> slab_vacant_key s -> slab_get s' x = slab_get s x.
Proof.
  intros s a (l & N & F). unfold slab_insert, slab_vacant_key.
  destruct (Nat.eqb_spec (s_next s) (List.length (s_entries s))) as [E|E].
  - eexists. split; [reflexivity|]. rewrite E. split; [|split; [|split; [|split]]].
    + exists []. split; [constructor|]. simpl. rewrite app_length. simpl. lia.
    + simpl. rewrite app_length. lia.
    + unfold slab_get. rewrite (proj2 (nth_error_None _ _)); auto.
    + unfold slab_get. simpl. rewrite nth_error_app2 by lia. rewrite Nat.sub_diag. reflexivity.
    + intros x Hx. unfold slab_get. simpl. destruct (Nat.lt_ge_cases x (List.length (s_entries s))).
      * rewrite nth_error_app1; auto.
      * rewrite nth_error_app2 by lia. rewrite (proj2 (nth_error_None (s_entries s) x)) by lia.
        destruct (x - List.length (s_entries s)) as [|n] eqn:Q; [lia|]. simpl. destruct n; reflexivity.
  - destruct l as [|x l]; [contradiction|]. simpl in F. destruct F as (Ex & n & En & F). rewrite Ex in *.
    rewrite En. eexists. split; [reflexivity|].
    assert (L : x < List.length (s_entries s)) by (apply nth_error_Some; congruence).
    apply NoDup_cons_iff in N as [N1 N2]. rewrite ?Ex in *. split; [|split; [|split; [|split]]].
    + exists l. split; auto. simpl. eapply free_chain_frame; [| |exact F].
      * symmetry. apply list_set_length.
      * intros y Hy. apply list_set_other. intros Q. apply N1. rewrite Q. exact Hy.
    + simpl. rewrite list_set_length. auto.
    + unfold slab_get. rewrite En. reflexivity.
    + unfold slab_get. simpl. rewrite list_set_same; auto.
    + intros y Hy. unfold slab_get. simpl. rewrite list_set_other; auto.
Qed.

Lemma slab_remove_ok : forall (s : slab A) k a, slab_wf s -> slab_get s k = Some a ->
  exists s', slab_remove s k = Ok (s', a) /\ slab_wf s' /\
    List.length (s_entries s') = List.length (s_entries s) /\
    slab_get s' k = None /\ forall x, x <> k -> slab_get s' x = slab_get s x.
Proof.
  intros s k a (l & N & F) H. unfold slab_remove.
  assert (E : nth_error (s_entries s) k = Some (Occupied a)).
  { unfold slab_get in H. destruct (nth_error (s_entries s) k) as [[|]|]; congruence. }
  rewrite E. eexists. split; [reflexivity|].
  pose proof (slab_get_lt _ _ _ H) as L.
  assert (V : forall x, In x l -> x <> k).
  { intros x Hx ->. assert (V : exists n, nth_error (s_entries s) k = Some (Vacant n)).
    { clear -F Hx. revert F Hx. generalize (s_next s). induction l as [|y l IH]; intros j F Hx; [destruct Hx|].
      simpl in F. destruct F as (-> & n & E & F). destruct Hx as [->|Hx]; eauto. }
    destruct V as (n & V). congruence. }
  split; [|split; [|split]].
  - exists (k :: l). split.
    + constructor; auto. intro K. apply (V k); auto.
    + simpl. split; auto. exists (s_next s). split; [apply list_set_same; auto|].
      eapply free_chain_frame; [| |exact F].
      * symmetry. apply list_set_length.
      * intros x Hx. apply list_set_other. intros ->. apply (V x); auto.
  - simpl. apply list_set_length.
  - unfold slab_get. simpl. rewrite list_set_same; auto.
  - intros x Hx. unfold slab_get. simpl. rewrite list_set_other; auto.
Qed.

Lemma slab_get_unchecked_ok : forall (s : slab A) k a, slab_get s k = Some a -> slab_get_unchecked s k = Ok a.
Proof. intros s k a H. unfold slab_get_unchecked. rewrite H. reflexivity. Qed.
End S.
