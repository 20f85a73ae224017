(** Searching a sorted set, whatever the order of the comparisons. *)
Require Import List String Bool Arith Lia.
From Verif Require Import Base M_Events M_Slab M_MonoSweep P_Slab.
Import ListNotations.
Local Open Scope nat_scope.

Section Tree.
Variable pick : list nat -> nat -> nat -> nat.
Variable cmp : nat -> nat -> res comparison.

Lemma bt_step : forall n l lo hi key, lo < hi -> hi <= List.length l ->
  exists i k, lo <= i < hi /\ nth_error l i = Some k /\
    bt_search pick cmp (S n) l lo hi key =
      (let* o := cmp key k in
       match o with Lt => bt_search pick cmp n l lo i key | Eq => Ok (true, i) | Gt => bt_search pick cmp n l (S i) hi key end).
Proof.
  intros n l lo hi key L1 L2. set (i := lo + pick l lo hi mod (hi - lo)).
  assert (Li : lo <= i < hi) by (unfold i; pose proof (Nat.mod_upper_bound (pick l lo hi) (hi - lo)); lia).
  destruct (nth_error l i) as [k|] eqn:E; [|apply nth_error_None in E; lia].
  exists i, k. split; auto. split; auto. cbn [bt_search]. destruct (Nat.leb_spec hi lo) as [Z|_]; [lia|]. fold i. rewrite E. reflexivity.
Qed.

Lemma nth_mid : forall {X} (A : list X) x B, nth_error (A ++ x :: B) (List.length A) = Some x.
Proof. intros. rewrite nth_error_app2, Nat.sub_diag by lia. reflexivity. Qed.

(** The key is not in the set: the position where it belongs. *)
Lemma bt_absent : forall A B key, (forall a, In a A -> cmp key a = Ok Gt) -> (forall b, In b B -> cmp key b = Ok Lt) ->
  bt_find pick cmp (A ++ B) key = Ok (false, List.length A).
Proof.
  intros A B key HA HB. unfold bt_find.
  assert (G : forall n lo hi, lo <= List.length A -> List.length A <= hi -> hi <= List.length (A ++ B) -> hi - lo < n ->
    bt_search pick cmp n (A ++ B) lo hi key = Ok (false, List.length A)).
  { induction n as [|n IH]; intros lo hi L1 L2 L3 L4; [lia|]. destruct (Nat.eq_dec lo hi) as [->|Ne].
    - cbn [bt_search]. rewrite Nat.leb_refl. repeat f_equal. lia.
    - destruct (bt_step n (A ++ B) lo hi key) as (i & k & Li & Ni & ->); [lia|auto|].
      destruct (lt_dec i (List.length A)) as [La|La].
      + rewrite nth_error_app1 in Ni by auto. apply nth_error_In in Ni. rewrite (HA _ Ni). cbn [bind]. apply IH; lia.
      + rewrite nth_error_app2 in Ni by lia. apply nth_error_In in Ni. rewrite (HB _ Ni). cbn [bind]. apply IH; lia. }
  apply G; try lia. rewrite app_length. lia.
Qed.
(** The key is in the set. *)
Lemma bt_present : forall A B key, (forall a, In a A -> cmp key a = Ok Gt) -> (forall b, In b B -> cmp key b = Ok Lt) -> cmp key key = Ok Eq ->
  bt_find pick cmp (A ++ key :: B) key = Ok (true, List.length A).
Proof.
  intros A B key HA HB HE. unfold bt_find.
  assert (G : forall n lo hi, lo <= List.length A -> List.length A < hi -> hi <= List.length (A ++ key :: B) -> hi - lo < n ->
    bt_search pick cmp n (A ++ key :: B) lo hi key = Ok (true, List.length A)).
  { induction n as [|n IH]; intros lo hi L1 L2 L3 L4; [lia|].
    destruct (bt_step n (A ++ key :: B) lo hi key) as (i & k & Li & Ni & ->); [lia|auto|].
    destruct (lt_eq_lt_dec i (List.length A)) as [[La| ->]|La].
    - rewrite nth_error_app1 in Ni by auto. apply nth_error_In in Ni. rewrite (HA _ Ni). cbn [bind]. apply IH; lia.
    - rewrite nth_mid in Ni. injection Ni as <-. rewrite HE. reflexivity.
    - rewrite nth_error_app2 in Ni by lia. destruct (i - List.length A) as [|j] eqn:Ej; [lia|]. cbn in Ni. apply nth_error_In in Ni. rewrite (HB _ Ni). cbn [bind]. apply IH; lia. }
  apply G; try lia; rewrite app_length; cbn; lia.
Qed.

Lemma remove_nth_mid : forall A (x : nat) B, remove_nth (List.length A) (A ++ x :: B) = A ++ B.
Proof. induction A as [|a A IH]; intros x B; [reflexivity|]. cbn. f_equal. apply IH. Qed.

Lemma bt_remove_ok : forall A B key, (forall a, In a A -> cmp key a = Ok Gt) -> (forall b, In b B -> cmp key b = Ok Lt) -> cmp key key = Ok Eq ->
  bt_remove pick cmp (A ++ key :: B) key = Ok (A ++ B).
Proof. intros A B key HA HB HE. unfold bt_remove. rewrite bt_present by auto. cbn [bind check]. rewrite remove_nth_mid. reflexivity. Qed.
Lemma bt_insert_ok : forall A B key, (forall a, In a A -> cmp key a = Ok Gt) -> (forall b, In b B -> cmp key b = Ok Lt) ->
  bt_insert pick cmp (A ++ B) key = Ok (A ++ key :: B).
Proof.
  intros A B key HA HB. unfold bt_insert. rewrite bt_absent by auto. cbn [bind check negb].
  rewrite firstn_app, firstn_all, Nat.sub_diag. cbn [firstn]. rewrite app_nil_r, skipn_app, skipn_all, Nat.sub_diag. reflexivity.
Qed.
Lemma bt_next_ok : forall A B key, (forall a, In a A -> cmp key a = Ok Gt) -> (forall b, In b B -> cmp key b = Ok Lt) ->
  bt_next_key pick cmp (A ++ B) key = Ok (hd_error B).
Proof.
  intros A B key HA HB. unfold bt_next_key. rewrite bt_absent by auto. cbn [bind]. rewrite nth_error_app2, Nat.sub_diag by lia. destruct B; reflexivity.
Qed.
End Tree.
