(** Property C50 (src/active.rs). *)
Require Import List String Bool Arith Lia Sorted Permutation.
From Verif Require Import Base S_Map M_Splay P_Splay M_Slab M_Active P_Active.
Import ListNotations.

(** The comparisons the set makes through the storage [st] agree, on the keys
    [ks], with the total order [cmp]. *)
Definition ordered_by {A} (pc : A -> A -> option comparison) (st : slab A)
  (cmp : nat -> nat -> comparison) (ks : list nat) : Prop :=
  total_order cmp /\ forall a b, In a ks -> In b ks -> active_cmp pc st a b = Ok (cmp a b).
Definition ascending (cmp : nat -> nat -> comparison) (ks : list nat) : Prop :=
  StronglySorted (fun a b => cmp a b = Lt) ks.

Lemma locate : forall cmp, total_order cmp -> forall k ks, ascending cmp ks ->
  exists b m a, ks = b ++ m ++ a /\ (List.length m <= 1)%nat /\
    (forall x, In x b -> cmp k x = Gt) /\ (forall x, In x m -> cmp k x = Eq) /\ (forall x, In x a -> cmp k x = Lt).
Proof.
  intros cmp TO k ks. induction ks as [|x ks IH]; intros S.
  - exists [], [], []. simpl. repeat split; auto; contradiction.
  - apply StronglySorted_inv in S as [S F]. rewrite Forall_forall in F.
    destruct (IH S) as (b & m & a & -> & L & Hb & Hm & Ha). clear IH.
    assert (T : forall y, cmp k x <> Gt -> cmp x y = Lt -> cmp k y = Lt).
    { intros y H1 H2. pose proof (to_trans cmp TO k x y H1) as T. rewrite H2 in T. specialize (T ltac:(discriminate)).
      destruct (cmp k y) eqn:E; auto; [|contradiction].
      exfalso. pose proof (to_trans cmp TO y k x) as T2. rewrite (to_opp cmp TO k y), E in T2.
      specialize (T2 ltac:(discriminate) H1). rewrite (to_opp cmp TO x y), H2 in T2. apply T2. reflexivity. }
    destruct (cmp k x) eqn:E.
    + exists [], [x], (b ++ m ++ a). simpl. split; auto. split; auto. repeat split; try contradiction.
      * intros y [<-|[]]. auto.
      * intros y Hy. apply T; [discriminate|]. apply F; auto.
    + exists [], [], (x :: b ++ m ++ a). simpl. split; auto. split; auto. repeat split; try contradiction.
      intros y [<-|Hy]; auto. apply T; [discriminate|]. apply F; auto.
    + exists (x :: b), m, a. simpl. repeat split; auto. intros y [<-|Hy]; auto.
Qed.

Section C50.
Context {A : Type} (pc : A -> A -> option comparison).

Lemma locate_sits : forall st cmp k ks, ordered_by pc st cmp (k :: ks) -> ascending cmp ks ->
  exists b m a, ks = b ++ m ++ a /\ sits pc st k b m a /\
    (forall x, In x b -> cmp k x = Gt) /\ (forall x, In x m -> cmp k x = Eq) /\ (forall x, In x a -> cmp k x = Lt).
Proof.
  intros st cmp k ks [TO H] S. destruct (locate cmp TO k ks S) as (b & m & a & -> & L & Hb & Hm & Ha).
  exists b, m, a. split; auto. split; [|auto]. repeat split; auto; intros x Hx; rewrite H; simpl; auto;
    try (right; rewrite !in_app_iff; auto); f_equal; auto.
Qed.

Lemma rev_hd_last : forall (b : list nat),
  match hd_error (rev b) with
  | Some x => In x b /\ exists b0, b = b0 ++ [x]
  | None => b = []
  end.
Proof.
  intros b. destruct (rev b) as [|x r] eqn:E; simpl.
  - apply (f_equal (@rev nat)) in E. rewrite rev_involutive in E. auto.
  - apply (f_equal (@rev nat)) in E. rewrite rev_involutive in E. simpl in E. subst b. split.
    + apply in_app_iff. right. left; auto.
    + eauto.
Qed.

(** C50, lookups: the immediate neighbours of the query among the keys of the
    set, which keeps its content. *)
Theorem C50_neighbours : forall st cmp t ks k,
  holds t ks -> ordered_by pc st cmp (k :: ks) -> ascending cmp ks ->
  (exists t' o, prev_key pc t k st = Ok (t', o) /\ holds t' ks /\
     match o with
     | Some x => In x ks /\ cmp x k = Lt /\ forall y, In y ks -> cmp y k = Lt -> cmp y x <> Gt
     | None => forall y, In y ks -> cmp y k <> Lt
     end) /\
  (exists t' o, next_key pc t k st = Ok (t', o) /\ holds t' ks /\
     match o with
     | Some x => In x ks /\ cmp k x = Lt /\ forall y, In y ks -> cmp k y = Lt -> cmp x y <> Gt
     | None => forall y, In y ks -> cmp k y <> Lt
     end).
Proof.
  intros st cmp t ks k Ht Ho Hs.
  destruct (locate_sits st cmp k ks Ho Hs) as (b & m & a & -> & St & Hb & Hm & Ha).
  destruct Ho as [TO Ho].
  assert (OPP : forall x, cmp x k = Lt <-> cmp k x = Gt).
  { intros x. rewrite (to_opp cmp TO k x). destruct (cmp k x); simpl; split; intro; congruence. }
  split.
  - destruct (prev_key_ok pc st k b m a t Ht St) as (t' & E & H'). exists t', (hd_error (rev b)).
    split; [exact E|]. split; [exact H'|].
    pose proof (rev_hd_last b) as R. destruct (hd_error (rev b)) as [x|].
    + destruct R as [Hx (b0 & ->)]. split; [rewrite !in_app_iff in *; auto|]. split; [apply OPP; auto|].
      intros y Hy Ly. apply OPP in Ly. rewrite !in_app_iff in Hy. destruct Hy as [[Hy|[<-|[]]]|[Hy|Hy]].
      * unfold ascending in Hs. rewrite <- !app_assoc in Hs. apply ss_app in Hs as (_ & _ & Hs).
        rewrite (Hs y x); [discriminate|auto|left; auto].
      * pose proof (to_opp cmp TO x x) as Q. destruct (cmp x x); simpl in Q; try discriminate; congruence.
      * rewrite (Hm y Hy) in Ly. discriminate.
      * rewrite (Ha y Hy) in Ly. discriminate.
    + subst b. simpl. intros y Hy Ly. apply OPP in Ly. rewrite in_app_iff in Hy. destruct Hy as [Hy|Hy].
      * rewrite (Hm y Hy) in Ly. discriminate.
      * rewrite (Ha y Hy) in Ly. discriminate.
  - destruct (next_key_ok pc st k b m a t Ht St) as (t' & E & H'). exists t', (hd_error a).
    split; [exact E|]. split; [exact H'|].
    destruct a as [|x a]; simpl.
    + intros y Hy Ly. rewrite !in_app_iff in Hy. destruct Hy as [Hy|[Hy|[]]].
      * rewrite (Hb y Hy) in Ly. discriminate.
      * rewrite (Hm y Hy) in Ly. discriminate.
    + split; [rewrite !in_app_iff; simpl; auto|]. split; [apply Ha; left; auto|].
      intros y Hy Ly. rewrite !in_app_iff in Hy. destruct Hy as [Hy|[Hy|[<-|Hy]]].
      * rewrite (Hb y Hy) in Ly. discriminate.
      * rewrite (Hm y Hy) in Ly. discriminate.
      * pose proof (to_opp cmp TO x x) as Q. destruct (cmp x x); simpl in Q; try discriminate; congruence.
      * unfold ascending in Hs. rewrite app_assoc in Hs. apply ss_app in Hs as (_ & Hs & _).
        apply StronglySorted_inv in Hs as [_ F]. rewrite Forall_forall in F. rewrite (F y Hy). discriminate.
Qed.

(** C50, insertion: panics iff an equal key is present, else the set holds the
    old keys and the new one, still ascending. *)
Theorem C50_add_key : forall st cmp t ks k,
  holds t ks -> ordered_by pc st cmp (k :: ks) -> ascending cmp ks ->
  ((exists y, In y ks /\ cmp k y = Eq) -> exists msg, add_key pc t k st = Panic msg) /\
  ((forall y, In y ks -> cmp k y <> Eq) -> slab_contains st k = true ->
   exists t' ks', add_key pc t k st = Ok t' /\ holds t' ks' /\ ascending cmp ks' /\ Permutation ks' (k :: ks)).
Proof.
  intros st cmp t ks k Ht Ho Hs.
  destruct (locate_sits st cmp k ks Ho Hs) as (b & m & a & -> & St & Hb & Hm & Ha).
  destruct Ho as [TO Ho]. split.
  - intros (y & Hy & Ey). rewrite !in_app_iff in Hy. destruct Hy as [Hy|[Hy|Hy]].
    + rewrite (Hb y Hy) in Ey. discriminate.
    + destruct m as [|x [|? ?]]; [contradiction| |destruct St as (_ & _ & _ & L); simpl in L; lia].
      eapply add_key_dup; eassumption.
    + rewrite (Ha y Hy) in Ey. discriminate.
  - intros N C. destruct m as [|x m].
    + destruct (add_key_ok pc st k b a t Ht St C) as (t' & E & H'). exists t', (b ++ k :: a).
      split; [exact E|]. split; [exact H'|]. split; [|symmetry; apply Permutation_middle].
      unfold ascending in *. simpl in Hs. apply ss_app in Hs as (S1 & S2 & S3). apply ss_app. split; auto. split.
      * constructor; auto. apply Forall_forall. auto.
      * intros u v Hu [<-|Hv]; auto. rewrite (to_opp cmp TO k u), (Hb u Hu). reflexivity.
    + exfalso. apply (N x); [rewrite !in_app_iff; simpl; auto|]. apply Hm. left; auto.
Qed.

(** C50, removal: panics iff no equal key is present, else exactly the equal key
    goes. *)
Theorem C50_remove_key : forall st cmp t ks k,
  holds t ks -> ordered_by pc st cmp (k :: ks) -> ascending cmp ks ->
  ((forall y, In y ks -> cmp k y <> Eq) -> exists msg, remove_key pc t k st = Panic msg) /\
  (forall y, In y ks -> cmp k y = Eq -> slab_contains st k = true ->
   exists t' ks', remove_key pc t k st = Ok t' /\ holds t' ks' /\ ascending cmp ks' /\ Permutation ks (y :: ks')).
Proof.
  intros st cmp t ks k Ht Ho Hs.
  destruct (locate_sits st cmp k ks Ho Hs) as (b & m & a & -> & St & Hb & Hm & Ha).
  destruct Ho as [TO Ho]. split.
  - intros N. destruct m as [|x m].
    + eapply remove_key_absent; eassumption.
    + exfalso. apply (N x); [rewrite !in_app_iff; simpl; auto|]. apply Hm. left; auto.
  - intros y Hy Ey C. rewrite !in_app_iff in Hy. destruct Hy as [Hy|[Hy|Hy]].
    + rewrite (Hb y Hy) in Ey. discriminate.
    + destruct m as [|x [|? ?]]; [contradiction| |destruct St as (_ & _ & _ & L); simpl in L; lia].
      destruct Hy as [->|[]].
      destruct (remove_key_ok pc st k b y a t Ht St C) as (t' & E & H'). exists t', (b ++ a).
      split; [exact E|]. split; [exact H'|]. split; [|simpl; symmetry; apply Permutation_middle].
      unfold ascending in *. simpl in Hs. apply ss_app in Hs as (S1 & S2 & S3).
      apply StronglySorted_inv in S2 as [S2 _]. apply ss_app. repeat split; auto.
      intros u v Hu Hv. apply S3; auto. right; auto.
    + rewrite (Ha y Hy) in Ey. discriminate.
Qed.
End C50.

(** The hypotheses are met: storage 7, 3, 5 under keys 0, 1, 2, compared as
    numbers; the set holds keys 1 and 2 (values 3 and 5), the query is key 0. *)
Definition ex_st : slab nat := mkSlab [Occupied 7; Occupied 3; Occupied 5] 3.
Definition ex_val (k : nat) : nat := nth k [7; 3; 5] 0.
Definition ex_pc (a b : nat) : option comparison := Some (Nat.compare a b).
Definition ex_cmp (a b : nat) : comparison := Nat.compare (ex_val a) (ex_val b).
Example C50_case : exists t,
  (let* t1 := add_key ex_pc active_new 2 ex_st in add_key ex_pc t1 1 ex_st) = Ok t /\
  holds t [1; 2] /\ ordered_by ex_pc ex_st ex_cmp [0; 1; 2] /\ ascending ex_cmp [1; 2] /\
  exists t', prev_key ex_pc t 0 ex_st = Ok (t', Some 2).
Proof.
  eexists. split; [vm_compute; reflexivity|]. split; [split; reflexivity|]. split.
  - split.
    + split.
      * intros a b. unfold ex_cmp. apply Nat.compare_antisym.
      * intros a b c. unfold ex_cmp. rewrite !Nat.compare_le_iff. lia.
    + intros a b Ha Hb. simpl in Ha, Hb.
      destruct Ha as [<-|[<-|[<-|[]]]], Hb as [<-|[<-|[<-|[]]]]; reflexivity.
  - split.
    + repeat constructor.
    + eexists. vm_compute. reflexivity.
Qed.
Print Assumptions C50_neighbours.
Print Assumptions C50_add_key.
Print Assumptions C50_remove_key.
