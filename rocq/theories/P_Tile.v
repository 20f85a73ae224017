(** Segments cut into consecutive pieces. *)
Require Import List Bool Arith Lia Permutation Sorted.
From Verif Require Import Base Scalar M_Events S_Geo P_Geo P_Chain.
Import ListNotations.
Local Open Scope Qc_scope.

(** ** Geometry of points on one segment *)
Lemma on_seg_convex : forall a b x y r, on_seg a b x -> on_seg a b y -> on_seg x y r -> on_seg a b r.
Proof.
  intros a b x y r (s & S0 & S1 & Sx & Sy) (t & T0 & T1 & Tx & Ty) (w & W0 & W1 & Wx & Wy).
  exists (s + w * (t - s)). rewrite Wx, Wy, Sx, Sy, Tx, Ty. repeat split.
  - destruct (Qc_trichotomy s t) as [[L|L]|L]; qc.
  - destruct (Qc_trichotomy s t) as [[L|L]|L]; qc.
  - ring.
  - ring.
Qed.
Lemma on_seg_mid : forall a b x y v, on_seg a b x -> on_seg a b y -> on_seg a b v ->
  lex_lt x y -> lex_le x v -> lex_le v y -> on_seg x y v.
Proof.
  intros a b x y v (s & S0 & S1 & Sx & Sy) (t & T0 & T1 & Tx & Ty) (w & W0 & W1 & Wx & Wy) L L1 L2.
  apply on_seg_iff; auto. split; [|auto]. unfold cross. rewrite Wx, Wy, Sx, Sy, Tx, Ty. ring.
Qed.

(** The consecutive pairs of a list of points. *)
Fixpoint steps (a : pt) (xs : list pt) : list (pt * pt) :=
  match xs with
  | [] => []
  | x :: xs' => (a, x) :: steps x xs'
  end.
Lemma steps_app : forall xs a ys, steps a (xs ++ ys) = steps a xs ++ steps (last xs a) ys.
Proof.
  induction xs as [|x xs IH]; intros a ys; [reflexivity|]. rewrite last_cons. simpl app. cbn [steps]. rewrite IH. reflexivity.
Qed.
Lemma steps_split : forall xs a x y, In (x, y) (steps a xs) ->
  exists xs1 xs2, xs = xs1 ++ y :: xs2 /\ last xs1 a = x /\ steps a xs = steps a xs1 ++ (x, y) :: steps y xs2.
Proof.
  induction xs as [|z xs IH]; intros a x y K; [destruct K|]. cbn [steps] in K. destruct K as [K|K].
  - injection K as -> ->. exists [], xs. repeat split.
  - destruct (IH _ _ _ K) as (xs1 & xs2 & E1 & E2 & E3). exists (z :: xs1), xs2.
    split; [simpl; congruence|]. split; [rewrite last_cons; auto|]. cbn [steps app]. rewrite E3. reflexivity.
Qed.
Lemma steps_snd : forall xs a, map snd (steps a xs) = xs.
Proof. induction xs as [|x xs IH]; intros; simpl; f_equal; auto. Qed.
Lemma steps_fst : forall xs a, a :: xs = map fst (steps a xs) ++ [last xs a].
Proof.
  induction xs as [|x xs IH]; intros a; [reflexivity|]. rewrite last_cons. cbn [steps map fst app]. f_equal. apply IH.
Qed.
Lemma steps_length : forall xs a, List.length (steps a xs) = List.length xs.
Proof. intros. rewrite <- (map_length snd), steps_snd. reflexivity. Qed.
Notation ssorted := (StronglySorted lex_lt).
Lemma ssorted_NoDup : forall l, ssorted l -> NoDup l.
Proof.
  intros l K. induction K as [|a l K IH F]; constructor; auto. intro I. rewrite Forall_forall in F. apply F in I. lord.
Qed.
Lemma last_in : forall {X} (l : list X) d, In (last l d) (d :: l).
Proof.
  intros X l. induction l as [|x l IH]; intros d; [left; auto|]. rewrite last_cons. right. apply IH.
Qed.
Lemma steps_in : forall xs a x y, ssorted (a :: xs) -> In (x, y) (steps a xs) -> lex_lt x y /\ In x (a :: xs) /\ In y xs.
Proof.
  induction xs as [|z xs IH]; intros a x y K I; [destruct I|]. inversion K as [|? ? K1 F]; subst. cbn [steps] in I. destruct I as [I|I].
  - injection I as <- <-. inversion F; subst. split; [auto|split; left; auto].
  - destruct (IH _ _ _ K1 I) as (A & B & D). split; [auto|split; [right; auto|right; auto]].
Qed.
Lemma ssorted_app : forall l1 l2, ssorted (l1 ++ l2) <-> ssorted l1 /\ ssorted l2 /\ (forall a b, In a l1 -> In b l2 -> lex_lt a b).
Proof.
  intros l1 l2. induction l1 as [|x l1 IH]; simpl.
  - split; [intro K; split; [constructor|split; [auto|intros ? ? []]]|tauto].
  - split.
    + intro K. inversion K as [|? ? K1 F]; subst. apply IH in K1 as (A & B & D). rewrite Forall_app in F. destruct F as [F1 F2].
      split; [constructor; auto|split; [auto|]]. rewrite Forall_forall in F2. intros a b [<-|I] J; auto.
    + intros (A & B & D). inversion A as [|? ? A1 F]; subst. constructor.
      * apply IH. split; [auto|split; auto].
      * apply Forall_app. split; auto. apply Forall_forall. auto.
Qed.
Lemma ssorted_last : forall xs a x, ssorted (a :: xs) -> In x (a :: xs) -> lex_le x (last xs a).
Proof.
  induction xs as [|y xs IH]; intros a x K I.
  - destruct I as [<-|[]]. apply lex_le_refl.
  - rewrite last_cons. inversion K as [|? ? K1 F]; subst. destruct I as [<-|I]; [|auto].
    rewrite Forall_forall in F. pose proof (F _ (last_in xs y)). apply lex_lt_le; auto.
Qed.
(** Inserting a breakpoint. *)
Lemma ssorted_ins : forall xs1 r y xs2 a, ssorted (a :: xs1 ++ y :: xs2) -> lex_lt (last xs1 a) r -> lex_lt r y ->
  ssorted (a :: xs1 ++ r :: y :: xs2).
Proof.
  intros xs1 r y xs2 a K L1 L2. change (a :: xs1 ++ y :: xs2) with ((a :: xs1) ++ y :: xs2) in K.
  change (a :: xs1 ++ r :: y :: xs2) with ((a :: xs1) ++ r :: y :: xs2).
  rewrite ssorted_app in *. destruct K as (A & B & D). split; [auto|split].
  - constructor; auto. inversion B as [|? ? B1 F]; subst. constructor; auto. rewrite Forall_forall in *. intros z Hz. specialize (F z Hz). lord.
  - intros z w Hz [<-|Hw]; auto. pose proof (ssorted_last xs1 a z A Hz). lord.
Qed.

Section Tile.
Variable V : list pt.
(** [pcs] cuts the segment [a b] at points of [V]. *)
Definition tile (a b : pt) (pcs : list (pt * pt)) : Prop :=
  exists xs, ssorted (a :: xs) /\ last xs a = b /\ Forall (fun x => In x V /\ on_seg a b x) (a :: xs) /\
    Permutation (steps a xs) pcs.

Lemma tile_perm : forall a b p p', Permutation p p' -> tile a b p -> tile a b p'.
Proof. intros a b p p' P (xs & A & B & D & E). exists xs. repeat split; auto. eapply perm_trans; eauto. Qed.
Lemma tile_init : forall a b, lex_lt a b -> In a V -> In b V -> tile a b [(a, b)].
Proof.
  intros a b L Va Vb. exists [b]. repeat split.
  - constructor; [constructor; constructor|constructor; auto].
  - constructor; [split; auto; apply on_seg_start|constructor; [split; auto; apply on_seg_end|constructor]].
  - reflexivity.
Qed.
Lemma tile_piece : forall a b pcs x y, tile a b pcs -> In (x, y) pcs ->
  lex_lt x y /\ In x V /\ In y V /\ on_seg a b x /\ on_seg a b y /\ lex_le a x /\ lex_le y b.
Proof.
  intros a b pcs x y (xs & A & B & D & E) I. apply Permutation_sym in E. apply (Permutation_in _ E) in I.
  destruct (steps_in _ _ _ _ A I) as (L & I1 & I2). rewrite Forall_forall in D.
  destruct (D x I1). destruct (D y (or_intror I2)). repeat split; auto.
  - inversion A as [|? ? A1 F]; subst. destruct I1 as [<-|I1]; [apply lex_le_refl|]. rewrite Forall_forall in F. apply lex_lt_le; auto.
  - rewrite <- B. apply ssorted_last; auto. right; auto.
Qed.
Lemma tile_split : forall a b x y r rest, tile a b ((x, y) :: rest) -> In r V -> on_seg x y r -> lex_lt x r -> lex_lt r y ->
  tile a b ((x, r) :: (r, y) :: rest).
Proof.
  intros a b x y r rest T Vr O L1 L2.
  destruct (tile_piece _ _ _ x y T (or_introl eq_refl)) as (_ & _ & _ & Ox & Oy & _ & _).
  destruct T as (xs & A & B & D & E).
  assert (I : In (x, y) (steps a xs)) by (eapply Permutation_in; [symmetry; exact E|left; auto]).
  destruct (steps_split _ _ _ _ I) as (xs1 & xs2 & E1 & E2 & E3). subst xs.
  exists (xs1 ++ r :: y :: xs2). split; [|split; [|split]].
  - apply ssorted_ins; auto. rewrite E2. auto.
  - rewrite <- B. clear. revert a. induction xs1 as [|z xs1 IH]; intros a; [rewrite !app_nil_l, !last_cons; auto|].
    simpl app. rewrite !last_cons. apply IH.
  - change (a :: xs1 ++ r :: y :: xs2) with ((a :: xs1) ++ r :: y :: xs2). change (a :: xs1 ++ y :: xs2) with ((a :: xs1) ++ y :: xs2) in D.
    rewrite Forall_app in *. destruct D as [D1 D2]. split; auto. constructor; auto. split; auto. eapply on_seg_convex; [exact Ox|exact Oy|exact O].
  - rewrite steps_app. cbn [steps]. rewrite E2. rewrite E3 in E.
    assert (P : Permutation (steps a xs1 ++ steps y xs2) rest).
    { apply Permutation_cons_inv with (a := (x, y)). rewrite <- E. apply Permutation_middle. }
    rewrite <- P. rewrite <- !Permutation_middle. reflexivity.
Qed.
Lemma tile_NoDup_snd : forall a b pcs, tile a b pcs -> NoDup (map snd pcs).
Proof.
  intros a b pcs (xs & A & B & D & E). eapply Permutation_NoDup; [apply Permutation_map; exact E|]. rewrite steps_snd.
  apply ssorted_NoDup. inversion A; auto.
Qed.
Lemma tile_NoDup_fst : forall a b pcs, tile a b pcs -> NoDup (map fst pcs).
Proof.
  intros a b pcs (xs & A & B & D & E). eapply Permutation_NoDup; [apply Permutation_map; exact E|].
  apply ssorted_NoDup in A. rewrite steps_fst in A. apply NoDup_remove_1 in A. rewrite app_nil_r in A. exact A.
Qed.
Lemma tile_length : forall a b pcs, tile a b pcs -> (List.length pcs <= List.length V)%nat.
Proof.
  intros a b pcs (xs & A & B & D & E). rewrite <- (Permutation_length E), steps_length.
  apply ssorted_NoDup in A. apply NoDup_incl_length with (l' := V) in A.
  - simpl in A. lia.
  - intros z Hz. rewrite Forall_forall in D. apply D. auto.
Qed.
(** Every point of the segment but the last is in a piece, before its end. *)
Lemma tile_cover_l : forall a b pcs v, tile a b pcs -> lex_le a v -> lex_lt v b ->
  exists x y, In (x, y) pcs /\ lex_le x v /\ lex_lt v y.
Proof.
  intros a b pcs v (xs & A & B & D & E) L1 L2.
  assert (G : forall xs a, ssorted (a :: xs) -> lex_le a v -> lex_lt v (last xs a) ->
    exists x y, In (x, y) (steps a xs) /\ lex_le x v /\ lex_lt v y).
  { clear. induction xs as [|x xs IH]; intros a K L1 L2; [simpl in L2; exfalso; lord|]. rewrite last_cons in L2.
    destruct (lex_le_dec x v) as [Q|Q].
    - inversion K; subst. destruct (IH x) as (x' & y & I & R); auto. exists x', y. split; [right; auto|auto].
    - exists a, x. split; [left; auto|auto]. }
  subst b. destruct (G xs a A L1 L2) as (x & y & I & R). exists x, y. split; [eapply Permutation_in; eauto|auto].
Qed.
(** Every point of the segment but the first is in a piece, after its start. *)
Lemma tile_cover_r : forall a b pcs v, tile a b pcs -> lex_lt a v -> lex_le v b ->
  exists x y, In (x, y) pcs /\ lex_lt x v /\ lex_le v y.
Proof.
  intros a b pcs v (xs & A & B & D & E) L1 L2.
  assert (G : forall xs a, ssorted (a :: xs) -> lex_lt a v -> lex_le v (last xs a) ->
    exists x y, In (x, y) (steps a xs) /\ lex_lt x v /\ lex_le v y).
  { clear. induction xs as [|x xs IH]; intros a K L1 L2; [simpl in L2; exfalso; lord|]. rewrite last_cons in L2.
    destruct (lex_le_dec v x) as [Q|Q].
    - exists a, x. split; [left; auto|auto].
    - inversion K; subst. destruct (IH x) as (x' & y & I & R); auto. exists x', y. split; [right; auto|auto]. }
  subst b. destruct (G xs a A L1 L2) as (x & y & I & R). exists x, y. split; [eapply Permutation_in; eauto|auto].
Qed.
End Tile.
