(** The order of the active segments along the tilted sweep line. *)
Require Import List Bool Arith Lia Permutation Setoid Lqa Psatz String.
From Verif Require Import Base Scalar M_Events M_Geo M_LineOrPoint S_Geo P_Geo P_LineOrPoint P_Tilt M_Sweep P_Chain P_Bundle.
From Verif Require Import Props_Geo.
Import ListNotations.
Local Open Scope Qc_scope.

(** * Adjacent pairs of a list *)
Section Adj.
Context {X : Type}.
Variable R : X -> X -> Prop.
Fixpoint adj (l : list X) : Prop :=
  match l with
  | a :: ((b :: _) as l') => R a b /\ adj l'
  | _ => True
  end.
Lemma adj_cons : forall a b l, adj (a :: b :: l) <-> R a b /\ adj (b :: l).
Proof. intros. simpl. tauto. Qed.
Lemma adj_mid : forall l1 a l2, adj (l1 ++ a :: l2) <-> adj (l1 ++ [a]) /\ adj (a :: l2).
Proof.
  induction l1 as [|x l1 IH]; intros a l2.
  - simpl. tauto.
  - destruct l1 as [|y l1].
    + simpl. tauto.
    + change ((x :: y :: l1) ++ a :: l2) with (x :: y :: (l1 ++ a :: l2)).
      change ((x :: y :: l1) ++ [a]) with (x :: y :: (l1 ++ [a])).
      rewrite !adj_cons. specialize (IH a l2). change ((y :: l1) ++ a :: l2) with (y :: l1 ++ a :: l2) in IH.
      change ((y :: l1) ++ [a]) with (y :: l1 ++ [a]) in IH. tauto.
Qed.
Lemma adj_tail : forall a l, adj (a :: l) -> adj l.
Proof. intros a [|b l] H; simpl in *; tauto. Qed.
Lemma adj_init : forall l a, adj (l ++ [a]) -> adj l.
Proof.
  induction l as [|x l IH]; intros a H; [exact I|]. destruct l as [|y l]; [exact I|].
  change ((x :: y :: l) ++ [a]) with (x :: y :: (l ++ [a])) in H. rewrite adj_cons in *.
  split; [tauto|]. apply (IH a). tauto.
Qed.
(** Joining two lists: only the pair at the seam is new. *)
Lemma adj_app : forall l1 l2, adj l1 -> adj l2 ->
  (forall a b, hd_error (rev l1) = Some a -> hd_error l2 = Some b -> R a b) -> adj (l1 ++ l2).
Proof.
  intros l1 l2 H1 H2 HS. destruct l2 as [|b l2]; [rewrite app_nil_r; auto|].
  destruct (rev l1) as [|a r] eqn:E.
  - assert (l1 = []) as -> by (apply (f_equal (@rev X)) in E; rewrite rev_involutive in E; exact E). exact H2.
  - assert (l1 = rev r ++ [a]) as -> by (apply (f_equal (@rev X)) in E; rewrite rev_involutive in E; exact E).
    rewrite <- app_assoc. simpl. apply adj_mid. split; [exact H1|]. rewrite adj_cons. split; auto.
Qed.
Lemma adj_app_l : forall l1 l2, adj (l1 ++ l2) -> adj l1.
Proof.
  intros l1 l2. revert l1. induction l2 as [|b l2 IH]; intros l1 H; [rewrite app_nil_r in H; auto|].
  apply (adj_init l1 b). apply IH. rewrite <- app_assoc. exact H.
Qed.
Lemma adj_app_r : forall l1 l2, adj (l1 ++ l2) -> adj l2.
Proof. induction l1 as [|a l1 IH]; intros l2 H; auto. apply IH. apply (adj_tail a). exact H. Qed.
End Adj.
Lemma adj_impl : forall {X} (R R' : X -> X -> Prop) l, (forall a b, In a l -> In b l -> R a b -> R' a b) -> adj R l -> adj R' l.
Proof.
  intros X R R' l. induction l as [|a l IH]; intros H A; [exact I|]. destruct l as [|b l]; [exact I|].
  rewrite adj_cons in *. destruct A as [A1 A2]. split.
  - apply H; [left; auto|right; left; auto|auto].
  - apply IH; auto. intros x y Hx Hy. apply H; right; auto.
Qed.
(** Pointwise replacement. *)
Lemma adj_map2 : forall {X} (R R' : X -> X -> Prop) (T : X -> X -> Prop) l l', Forall2 T l l' ->
  (forall a b a' b', In a l -> In b l -> T a a' -> T b b' -> R a b -> R' a' b') -> adj R l -> adj R' l'.
Proof.
  intros X R R' T l l' F. induction F as [|a a' l l' Ha F IH]; intros H A; [exact I|].
  destruct F as [|b b' l l' Hb F]; [exact I|]. rewrite adj_cons in *. destruct A as [A1 A2]. split.
  - apply (H a b); auto; simpl; auto.
  - apply IH; auto. intros x y x' y' Hx Hy. apply H; right; auto.
Qed.

(** All ordered pairs. *)
Lemma FOP_app : forall {X} (R : X -> X -> Prop) l1 l2,
  ForallOrdPairs R (l1 ++ l2) <-> ForallOrdPairs R l1 /\ ForallOrdPairs R l2 /\ (forall a b, In a l1 -> In b l2 -> R a b).
Proof.
  intros X R l1 l2. induction l1 as [|a l1 IH]; simpl.
  - split; [intro; repeat split; auto; [constructor|intros ? ? []]|tauto].
  - split.
    + intros H. inversion H as [|? ? F O]; subst. apply IH in O as (O1 & O2 & O3). rewrite Forall_forall in F.
      repeat split; auto.
      * constructor; auto. apply Forall_forall. intros x Hx. apply F. apply in_or_app; auto.
      * intros x y [->|Hx] Hy; auto. apply F. apply in_or_app; auto.
    + intros (O1 & O2 & O3). inversion O1 as [|? ? F O]; subst. constructor.
      * apply Forall_forall. intros x Hx. apply in_app_or in Hx as [Hx|Hx]; [rewrite Forall_forall in F; auto|apply O3; auto].
      * apply IH. repeat split; auto.
Qed.
Lemma Forall2_Forall : forall {X} (T : X -> X -> Prop) (Q Q' : X -> Prop) l l', Forall2 T l l' ->
  (forall b b', In b l -> T b b' -> Q b -> Q' b') -> Forall Q l -> Forall Q' l'.
Proof.
  intros X T Q Q' l l' F. induction F as [|b b' l l' Hb F IH]; intros HQ A; [constructor|].
  inversion A; subst. constructor.
  - apply (HQ b); simpl; auto.
  - apply IH; auto. intros x x' Hx. apply HQ; right; auto.
Qed.
Lemma FOP_map2 : forall {X} (R R' : X -> X -> Prop) (T : X -> X -> Prop) l l', Forall2 T l l' ->
  (forall a b a' b', In a l -> In b l -> T a a' -> T b b' -> R a b -> R' a' b') -> ForallOrdPairs R l -> ForallOrdPairs R' l'.
Proof.
  intros X R R' T l l' F. induction F as [|a a' l l' Ha F IH]; intros H A; [constructor|].
  inversion A as [|? ? F1 O]; subst. constructor.
  - eapply Forall2_Forall; [exact F| |exact F1]. intros b b' Hb Tb. apply H; simpl; auto.
  - apply IH; auto. intros x y x' y' Ix Iy. apply H; right; auto.
Qed.
Lemma FOP_in : forall {X} (R : X -> X -> Prop) l1 a l2 b l3, ForallOrdPairs R (l1 ++ a :: l2 ++ b :: l3) -> R a b.
Proof.
  intros X R l1 a l2 b l3 H. apply FOP_app in H as (_ & H & _). inversion H as [|? ? F _]; subst.
  rewrite Forall_forall in F. apply F. apply in_or_app. right; left; auto.
Qed.
Lemma FOP_impl : forall {X} (R R' : X -> X -> Prop) l, (forall a b, In a l -> In b l -> R a b -> R' a b) -> ForallOrdPairs R l -> ForallOrdPairs R' l.
Proof.
  intros X R R' l H A. induction A as [|a l F A IH]; constructor.
  - rewrite Forall_forall in *. intros x Hx. apply H; simpl; auto.
  - apply IH. intros x y Hx Hy. apply H; right; auto.
Qed.
(** A transitive relation holds on all pairs if it does on adjacent ones. *)
Lemma adj_FOP : forall {X} (R : X -> X -> Prop) l, (forall a b c, In a l -> In b l -> In c l -> R a b -> R b c -> R a c) ->
  adj R l -> ForallOrdPairs R l.
Proof.
  intros X R l. induction l as [|a l IH]; intros HT A; [constructor|].
  assert (O : ForallOrdPairs R l).
  { apply IH; [|apply (adj_tail R a); auto]. intros x y z Hx Hy Hz. apply HT; right; auto. }
  constructor; auto. destruct l as [|b l]; [constructor|]. rewrite adj_cons in A. destruct A as [A _].
  constructor; auto. inversion O as [|? ? F _]; subst. rewrite Forall_forall in *. intros x Hx.
  apply (HT a b x); simpl; auto.
Qed.
Lemma FOP_adj : forall {X} (R : X -> X -> Prop) l, ForallOrdPairs R l -> adj R l.
Proof.
  intros X R l H. induction H as [|a l F O IH]; [exact I|]. destruct l as [|b l]; [exact I|].
  rewrite adj_cons. inversion F; subst. auto.
Qed.

Section Order.
Context {C : Type}.
Notation bundle := (bundle C).
Variables (e : Qc) (V : list pt).
Hypothesis HT : tilts e (fun p => In p V).
Notation tl := (tilt e).

Definition good (u : bundle) : Prop := lex_lt (b_p u) (b_q u) /\ In (b_p u) V /\ In (b_q u) V.
Definition H (u : bundle) (l : Qc) : Qc := hgt e (b_p u) (b_q u) l.
Definition S (u : bundle) : Qc := slope e (b_p u) (b_q u).
Definition K (l : Qc) (u v : bundle) : comparison := kcmp e l (b_p u) (b_q u) (b_p v) (b_q v).
Definition onb (u : bundle) (r : pt) : Prop := on_seg (b_p u) (b_q u) r.

Lemma tl_lt : forall a b, In a V -> In b V -> (lex_lt a b <-> tl a < tl b).
Proof. intros. apply HT; auto. Qed.
Lemma tl_le : forall a b, In a V -> In b V -> (lex_le a b <-> tl a <= tl b).
Proof. intros. apply (tilts_le e _ _ _ HT); auto. Qed.
Lemma tl_eq : forall a b, In a V -> In b V -> tl a = tl b -> a = b.
Proof. intros a b Ha Hb E. apply (tilt_inj e _ _ _ HT); auto. Qed.
Lemma good_tl : forall u, good u -> tl (b_p u) < tl (b_q u).
Proof. intros u (A & B & D). apply tl_lt; auto. Qed.

Inductive K_view (l : Qc) (u v : bundle) : comparison -> Prop :=
| Kv_lt : H u l < H v l -> K_view l u v Lt
| Kv_gt : H v l < H u l -> K_view l u v Gt
| Kv_slt : H u l = H v l -> S u < S v -> K_view l u v Lt
| Kv_sgt : H u l = H v l -> S v < S u -> K_view l u v Gt
| Kv_eq : H u l = H v l -> S u = S v -> K_view l u v Eq.
Lemma K_spec : forall l u v, K_view l u v (K l u v).
Proof. intros l u v. unfold K. destruct (kcmp_spec e l (b_p u) (b_q u) (b_p v) (b_q v)); constructor; auto; fail. Qed.
Lemma K_lt_iff : forall l u v, K l u v = Lt <-> H u l < H v l \/ (H u l = H v l /\ S u < S v).
Proof.
  intros l u v. destruct (K_spec l u v) as [A|A|A B|A B|A B]; split; intro Q; try discriminate; auto.
  - exfalso. destruct Q as [Q|[Q _]]; qcl.
  - exfalso. destruct Q as [Q|[_ Q]]; qcl.
  - exfalso. destruct Q as [Q|[_ Q]]; qcl.
Qed.
Lemma K_eq_iff : forall l u v, K l u v = Eq <-> H u l = H v l /\ S u = S v.
Proof.
  intros l u v. destruct (K_spec l u v) as [A|A|A B|A B|A B]; split; intro Q; try discriminate; auto;
  exfalso; destruct Q; qcl.
Qed.
Lemma K_opp : forall l u v, K l v u = CompOpp (K l u v).
Proof. intros. apply kcmp_opp. Qed.
Lemma K_gt_iff : forall l u v, K l u v = Gt <-> K l v u = Lt.
Proof. intros l u v. rewrite (K_opp l u v). destruct (K l u v); simpl; split; congruence. Qed.
Lemma K_trans : forall l u v w, K l u v = Lt -> K l v w = Lt -> K l u w = Lt.
Proof. intros. eapply kcmp_lt_trans; eauto. Qed.
Lemma K_lt_eq : forall l u v w, K l u v = Lt -> K l v w = Eq -> K l u w = Lt.
Proof. intros. eapply kcmp_lt_eq; eauto. Qed.
Lemma K_eq_lt : forall l u v w, K l u v = Eq -> K l v w = Lt -> K l u w = Lt.
Proof. intros. eapply kcmp_eq_lt; eauto. Qed.
Lemma K_le : forall l u v, K l u v = Lt -> H u l <= H v l.
Proof. intros l u v E. apply K_lt_iff in E as [E|[E _]]; qcl. Qed.
Lemma H_diff : forall u v l l', H v l' - H u l' = (H v l - H u l) + (l' - l) * (S v - S u).
Proof. intros. apply hgt_diff. Qed.

Lemma onb_hgt : forall u r, good u -> (onb u r <-> tl (b_p u) <= tl r /\ tl r <= tl (b_q u) /\ cy r = H u (tl r)).
Proof. intros u r G. apply on_seg_hgt. apply good_tl; auto. Qed.
Lemma onb_H : forall u r, good u -> onb u r -> H u (tl r) = cy r.
Proof. intros u r G O. apply onb_hgt in O; auto. symmetry; tauto. Qed.
Lemma onb_p : forall u, onb u (b_p u).
Proof. intros; apply on_seg_start. Qed.
Lemma onb_q : forall u, onb u (b_q u).
Proof. intros; apply on_seg_end. Qed.
Lemma onb_between : forall u r, good u -> onb u r -> lex_le (b_p u) r /\ lex_le r (b_q u).
Proof. intros u r (G & _) O. apply on_seg_between; auto. Qed.
(** A point of the plane on the line, between the ends. *)
Lemma onb_of : forall u p, good u -> In p V -> lex_le (b_p u) p -> lex_le p (b_q u) -> H u (tl p) = cy p -> onb u p.
Proof.
  intros u p G Vp L1 L2 E. apply onb_hgt; auto. destruct G as (G1 & G2 & G3). rewrite <- !tl_le; auto.
Qed.
(** Equal heights at a level between the ends give a common point. *)
Lemma meet_at : forall u v l, good u -> good v -> tl (b_p u) <= l -> l <= tl (b_q u) -> tl (b_p v) <= l -> l <= tl (b_q v) ->
  H u l = H v l -> exists r, onb u r /\ onb v r /\ tl r = l /\ cy r = H u l.
Proof.
  intros u v l Gu Gv A1 A2 B1 B2 E. exists (at_level e (b_p u) (b_q u) l). split; [|split; [|split]].
  - apply on_seg_at_level; auto. apply good_tl; auto.
  - apply onb_hgt; auto. rewrite tilt_at_level. repeat split; auto.
  - apply tilt_at_level.
  - reflexivity.
Qed.

Definition same_line (u v : bundle) : Prop := S u = S v /\ forall l, H u l = H v l.
Lemma same_line_refl : forall u, same_line u u.
Proof. split; auto. Qed.
Lemma same_line_sym : forall u v, same_line u v -> same_line v u.
Proof. intros u v [A B]. split; auto. Qed.
Lemma same_line_trans : forall u v w, same_line u v -> same_line v w -> same_line u w.
Proof. intros u v w [A B] [A' B']. split; [congruence|]. intros; rewrite B; auto. Qed.
Lemma K_same : forall l u v u' v', same_line u u' -> same_line v v' -> K l u v = K l u' v'.
Proof. intros l u v u' v' [A B] [A' B']. unfold K, kcmp. fold (H u l) (H v l) (H u' l) (H v' l) (S u) (S v) (S u') (S v'). rewrite B, B', A, A'. reflexivity. Qed.
Lemma K_eq_same : forall l u v, K l u v = Eq <-> same_line u v.
Proof.
  intros l u v. split.
  - intros E. apply K_eq_iff in E as [E1 E2]. split; auto. intros l'. pose proof (H_diff u v l l') as D. rewrite E1, E2 in D. qcl.
  - intros [A B]. apply K_eq_iff. auto.
Qed.
Lemma sub_same : forall u u', good u -> good u' -> onb u (b_p u') -> onb u (b_q u') -> same_line u u'.
Proof.
  intros u u' G G' O1 O2. apply onb_H in O1; auto. apply onb_H in O2; auto.
  pose proof (good_tl _ G') as T. pose proof (slope_eq e _ _ T) as SE. fold (S u') in SE.
  assert (D : H u (tl (b_q u')) - H u (tl (b_p u')) = (tl (b_q u') - tl (b_p u')) * S u) by (unfold H, hgt, S; ring).
  rewrite O1, O2, <- SE in D.
  assert (E : S u = S u').
  { apply (Qc_mul_cancel _ _ (tl (b_q u') - tl (b_p u'))); [intro; qcl|]. rewrite SE. rewrite <- O1, <- O2 in *. qcl. }
  split; auto. intros l. transitivity (H u (tl (b_p u')) + (l - tl (b_p u')) * S u); [unfold H, hgt, S; ring|].
  rewrite O1, E. reflexivity.
Qed.
Lemma sub_onb : forall u u' r, good u -> good u' -> onb u (b_p u') -> onb u (b_q u') -> onb u' r -> onb u r.
Proof.
  intros u u' r G G' O1 O2 O. pose proof (sub_same u u' G G' O1 O2) as [_ SL].
  apply onb_hgt in O; auto. apply onb_hgt in O1; auto. apply onb_hgt in O2; auto. apply onb_hgt; auto.
  rewrite SL. repeat split; try tauto; clear SL; destruct O as (? & ? & ?), O1 as (? & ? & ?), O2 as (? & ? & ?); qcl.
Qed.

(** [u'] is a first part of [u], possibly all of it. *)
Definition shr (u u' : bundle) : Prop :=
  b_p u' = b_p u /\ onb u (b_q u') /\ lex_lt (b_p u') (b_q u') /\ In (b_q u') V /\ b_key u' = b_key u.
Lemma shr_refl : forall u, good u -> shr u u.
Proof. intros u (A & B & D). repeat split; auto. apply onb_q. Qed.
Lemma shr_good : forall u u', good u -> shr u u' -> good u'.
Proof. intros u u' (A & B & D) (E & O & L & I & _). repeat split; auto. rewrite E; auto. Qed.
Lemma shr_same : forall u u', good u -> shr u u' -> same_line u u'.
Proof.
  intros u u' G Sh. pose proof (shr_good _ _ G Sh) as G'. destruct Sh as (E & O & _). apply sub_same; auto.
  rewrite E. apply onb_p.
Qed.
Lemma shr_onb : forall u u' r, good u -> shr u u' -> onb u' r -> onb u r.
Proof.
  intros u u' r G Sh. pose proof (shr_good _ _ G Sh) as G'. destruct Sh as (E & O & _). apply sub_onb; auto.
  rewrite E. apply onb_p.
Qed.
Lemma shr_q : forall u u', good u -> shr u u' -> lex_le (b_q u') (b_q u).
Proof. intros u u' G (E & O & _). apply onb_between in O; tauto. Qed.
Lemma shr_trans : forall u v w, good u -> shr u v -> shr v w -> shr u w.
Proof.
  intros u v w G A B. pose proof (shr_onb _ _ (b_q w) G A) as O. destruct A as (A1 & A2 & A3 & A4 & A5), B as (B1 & B2 & B3 & B4 & B5).
  repeat split; auto; congruence.
Qed.

(** ** Clean pairs: they only meet at a common start or a common end. *)
Definition clean (u v : bundle) : Prop :=
  forall r, onb u r -> onb v r -> (r = b_p u /\ r = b_p v) \/ (r = b_q u /\ r = b_q v).
Lemma clean_sym : forall u v, clean u v -> clean v u.
Proof. intros u v Hc r A B. destruct (Hc r B A); tauto. Qed.
Lemma clean_shr : forall u v u' v', good u -> good v -> shr u u' -> shr v v' -> clean u v -> clean u' v'.
Proof.
  intros u v u' v' Gu Gv Su Sv Hc r A B.
  pose proof (shr_good _ _ Gu Su) as Gu'. pose proof (shr_good _ _ Gv Sv) as Gv'.
  pose proof (shr_q _ _ Gu Su) as Qu. pose proof (shr_q _ _ Gv Sv) as Qv.
  pose proof (onb_between _ _ Gu' A) as [_ Bu]. pose proof (onb_between _ _ Gv' B) as [_ Bv].
  destruct (Hc r (shr_onb _ _ _ Gu Su A) (shr_onb _ _ _ Gv Sv B)) as [[E1 E2]|[E1 E2]].
  - left. destruct Su as (-> & _), Sv as (-> & _). auto.
  - right. rewrite E1 in Bu, Bv. subst r. split; [lord|]. rewrite E2 in *. lord.
Qed.

(** ** The program's comparison *)
Definition later (u v : bundle) : Qc := lmax e (b_p u) (b_p v).
Lemma later_le_l : forall u v, good u -> good v -> tl (b_p u) <= later u v.
Proof.
  intros u v (_ & A & _) (_ & B & _). unfold later, lmax. destruct (pltb_spec (b_p v) (b_p u)) as [L|L]; [qcl|].
  apply tl_le; auto. lord.
Qed.
Lemma later_le_r : forall u v, good u -> good v -> tl (b_p v) <= later u v.
Proof.
  intros u v (_ & A & _) (_ & B & _). unfold later, lmax. destruct (pltb_spec (b_p v) (b_p u)) as [L|L]; [|qcl].
  apply tl_le; auto. lord.
Qed.
Lemma later_cases : forall u v, good u -> good v ->
  (later u v = tl (b_p u) /\ lex_le (b_p v) (b_p u)) \/ (later u v = tl (b_p v) /\ lex_le (b_p u) (b_p v)).
Proof.
  intros u v (_ & A & _) (_ & B & _). unfold later, lmax. destruct (pltb_spec (b_p v) (b_p u)) as [L|L]; [left|right]; split; auto; lord.
Qed.
Lemma later_sym : forall u v, later u v = later v u.
Proof.
  intros u v. unfold later, lmax. destruct (pltb_spec (b_p v) (b_p u)), (pltb_spec (b_p u) (b_p v)); auto; [exfalso; lord|].
  f_equal. lord.
Qed.
Lemma later_shr : forall u v u' v', b_p u' = b_p u -> b_p v' = b_p v -> later u' v' = later u v.
Proof. intros u v u' v' E1 E2. unfold later. rewrite E1, E2. reflexivity. Qed.
Lemma cmp_K : forall u v, good u -> good v ->
  lop_partial_cmp (b_geom u) (b_geom v) = Some (K (later u v) u v).
Proof.
  intros u v Gu Gv. cbn [lop_partial_cmp b_geom]. apply lines_kcmp; try (apply good_tl; auto).
  - apply Gu.
  - apply Gv.
Qed.

(** [u] below [v] when the later one started; if they touched there, they
    started together. *)
Definition blw (u v : bundle) : Prop :=
  K (later u v) u v = Lt /\ (H u (later u v) = H v (later u v) -> b_p u = b_p v).
Lemma blw_shr : forall u v u' v', good u -> good v -> shr u u' -> shr v v' -> blw u v -> blw u' v'.
Proof.
  intros u v u' v' Gu Gv Su Sv [A B]. pose proof (shr_same _ _ Gu Su) as Lu. pose proof (shr_same _ _ Gv Sv) as Lv.
  destruct Su as (Eu & _), Sv as (Ev & _). unfold blw. rewrite (later_shr u v) by auto. split.
  - rewrite <- (K_same _ u v u' v'); auto.
  - rewrite <- (proj2 Lu), <- (proj2 Lv), Eu, Ev. auto.
Qed.

Inductive phase : Type := PR | PL.
Variable p0 : pt.
Notation l0 := (tl p0).
Hypothesis Vp0 : In p0 V.

Definition inrange (ph : phase) (u : bundle) : Prop :=
  good u /\ lex_le p0 (b_q u) /\ match ph with PR => lex_lt (b_p u) p0 | PL => lex_le (b_p u) p0 end.
Definition pair_ok (ph : phase) (u v : bundle) : Prop :=
  blw u v /\
  match ph with
  | PR => H u l0 <= H v l0 /\ (H u l0 = H v l0 -> b_q u = p0 /\ b_q v = p0)
  | PL => K l0 u v = Lt /\ (H u l0 = H v l0 -> b_p u = p0 /\ b_p v = p0)
  end.
(** A segment about to start at [p0] between the two. *)
Definition wit (pend : list bundle) (u v : bundle) : Prop :=
  exists w, In w pend /\ b_p w = p0 /\ K l0 u w = Lt /\ K l0 w v = Lt.
Definition adj_ok (ph : phase) (pend : list bundle) (u v : bundle) : Prop :=
  clean u v \/ (ph = PL /\ wit pend u v).
Definition Ord (ph : phase) (act pend : list bundle) : Prop :=
  Forall (inrange ph) act /\ ForallOrdPairs (pair_ok ph) act /\ adj (adj_ok ph pend) act.

Lemma inrange_shr : forall ph u u', inrange ph u -> shr u u' -> lex_le p0 (b_q u') -> inrange ph u'.
Proof.
  intros ph u u' (G & Q & P) Sh L. split; [eapply shr_good; eauto|split; auto].
  destruct Sh as (-> & _). exact P.
Qed.
(** Replacing segments by first parts that reach [p0]; the pending ones may
    grow in number and be cut as well. *)
Lemma pair_shr : forall ph u v u' v', inrange ph u -> inrange ph v -> shr u u' -> shr v v' ->
  lex_le p0 (b_q u') -> lex_le p0 (b_q v') -> pair_ok ph u v -> pair_ok ph u' v'.
Proof.
  intros ph u v u' v' (Gu & Qu & Pu) (Gv & Qv & Pv) Su Sv Lu Lv [Hb Hp].
  split; [eapply blw_shr; [exact Gu|exact Gv|exact Su|exact Sv|exact Hb]|].
  pose proof (shr_same _ _ Gu Su) as SLu. pose proof (shr_same _ _ Gv Sv) as SLv.
  pose proof (shr_q _ _ Gu Su) as Qu'. pose proof (shr_q _ _ Gv Sv) as Qv'.
  destruct ph.
  - destruct Hp as [Hp1 Hp2]. rewrite <- (proj2 SLu), <- (proj2 SLv). split; auto. intros E. destruct (Hp2 E) as [E1 E2].
    rewrite E1 in Qu'. rewrite E2 in Qv'. split; lord.
  - destruct Hp as [Hp1 Hp2]. rewrite <- (K_same _ u v u' v') by auto. rewrite <- (proj2 SLu), <- (proj2 SLv).
    destruct Su as (-> & _), Sv as (-> & _). auto.
Qed.
(** Every witness has a counterpart on the same line. *)
Definition pend_le (pend pend' : list bundle) : Prop :=
  forall w, In w pend -> exists w', In w' pend' /\ b_p w' = b_p w /\ same_line w w'.
Lemma pend_le_refl : forall pend, pend_le pend pend.
Proof. intros pend w Hw. exists w. repeat split; auto. Qed.
Lemma pend_le_incl : forall pend pend', (forall w, In w pend -> In w pend') -> pend_le pend pend'.
Proof. intros pend pend' I w Hw. exists w. repeat split; auto. Qed.
Lemma pend_le_trans : forall a b c, pend_le a b -> pend_le b c -> pend_le a c.
Proof.
  intros a b c A B w Hw. destruct (A w Hw) as (w1 & I1 & E1 & L1). destruct (B w1 I1) as (w2 & I2 & E2 & L2).
  exists w2. split; [auto|split; [congruence|eapply same_line_trans; eauto]].
Qed.
Lemma wit_le : forall pend pend' u v u' v', pend_le pend pend' -> same_line u u' -> same_line v v' ->
  wit pend u v -> wit pend' u' v'.
Proof.
  intros pend pend' u v u' v' P Lu Lv (w & I & E & A & B). destruct (P w I) as (w' & I' & E' & L').
  exists w'. split; [auto|split; [congruence|split]].
  - rewrite <- (K_same _ u w); auto.
  - rewrite <- (K_same _ w v); auto.
Qed.
Definition shr0 (u u' : bundle) : Prop := shr u u' /\ lex_le p0 (b_q u').
Lemma adj_shr : forall ph pend pend' u v u' v', inrange ph u -> inrange ph v -> shr u u' -> shr v v' ->
  pend_le pend pend' -> adj_ok ph pend u v -> adj_ok ph pend' u' v'.
Proof.
  intros ph pend pend' u v u' v' (Gu & _) (Gv & _) Su Sv P [Hc|[Eph Hw]].
  - left. eapply clean_shr; [exact Gu|exact Gv|exact Su|exact Sv|exact Hc].
  - right. split; auto. exact (wit_le _ _ _ _ _ _ P (shr_same _ _ Gu Su) (shr_same _ _ Gv Sv) Hw).
Qed.
Lemma ord_shr : forall ph act act' pend pend', Forall2 shr0 act act' -> pend_le pend pend' ->
  Ord ph act pend -> Ord ph act' pend'.
Proof.
  intros ph act act' pend pend' F P (A & B & D). rewrite Forall_forall in A. split; [|split].
  - rewrite Forall_forall. intros u' Hu'. clear B D.
    induction F as [|u v l l' Huv F IH]; [destruct Hu'|]. destruct Hu' as [<-|Hu'].
    + eapply inrange_shr; [apply A; left; auto|apply Huv|apply Huv].
    + apply IH; auto. intros; apply A; right; auto.
  - eapply FOP_map2; [exact F| |exact B]. intros a b a' b' Ia Ib [T1 L1] [T2 L2]. apply pair_shr; auto.
  - eapply adj_map2; [exact F| |exact D]. intros a b a' b' Ia Ib [T1 _] [T2 _]. apply adj_shr; auto.
Qed.
Lemma shr0_refl : forall ph l, Forall (inrange ph) l -> Forall2 shr0 l l.
Proof.
  intros ph l F. induction F as [|u l (G & Q & _) F IH]; constructor; auto. split; auto. apply shr_refl; auto.
Qed.

(** ** Where two active segments can meet *)
Lemma meet_cases : forall ph u v r, inrange ph u -> inrange ph v -> pair_ok ph u v -> onb u r -> onb v r -> In r V ->
  (r = b_p u /\ r = b_p v) \/ (r = b_q u /\ r = b_q v) \/ lex_lt p0 r.
Proof.
  intros ph u v r (Gu & Qu & Pu) (Gv & Qv & Pv) [[HK HE] Hp] Ou Ov Vr.
  destruct (lex_total p0 r) as [[L|L]|L]; [right; right; auto| |].
  - subst r. pose proof (onb_H _ _ Gu Ou) as E1. pose proof (onb_H _ _ Gv Ov) as E2.
    destruct ph.
    + right; left. destruct Hp as [_ Hp]. destruct Hp; [congruence|]. auto.
    + left. destruct Hp as [_ Hp]. destruct Hp; [congruence|]. auto.
  - left. pose proof (onb_H _ _ Gu Ou) as E1. pose proof (onb_H _ _ Gv Ov) as E2.
    assert (Lr : tl r < l0) by (apply tl_lt; auto).
    pose proof (onb_between _ _ Gu Ou) as [Bu _]. pose proof (onb_between _ _ Gv Ov) as [Bv _].
    assert (Ll : later u v <= tl r).
    { destruct (later_cases u v Gu Gv) as [[-> _]|[-> _]]; apply tl_le; auto; [apply Gu|apply Gv]. }
    assert (Hle : H u l0 <= H v l0) by (destruct ph; [apply Hp|apply K_le; apply Hp]).
    pose proof (H_diff u v (later u v) (tl r)) as D1. pose proof (H_diff u v (tl r) l0) as D2.
    apply K_lt_iff in HK. rewrite E1, E2 in D1, D2.
    assert (EL : later u v = tl r /\ H u (later u v) = H v (later u v)).
    { apply Qcle_lt_or_eq in Ll. destruct Ll as [Ll|Ll].
      - exfalso. destruct HK as [HK|[HK1 HK2]]; clear HE Hp; [|qc].
        assert (S v < S u) by (apply Qcnot_le_lt; intro; qc). qc.
      - split; auto. rewrite Ll. congruence. }
    destruct EL as [EL EH]. pose proof (HE EH) as EP.
    destruct (later_cases u v Gu Gv) as [[L1 _]|[L1 _]]; rewrite L1 in EL.
    + assert (b_p u = r) by (apply tl_eq; auto; apply Gu). split; congruence.
    + assert (b_p v = r) by (apply tl_eq; auto; apply Gv). split; congruence.
Qed.
(** Two active segments are never on the same line. *)
Lemma blw_not_same : forall u v, blw u v -> ~ same_line u v.
Proof. intros u v [A _] L. apply (K_eq_same (later u v)) in L. congruence. Qed.

(** ** Removing and inserting *)
Lemma hd_rev_in : forall {X} (l : list X) a, hd_error (rev l) = Some a -> In a l.
Proof. intros X l a E. apply in_rev. destruct (rev l); [discriminate|]. injection E as ->. left; auto. Qed.
Lemma hd_in : forall {X} (l : list X) a, hd_error l = Some a -> In a l.
Proof. intros X [|x l] a E; [discriminate|]. injection E as ->. left; auto. Qed.
Lemma hd_rev_split : forall {X} (l : list X) a, hd_error (rev l) = Some a -> exists l', l = l' ++ [a].
Proof.
  intros X l a E. destruct (rev l) as [|x r] eqn:R; [discriminate|]. injection E as ->. exists (rev r).
  apply (f_equal (@rev X)) in R. rewrite rev_involutive in R. exact R.
Qed.
Lemma hd_rev_none : forall {X} (l : list X), hd_error (rev l) = None -> l = [].
Proof. intros X l E. destruct (rev l) eqn:R; [|discriminate]. apply (f_equal (@rev X)) in R. rewrite rev_involutive in R. exact R. Qed.

Lemma ord_remove : forall ph A a B pend, Ord ph (A ++ a :: B) pend ->
  (forall u v, hd_error (rev A) = Some u -> hd_error B = Some v -> adj_ok ph pend u v) ->
  Ord ph (A ++ B) pend.
Proof.
  intros ph A a B pend (F & O & D) Hs. apply Forall_app in F as [F1 F2]. inversion F2; subst.
  apply FOP_app in O as (O1 & O2 & O3). inversion O2; subst. split; [|split].
  - apply Forall_app; auto.
  - apply FOP_app. split; [auto|split; [auto|]]. intros x y Hx Hy. apply O3; auto. right; auto.
  - apply adj_app; auto.
    + eapply adj_app_l; exact D.
    + apply adj_app_r in D. apply adj_tail in D. exact D.
Qed.

Lemma H_at_start : forall u, b_p u = p0 -> H u l0 = cy p0.
Proof. intros u E. unfold H. rewrite <- E. apply hgt_start. Qed.

(** A witness that is inserted is no longer needed elsewhere. *)
Lemma ord_insert : forall A b B pend, Ord PL (A ++ B) (b :: pend) ->
  good b -> b_p b = p0 ->
  (forall x, In x A -> K l0 x b = Lt /\ (H x l0 = cy p0 -> b_p x = p0)) ->
  (forall x, In x B -> K l0 b x = Lt /\ (H x l0 = cy p0 -> b_p x = p0)) ->
  (forall u, hd_error (rev A) = Some u -> adj_ok PL pend u b) ->
  (forall v, hd_error B = Some v -> adj_ok PL pend b v) ->
  Ord PL (A ++ b :: B) pend.
Proof.
  intros A b B pend (F & O & D) Gb Pb HA HB SA SB.
  apply Forall_app in F as [F1 F2]. apply FOP_app in O as (O1 & O2 & O3).
  pose proof (H_at_start b Pb) as Hb.
  assert (Rb : inrange PL b).
  { split; [auto|split]; [|rewrite Pb; apply lex_le_refl]. rewrite <- Pb. apply lex_lt_le. apply Gb. }
  assert (Lx : forall x, In x A \/ In x B -> later x b = l0 /\ later b x = l0).
  { intros x Hx. assert (G : inrange PL x) by (rewrite Forall_forall in F1, F2; destruct Hx; auto).
    destruct G as (G & _ & P). rewrite (later_sym b x). assert (later x b = l0); auto.
    destruct (later_cases x b G Gb) as [[E L]|[E L]]; rewrite E.
    - rewrite Pb in L. f_equal. lord.
    - rewrite Pb. auto. }
  assert (PA : forall x, In x A -> pair_ok PL x b).
  { intros x Hx. destruct (HA x Hx) as [K1 E1]. destruct (Lx x (or_introl Hx)) as [L1 _]. split; [split|split].
    - rewrite L1. auto.
    - rewrite L1, Hb, Pb. auto.
    - auto.
    - rewrite Hb. auto. }
  assert (PB : forall x, In x B -> pair_ok PL b x).
  { intros x Hx. destruct (HB x Hx) as [K1 E1]. destruct (Lx x (or_intror Hx)) as [_ L1]. split; [split|split].
    - rewrite L1. auto.
    - rewrite L1, Hb, Pb. intros E. symmetry. auto.
    - auto.
    - rewrite Hb. auto. }
  split; [|split].
  - apply Forall_app. split; auto.
  - apply FOP_app. split; [auto|split].
    + constructor; auto. apply Forall_forall. auto.
    + intros x y Hx [<-|Hy]; auto.
  - apply adj_app.
    + eapply adj_impl; [|eapply adj_app_l; exact D]. intros x y Hx Hy [Hc|[_ (w & [<-|Iw] & E1 & E2 & E3)]].
      * left; auto.
      * exfalso. destruct (HA y Hy) as [K1 _]. rewrite (K_opp _ y b), K1 in E3. discriminate.
      * right. split; auto. exists w. auto.
    + assert (DB : adj (adj_ok PL pend) B).
      { eapply adj_impl; [|eapply adj_app_r; exact D]. intros x y Hx Hy [Hc|[_ (w & [<-|Iw] & E1 & E2 & E3)]].
        * left; auto.
        * exfalso. destruct (HB x Hx) as [K1 _]. rewrite (K_opp _ b x), K1 in E2. discriminate.
        * right. split; auto. exists w. auto. }
      destruct B as [|v B]; [exact I|]. rewrite adj_cons. split; auto.
    + intros u v Hu Hv. injection Hv as <-. auto.
Qed.

(** Dropping from the waiting list a segment that lies on an active one. *)
Lemma ord_drop : forall act x b pend, Ord PL act (b :: pend) -> In x act -> same_line x b -> Ord PL act pend.
Proof.
  intros act x b pend (F & O & D) Ix SL. split; [auto|split; [auto|]].
  apply in_split in Ix as (l1 & l2 & ->).
  assert (HK : forall u v, In u l1 -> In v (x :: l2) -> K l0 u v = Lt).
  { intros u v Hu Hv. apply FOP_app in O as (_ & _ & O). apply (O u v Hu Hv). }
  assert (HK2 : forall v, In v l2 -> K l0 x v = Lt).
  { intros v Hv. apply FOP_app in O as (_ & O & _). inversion O as [|? ? F1 _]; subst. rewrite Forall_forall in F1. apply F1; auto. }
  assert (Q : forall u v, K l0 u b = Lt -> K l0 b v = Lt -> K l0 u x = Lt /\ K l0 x v = Lt).
  { intros u v. rewrite <- (K_same l0 u x u b), <- (K_same l0 x v b v) by (auto; apply same_line_refl). auto. }
  assert (G : forall u v, adj_ok PL (b :: pend) u v -> adj_ok PL pend u v \/ (K l0 u x = Lt /\ K l0 x v = Lt)).
  { intros u v [Hc|[_ (w & [<-|Iw] & E1 & E2 & E3)]].
    - left; left; auto.
    - right. apply Q; auto.
    - left. right. split; auto. exists w; auto. }
  rewrite adj_mid in D. destruct D as [D1 D2]. rewrite adj_mid. split.
  - eapply adj_impl; [|exact D1]. intros u v Hu Hv A. destruct (G u v A) as [G1|[G1 G2]]; auto. exfalso.
    apply in_app_or in Hv as [Hv|[<-|[]]].
    + rewrite (K_opp _ v x), (HK v x) in G2; [discriminate|auto|left; auto].
    + rewrite (proj2 (K_eq_same l0 x x) (same_line_refl x)) in G2. discriminate.
  - eapply adj_impl; [|exact D2]. intros u v Hu Hv A. destruct (G u v A) as [G1|[G1 G2]]; auto. exfalso.
    destruct Hu as [<-|Hu].
    + rewrite (proj2 (K_eq_same l0 x x) (same_line_refl x)) in G1. discriminate.
    + rewrite (K_opp _ x u), (HK2 u) in G1; [discriminate|auto].
Qed.
Lemma ord_adj_imp : forall act pend pend', Ord PL act pend ->
  (forall u v, In u act -> In v act -> adj_ok PL pend u v -> adj_ok PL pend' u v) -> Ord PL act pend'.
Proof.
  intros act pend pend' (F & O & D) Hi. split; [auto|split; auto]. eapply adj_impl; [|exact D]. auto.
Qed.

(** ** Changing phase *)
Lemma ord_R_to_L : forall act pend, Ord PR act [] -> (forall u, In u act -> lex_lt p0 (b_q u)) -> Ord PL act pend.
Proof.
  intros act pend (F & O & D) HQ. split; [|split].
  - eapply Forall_impl; [|exact F]. intros u (G & Q & P). split; [auto|split; auto]. apply lex_lt_le; auto.
  - eapply FOP_impl; [|exact O]. intros u v Hu Hv [B [L T]]. split; auto.
    assert (N : H u l0 <> H v l0).
    { intro E. destruct (T E) as [E1 _]. pose proof (HQ u Hu). rewrite E1 in *. lord. }
    split; [|intro E; contradiction]. apply K_lt_iff. left. apply Qcle_lt_or_eq in L. tauto.
  - eapply adj_impl; [|exact D]. intros u v _ _ [Hc|[Q _]]; [left; auto|discriminate].
Qed.

(** ** Where a segment or a point belongs *)
Definition low (b x : bundle) : Prop := K l0 x b = Lt \/ (K l0 x b = Eq /\ (b_key x < b_key b)%nat).
Definition high (b x : bundle) : Prop := K l0 b x = Lt \/ (K l0 b x = Eq /\ (b_key b < b_key x)%nat).
Lemma low_high_dec : forall b x, b_key x <> b_key b -> {low b x} + {high b x}.
Proof.
  intros b x N. destruct (K l0 x b) eqn:E.
  - destruct (lt_eq_lt_dec (b_key x) (b_key b)) as [[L|L]|L]; [left; right; auto|contradiction|].
    right. right. rewrite (K_opp _ x b), E. auto.
  - left. left. auto.
  - right. left. apply K_gt_iff. auto.
Qed.
Lemma place_seg : forall act b, ForallOrdPairs (fun u v => K l0 u v = Lt) act ->
  (forall x, In x act -> b_key x <> b_key b) ->
  exists A B, act = A ++ B /\ (forall x, In x A -> low b x) /\ (forall x, In x B -> high b x).
Proof.
  intros act b O N. induction O as [|u act F O IH].
  - exists [], []. repeat split; intros x [].
  - destruct IH as (A & B & E & HA & HB); [intros; apply N; right; auto|].
    destruct (low_high_dec b u) as [L|Hh]; [apply N; left; auto| |].
    + exists (u :: A), B. subst. repeat split; auto. intros x [<-|Hx]; auto.
    + exists [], (u :: act). repeat split; [intros x []|]. intros x [<-|Hx]; auto.
      rewrite Forall_forall in F. specialize (F x Hx). left. destruct Hh as [Hh|[Hh _]]; [eapply K_trans|eapply K_eq_lt]; eauto.
Qed.
(** Only the neighbours can be on the same line. *)
Lemma low_strict : forall A' x b, ForallOrdPairs (fun u v => K l0 u v = Lt) (A' ++ [x]) ->
  low b x -> forall y, In y A' -> K l0 y b = Lt.
Proof.
  intros A' x b O L y Hy. apply FOP_app in O as (_ & _ & O). specialize (O y x Hy (or_introl eq_refl)).
  destruct L as [L|[L _]]; [eapply K_trans|eapply K_lt_eq]; eauto.
Qed.
Lemma high_strict : forall x B' b, ForallOrdPairs (fun u v => K l0 u v = Lt) (x :: B') ->
  high b x -> forall y, In y B' -> K l0 b y = Lt.
Proof.
  intros x B' b O L y Hy. inversion O as [|? ? F _]; subst. rewrite Forall_forall in F. specialize (F y Hy).
  destruct L as [L|[L _]]; [eapply K_trans|eapply K_eq_lt]; eauto.
Qed.
Lemma ord_K : forall act pend, Ord PL act pend -> ForallOrdPairs (fun u v => K l0 u v = Lt) act.
Proof. intros act pend (_ & O & _). eapply FOP_impl; [|exact O]. intros u v _ _ [_ [Q _]]. auto. Qed.
Lemma ord_H : forall ph act pend, Ord ph act pend -> ForallOrdPairs (fun u v => H u l0 <= H v l0) act.
Proof.
  intros ph act pend (_ & O & _). eapply FOP_impl; [|exact O]. intros u v _ _ [_ Q].
  destruct ph; [apply Q|apply K_le; apply Q].
Qed.
Lemma place_pt : forall act y, ForallOrdPairs (fun u v => H u l0 <= H v l0) act ->
  exists A B, act = A ++ B /\ (forall x, In x A -> H x l0 < y) /\ (forall x, In x B -> y <= H x l0).
Proof.
  intros act y O. induction O as [|u act F O IH].
  - exists [], []. repeat split; intros x [].
  - destruct IH as (A & B & E & HA & HB). destruct (Qc_trichotomy (H u l0) y) as [D|D].
    + destruct D as [D|D].
      * exists (u :: A), B. subst. repeat split; auto. intros x [<-|Hx]; auto.
      * exists [], (u :: act). repeat split; [intros x []|]. rewrite Forall_forall in F. intros x [<-|Hx]; [rewrite D; qcl|].
        specialize (F x Hx). rewrite D in F. auto.
    + exists [], (u :: act). repeat split; [intros x []|]. rewrite Forall_forall in F. intros x [<-|Hx]; [qcl|].
      specialize (F x Hx). qcl.
Qed.

(** ** Intersections of two bundles *)
Lemma good_valid : forall u, good u -> valid (b_geom u).
Proof. intros u G. apply G. Qed.
Lemma inter_bundles : forall u v, good u -> good v ->
  exists o, intersect_line_ordered (b_geom u) (b_geom v) = Ok o /\ is_inter (onb u) (onb v) o.
Proof.
  intros u v Gu Gv. destruct (intersect_line_ordered_exact (b_geom u) (b_geom v) (good_valid _ Gu) (good_valid _ Gv)) as [E _].
  pose proof (intersect_line_exact (b_geom u) (b_geom v) (good_valid _ Gu) (good_valid _ Gv)) as X. rewrite E.
  destruct (intersect_line (b_geom u) (b_geom v)) as [o|s|]; [|discriminate X|contradiction].
  exists o. split; auto. apply X.
Qed.
Lemma inter_none_clean : forall u v, is_inter (onb u) (onb v) None -> clean u v.
Proof. intros u v Hi r A B. exfalso. apply (Hi r). auto. Qed.
Lemma inter_point_clean : forall u v r u' v', good u -> good v -> is_inter (onb u) (onb v) (Some (Point r)) ->
  shr u u' -> shr v v' ->
  (r = b_p u' /\ r = b_p v') \/ (r = b_q u' /\ r = b_q v') -> clean u' v'.
Proof.
  intros u v r u' v' Gu Gv [_ Hi] Su Sv E x A B.
  assert (X : x = r). { apply (Hi x). split; [apply (shr_onb _ _ _ Gu Su A)|apply (shr_onb _ _ _ Gv Sv B)]. }
  subst x. exact E.
Qed.
(** Two common points make the lines equal. *)
Lemma two_common : forall u v r1 r2, good u -> good v -> onb u r1 -> onb v r1 -> onb u r2 -> onb v r2 -> lex_lt r1 r2 ->
  tl r1 < tl r2 -> same_line u v.
Proof.
  intros u v r1 r2 Gu Gv A1 B1 A2 B2 _ T.
  pose proof (onb_H _ _ Gu A1) as U1. pose proof (onb_H _ _ Gv B1) as V1.
  pose proof (onb_H _ _ Gu A2) as U2. pose proof (onb_H _ _ Gv B2) as V2.
  apply (K_eq_same (tl r1)). apply K_eq_iff. split; [congruence|].
  pose proof (H_diff u v (tl r1) (tl r2)) as D. rewrite U1, U2, V1, V2 in D.
  assert (Z : (tl r2 - tl r1) * (S v - S u) = 0) by (clear - D; qcl).
  apply Qc_mul_0 in Z. destruct Z as [Z|Z]; [clear - Z T; exfalso; qcl|clear - Z; qcl].
Qed.
(** Two different points of a segment are at different levels. *)
Lemma onb_tl_lt : forall u r1 r2, good u -> onb u r1 -> onb u r2 -> lex_lt r1 r2 -> tl r1 < tl r2.
Proof.
  intros u r1 r2 G A B L.
  assert (N : tl r1 <> tl r2).
  { intro E. pose proof (onb_H _ _ G A) as E1. pose proof (onb_H _ _ G B) as E2. rewrite E in E1.
    assert (r1 = r2) by (apply (pt_eq_tilt e); congruence). lord. }
  apply Qc_neq_lt in N. destruct N as [N|N]; auto. exfalso.
  (* on a segment the order of levels is the lexicographic order *)
  destruct A as (t1 & A0 & A1 & Ax & Ay), B as (t2 & B0 & B1 & Bx & By).
  pose proof (good_tl u G) as T. unfold tilt in N, T.
  assert (t2 < t1).
  { apply Qcnot_le_lt. intro Q. rewrite Ax, Ay, Bx, By in N. clear L. qc. }
  destruct G as (G & _). destruct G as [G|[G1 G2]].
  - destruct L as [L|[L _]]; rewrite Ax, Bx in L; clear - L G H0; qc.
  - destruct L as [L|[_ L]]; [rewrite Ax, Bx, G1 in L; clear - L; qcl|rewrite Ay, By in L; clear - L G2 H0; qc].
Qed.
Lemma inter_line_same : forall u v r1 r2, good u -> good v -> is_inter (onb u) (onb v) (Some (Line r1 r2)) ->
  same_line u v /\ lex_lt r1 r2.
Proof.
  intros u v r1 r2 Gu Gv [Hv Hi]. simpl in Hv. split; auto.
  destruct (proj1 (Hi r1) (on_seg_start _ _)) as [A1 B1]. destruct (proj1 (Hi r2) (on_seg_end _ _)) as [A2 B2].
  apply (two_common u v r1 r2); auto. eapply onb_tl_lt; eauto.
Qed.
Lemma same_onb : forall u v r, good u -> good v -> same_line u v -> onb u r -> tl (b_p v) <= tl r -> tl r <= tl (b_q v) -> onb v r.
Proof.
  intros u v r Gu Gv [_ SL] O A B. apply onb_hgt; auto. repeat split; auto. rewrite <- SL. symmetry. apply onb_H; auto.
Qed.
(** The ends of an overlap. *)
Lemma overlap_ends : forall u v r1 r2, good u -> good v -> is_inter (onb u) (onb v) (Some (Line r1 r2)) ->
  (r1 = b_p u /\ lex_le (b_p v) (b_p u) \/ r1 = b_p v /\ lex_le (b_p u) (b_p v)) /\
  (r2 = b_q u /\ lex_le (b_q u) (b_q v) \/ r2 = b_q v /\ lex_le (b_q v) (b_q u)).
Proof.
  intros u v r1 r2 Gu Gv Hi0. destruct (inter_line_same u v r1 r2 Gu Gv Hi0) as [SL L]. destruct Hi0 as [_ Hi].
  destruct (proj1 (Hi r1) (on_seg_start _ _)) as [A1 B1]. destruct (proj1 (Hi r2) (on_seg_end _ _)) as [A2 B2].
  pose proof (onb_between _ _ Gu A1) as [A1l A1r]. pose proof (onb_between _ _ Gv B1) as [B1l B1r].
  pose proof (onb_between _ _ Gu A2) as [A2l A2r]. pose proof (onb_between _ _ Gv B2) as [B2l B2r].
  pose proof Gu as (Gu1 & Gu2 & Gu3). pose proof Gv as (Gv1 & Gv2 & Gv3).
  split.
  - destruct (lex_le_dec (b_p v) (b_p u)) as [Q|Q].
    + left. split; auto. assert (X : onb v (b_p u)).
      { apply (same_onb u v); auto using onb_p; apply tl_le; auto. lord. }
      assert (Y : on_seg r1 r2 (b_p u)) by (apply Hi; split; [apply onb_p|auto]).
      apply on_seg_between in Y as [Y _]; auto. lord.
    + right. split; [|lord]. assert (X : onb u (b_p v)).
      { apply (same_onb v u); auto using onb_p, same_line_sym; apply tl_le; auto; lord. }
      assert (Y : on_seg r1 r2 (b_p v)) by (apply Hi; split; [auto|apply onb_p]).
      apply on_seg_between in Y as [Y _]; auto. lord.
  - destruct (lex_le_dec (b_q u) (b_q v)) as [Q|Q].
    + left. split; auto. assert (X : onb v (b_q u)).
      { apply (same_onb u v); auto using onb_q; apply tl_le; auto. lord. }
      assert (Y : on_seg r1 r2 (b_q u)) by (apply Hi; split; [apply onb_q|auto]).
      apply on_seg_between in Y as [_ Y]; auto. lord.
    + right. split; [|lord]. assert (X : onb u (b_q v)).
      { apply (same_onb v u); auto using onb_q, same_line_sym; apply tl_le; auto; lord. }
      assert (Y : on_seg r1 r2 (b_q v)) by (apply Hi; split; [auto|apply onb_q]).
      apply on_seg_between in Y as [_ Y]; auto. lord.
Qed.
(** Two segments on one line that are both alive after [p0] overlap. *)
Lemma same_overlap : forall u v o, good u -> good v -> same_line u v ->
  lex_le (b_p u) p0 -> lex_lt p0 (b_q u) -> lex_le (b_p v) p0 -> lex_lt p0 (b_q v) ->
  is_inter (onb u) (onb v) o -> exists r1 r2, o = Some (Line r1 r2).
Proof.
  intros u v o Gu Gv SL U1 U2 V1 V2 Hi.
  pose proof Gu as (Gu1 & Gu2 & Gu3). pose proof Gv as (Gv1 & Gv2 & Gv3).
  assert (X : exists a b, onb u a /\ onb v a /\ onb u b /\ onb v b /\ lex_lt a b).
  { assert (A : exists a, onb u a /\ onb v a /\ lex_le a p0).
    { destruct (lex_le_dec (b_p v) (b_p u)) as [Q|Q].
      - exists (b_p u). split; [apply onb_p|split; [|auto]]. apply (same_onb u v); auto using onb_p; apply tl_le; auto. lord.
      - exists (b_p v). split; [|split; [apply onb_p|auto]]. apply (same_onb v u); auto using onb_p, same_line_sym; apply tl_le; auto; lord. }
    assert (B : exists b, onb u b /\ onb v b /\ lex_lt p0 b).
    { destruct (lex_le_dec (b_q u) (b_q v)) as [Q|Q].
      - exists (b_q u). split; [apply onb_q|split; [|auto]]. apply (same_onb u v); auto using onb_q; apply tl_le; auto. lord.
      - exists (b_q v). split; [|split; [apply onb_q|auto]]. apply (same_onb v u); auto using onb_q, same_line_sym; apply tl_le; auto; lord. }
    destruct A as (a & A1 & A2 & A3), B as (b & B1 & B2 & B3). exists a, b. repeat split; auto. lord. }
  destruct X as (a & b & A1 & A2 & B1 & B2 & L).
  destruct o as [[r|r1 r2]|].
  - exfalso. destruct Hi as [_ Hi]. assert (a = r) by (apply Hi; auto). assert (b = r) by (apply Hi; auto). subst. lord.
  - eauto.
  - exfalso. apply (Hi a). auto.
Qed.
End Order.
