(** Tilting the sweep line.

    A small tilt [e] turns the lexicographic order of a finite set of points
    into the order of their levels [tilt e], so that segments become graphs of
    linear functions of the level: [hgt e p q l] is the height at level [l] of
    the line through [p], [q] and [slope e p q] its slope.  The segment
    comparison of the program is the lexicographic comparison of
    (height, slope). *)
Require Import List Bool Setoid Lqa Psatz String.
From Verif Require Import Base Scalar M_Events M_Geo M_LineOrPoint S_Geo P_Geo P_LineOrPoint.
Import ListNotations.
Local Open Scope Qc_scope.

Lemma Qc_div_mul : forall a b : Qc, b <> 0 -> (a / b) * b = a.
Proof.
  intros a b Hb. unfold Qcdiv. rewrite <- Qcmult_assoc, (Qcmult_comm (/ b)), Qcmult_inv_r by auto. ring.
Qed.
Lemma Qc_half : forall a, 0 < a -> exists b, 0 < b /\ b < a.
Proof.
  intros a Ha. exists (a * Q2Qc (1 # 2)). assert (H : this (Q2Qc (1#2)) == (1#2)) by apply this_Q2Qc.
  split; qc_norm; lra.
Qed.
Lemma Qc_min2 : forall a b : Qc, 0 < a -> 0 < b -> exists c, 0 < c /\ c <= a /\ c <= b.
Proof.
  intros a b Ha Hb. destruct (Qc_trichotomy a b) as [[H|H]|H].
  - exists a; repeat split; qcl.
  - exists a; repeat split; qcl.
  - exists b; repeat split; qcl.
Qed.

Lemma tilt_pair : forall a b, lex_lt a b -> exists e, 0 < e /\ forall e', 0 < e' -> e' <= e -> tilt e' a < tilt e' b.
Proof.
  intros a b [H|[H K]]; unfold tilt.
  - destruct (Qc_trichotomy (cy a) (cy b)) as [[J|J]|J].
    + exists 1. split; [qcl|]. intros e' H0 H1. qc.
    + exists 1. split; [qcl|]. intros e' H0 H1. rewrite J. qc.
    + set (d := cy a - cy b).
      assert (D : 0 < d) by (unfold d; qcl).
      assert (N : d <> 0) by (apply Qc_gt_neq; auto).
      destruct (Qc_half (cx b - cx a)) as (h & Hh0 & Hh1); [qcl|].
      destruct (Qc_div_ex h d N) as (e & He).
      exists e. split.
      * apply Qcnot_le_lt. intro L. qc.
      * intros e' L1 L2. assert (e' * d <= h) by qc. unfold d in *. qc.
  - exists 1. split; [qcl|]. intros e' H0 H1. rewrite H. qc.
Qed.

(** [e] orders the points of [l] as the lexicographic order does. *)
Definition tilts (e : Qc) (P : pt -> Prop) : Prop :=
  forall a b, P a -> P b -> (lex_lt a b <-> tilt e a < tilt e b).

Lemma tilt_list : forall l : list pt, exists e, 0 < e /\ forall e', 0 < e' -> e' <= e -> tilts e' (fun p => In p l).
Proof.
  intros l.
  assert (A : exists e, 0 < e /\ forall e', 0 < e' -> e' <= e -> forall a b, In (a, b) (list_prod l l) -> lex_lt a b -> tilt e' a < tilt e' b).
  { induction (list_prod l l) as [|[a b] ps IH].
    - exists 1. split; [qcl|]. intros e' _ _ a b [].
    - destruct IH as (e1 & E1 & IH).
      assert (B : exists e, 0 < e /\ forall e', 0 < e' -> e' <= e -> lex_lt a b -> tilt e' a < tilt e' b).
      { destruct (lex_le_dec b a) as [H|H].
        - exists 1. split; [qcl|]. intros. lord.
        - destruct (tilt_pair a b H) as (e & He & K). exists e; split; auto. }
      destruct B as (e2 & E2 & B). destruct (Qc_min2 e1 e2 E1 E2) as (e & E & L1 & L2).
      exists e. split; auto. intros e' H0 H1 a' b' [Q|Q] Hab.
      + injection Q as <- <-. apply B; auto. qcl.
      + apply (IH e'); auto. qcl. }
  destruct A as (e & E & A). exists e. split; auto. intros e' H0 H1 a b Ha Hb.
  split; [apply (A e'); auto; apply in_prod; auto|]. intros H.
  destruct (lex_total a b) as [[K|K]|K]; auto; exfalso.
  - subst; qcl.
  - apply (A e') in K; auto; [qcl|apply in_prod; auto].
Qed.

Lemma tilt_inj : forall e P a b, tilts e P -> P a -> P b -> tilt e a = tilt e b -> a = b.
Proof.
  intros e P a b H Ha Hb E. destruct (lex_total a b) as [[K|K]|K]; auto; exfalso.
  - apply (H a b Ha Hb) in K. qcl.
  - apply (H b a Hb Ha) in K. qcl.
Qed.
Lemma tilts_le : forall e P a b, tilts e P -> P a -> P b -> (lex_le a b <-> tilt e a <= tilt e b).
Proof.
  intros e P a b H Ha Hb. rewrite <- lex_not_lt. rewrite (H b a Hb Ha). split.
  - intro; apply Qcnot_lt_le; auto.
  - intros K J. qcl.
Qed.

Definition slope (e : Qc) (p q : pt) : Qc := (cy q - cy p) / (tilt e q - tilt e p).
Definition hgt (e : Qc) (p q : pt) (l : Qc) : Qc := cy p + (l - tilt e p) * slope e p q.

Lemma slope_eq : forall e p q, tilt e p < tilt e q -> slope e p q * (tilt e q - tilt e p) = cy q - cy p.
Proof. intros e p q H. unfold slope. apply Qc_div_mul. intro K. qcl. Qed.
Lemma hgt_start : forall e p q, hgt e p q (tilt e p) = cy p.
Proof. intros. unfold hgt. ring. Qed.
Lemma hgt_end : forall e p q, tilt e p < tilt e q -> hgt e p q (tilt e q) = cy q.
Proof. intros e p q H. unfold hgt. rewrite Qcmult_comm, slope_eq by auto. ring. Qed.
Lemma cross_tilt : forall e p q r,
  cross p q r = (tilt e q - tilt e p) * (cy r - cy p) - (cy q - cy p) * (tilt e r - tilt e p).
Proof. intros. unfold cross, tilt. ring. Qed.
Lemma cross_hgt : forall e p q r, tilt e p < tilt e q ->
  cross p q r = (tilt e q - tilt e p) * (cy r - hgt e p q (tilt e r)).
Proof.
  intros e p q r H. rewrite (cross_tilt e). rewrite <- (slope_eq e p q H). unfold hgt. ring.
Qed.

(** The point of the line at a given level. *)
Definition at_level (e : Qc) (p q : pt) (l : Qc) : pt :=
  mkC (l - e * hgt e p q l) (hgt e p q l).
Lemma tilt_at_level : forall e p q l, tilt e (at_level e p q l) = l.
Proof. intros. unfold tilt, at_level. simpl. ring. Qed.
Lemma pt_eq_tilt : forall e a b, tilt e a = tilt e b -> cy a = cy b -> a = b.
Proof.
  intros e a b H K. apply pt_eq; auto. unfold tilt in H. rewrite K in H. qcl.
Qed.
Lemma on_seg_hgt : forall e p q r, tilt e p < tilt e q ->
  (on_seg p q r <-> tilt e p <= tilt e r /\ tilt e r <= tilt e q /\ cy r = hgt e p q (tilt e r)).
Proof.
  intros e p q r H. split.
  - intros (t & H0 & H1 & Hx & Hy).
    assert (T : tilt e r = tilt e p + t * (tilt e q - tilt e p)) by (unfold tilt; rewrite Hx, Hy; ring).
    rewrite T. split; [|split].
    + clear - H H0. qc.
    + clear - H H1. qc.
    + unfold hgt. replace (tilt e p + t * (tilt e q - tilt e p) - tilt e p) with (t * (tilt e q - tilt e p)) by ring.
      rewrite <- Qcmult_assoc, (Qcmult_comm (tilt e q - tilt e p)), slope_eq by auto. auto.
  - intros (H0 & H1 & Hy).
    assert (N : tilt e q - tilt e p <> 0) by (intro K; qcl).
    destruct (Qc_div_ex (tilt e r - tilt e p) (tilt e q - tilt e p) N) as (t & Ht).
    assert (Y : cy r = cy p + t * (cy q - cy p)).
    { rewrite Hy. unfold hgt. rewrite <- Ht, <- (slope_eq e p q) by auto. ring. }
    exists t. split; [|split; [|split]].
    + apply Qcnot_lt_le. intro K. clear Hy Y. qc.
    + apply Qcnot_lt_le. intro K. clear Hy Y. qc.
    + assert (X : cx r = tilt e r - e * cy r) by (unfold tilt; ring).
      rewrite X, Y. replace (tilt e r) with (tilt e p + t * (tilt e q - tilt e p)) by (rewrite Ht; ring).
      unfold tilt. ring.
    + auto.
Qed.
Lemma on_seg_at_level : forall e p q l, tilt e p < tilt e q -> tilt e p <= l -> l <= tilt e q ->
  on_seg p q (at_level e p q l).
Proof.
  intros e p q l H H0 H1. apply (on_seg_hgt e); auto. rewrite tilt_at_level. auto.
Qed.

(** Lexicographic comparison of (height, slope) at a level: the order along
    the sweep line just after that level. *)
Definition kcmp (e l : Qc) (p1 q1 p2 q2 : pt) : comparison :=
  match hgt e p1 q1 l ?= hgt e p2 q2 l with
  | Eq => slope e p1 q1 ?= slope e p2 q2
  | c => c
  end.
Lemma kcmp_opp : forall e l p1 q1 p2 q2, kcmp e l p2 q2 p1 q1 = CompOpp (kcmp e l p1 q1 p2 q2).
Proof.
  intros. unfold kcmp. rewrite (qcmp_opp (hgt e p1 q1 l)), (qcmp_opp (slope e p1 q1)).
  destruct (hgt e p1 q1 l ?= hgt e p2 q2 l); reflexivity.
Qed.
Inductive kcmp_view (e l : Qc) (p1 q1 p2 q2 : pt) : comparison -> Prop :=
| kv_lt : hgt e p1 q1 l < hgt e p2 q2 l -> kcmp_view e l p1 q1 p2 q2 Lt
| kv_gt : hgt e p2 q2 l < hgt e p1 q1 l -> kcmp_view e l p1 q1 p2 q2 Gt
| kv_slt : hgt e p1 q1 l = hgt e p2 q2 l -> slope e p1 q1 < slope e p2 q2 -> kcmp_view e l p1 q1 p2 q2 Lt
| kv_sgt : hgt e p1 q1 l = hgt e p2 q2 l -> slope e p2 q2 < slope e p1 q1 -> kcmp_view e l p1 q1 p2 q2 Gt
| kv_eq : hgt e p1 q1 l = hgt e p2 q2 l -> slope e p1 q1 = slope e p2 q2 -> kcmp_view e l p1 q1 p2 q2 Eq.
Lemma kcmp_spec : forall e l p1 q1 p2 q2, kcmp_view e l p1 q1 p2 q2 (kcmp e l p1 q1 p2 q2).
Proof.
  intros. unfold kcmp. destruct (qcmp_spec (hgt e p1 q1 l) (hgt e p2 q2 l)); [|constructor; auto|constructor; auto].
  destruct (qcmp_spec (slope e p1 q1) (slope e p2 q2)); [apply kv_eq|apply kv_slt|apply kv_sgt]; auto.
Qed.

(** The program's comparison of two lines is [kcmp] at the later left end. *)
Lemma ordered_kcmp : forall e p1 q1 p2 q2,
  tilt e p1 < tilt e q1 -> tilt e p2 < tilt e q2 ->
  lex_lt p2 q2 -> lex_le p1 p2 ->
  cmp_line_line_ordered p1 q1 p2 q2 = Some (kcmp e (tilt e p2) p1 q1 p2 q2).
Proof.
  intros e p1 q1 p2 q2 T1 T2 V2 L. unfold cmp_line_line_ordered.
  destruct (pleb_spec q2 p1) as [K|K]; [lord|]. destruct (pleb_spec q2 p2) as [J|J]; [lord|].
  cbn [orb]. f_equal.
  pose proof (cross_hgt e p1 q1 p2 T1) as C1. pose proof (cross_hgt e p1 q1 q2 T1) as C2.
  assert (H2 : hgt e p2 q2 (tilt e p2) = cy p2) by apply hgt_start.
  rewrite <- H2 in C1.
  destruct (orient2d_spec p1 q1 p2) as [O|O|O]; cbn [orientation_as_ordering ord_then].
  - rewrite C1 in O. destruct (kcmp_spec e (tilt e p2) p1 q1 p2 q2); auto; exfalso; qc.
  - rewrite C1 in O. destruct (kcmp_spec e (tilt e p2) p1 q1 p2 q2); auto; exfalso; qc.
  - rewrite C1 in O. apply Qc_mul_0 in O. destruct O as [O|O]; [exfalso; qcl|].
    assert (EQ : hgt e p1 q1 (tilt e p2) = hgt e p2 q2 (tilt e p2)) by qcl.
    assert (D : cy q2 - hgt e p1 q1 (tilt e q2) = (slope e p2 q2 - slope e p1 q1) * (tilt e q2 - tilt e p2)).
    { rewrite <- (hgt_end e p2 q2 T2).
      replace (hgt e p2 q2 (tilt e q2)) with (hgt e p2 q2 (tilt e p2) + (tilt e q2 - tilt e p2) * slope e p2 q2) by (unfold hgt; ring).
      replace (hgt e p1 q1 (tilt e q2)) with (hgt e p1 q1 (tilt e p2) + (tilt e q2 - tilt e p2) * slope e p1 q1) by (unfold hgt; ring).
      rewrite EQ. ring. }
    rewrite D in C2. clear D.
    destruct (orient2d_spec p1 q1 q2) as [O'|O'|O']; rewrite C2 in O'; cbn [orientation_as_ordering].
    + destruct (kcmp_spec e (tilt e p2) p1 q1 p2 q2) as [S|S|S S'|S S'|S S']; auto; exfalso; [qcl| |].
      * assert (0 < (tilt e q1 - tilt e p1) * (tilt e q2 - tilt e p2)) by qc. qc.
      * rewrite S' in O'. qc.
    + destruct (kcmp_spec e (tilt e p2) p1 q1 p2 q2) as [S|S|S S'|S S'|S S']; auto; exfalso; [qcl| |].
      * assert (0 < (tilt e q1 - tilt e p1) * (tilt e q2 - tilt e p2)) by qc. qc.
      * rewrite S' in O'. qc.
    + apply Qc_mul_0 in O'. destruct O' as [O'|O']; [exfalso; qcl|].
      apply Qc_mul_0 in O'. destruct O' as [O'|O']; [|exfalso; qcl].
      destruct (kcmp_spec e (tilt e p2) p1 q1 p2 q2) as [S|S|S S'|S S'|S S']; auto; exfalso; qcl.
Qed.

Definition lmax (e : Qc) (p1 p2 : pt) : Qc := if pltb p2 p1 then tilt e p1 else tilt e p2.
Lemma lines_kcmp : forall e p1 q1 p2 q2,
  tilt e p1 < tilt e q1 -> tilt e p2 < tilt e q2 -> lex_lt p1 q1 -> lex_lt p2 q2 ->
  cmp_line_line p1 q1 p2 q2 = Some (kcmp e (lmax e p1 p2) p1 q1 p2 q2).
Proof.
  intros e p1 q1 p2 q2 T1 T2 V1 V2. unfold cmp_line_line, lmax. destruct (pltb_spec p2 p1) as [H|H].
  - rewrite (ordered_kcmp e) by (auto; apply lex_lt_le; auto). simpl. f_equal.
    rewrite kcmp_opp. destruct (kcmp e (tilt e p1) p1 q1 p2 q2); reflexivity.
  - apply lex_not_lt in H. apply ordered_kcmp; auto.
Qed.

(** Between two levels the order can only change through a common height. *)
Lemma hgt_diff : forall e p1 q1 p2 q2 l l',
  hgt e p2 q2 l' - hgt e p1 q1 l' = (hgt e p2 q2 l - hgt e p1 q1 l) + (l' - l) * (slope e p2 q2 - slope e p1 q1).
Proof. intros. unfold hgt. ring. Qed.

Lemma kcmp_change : forall e p1 q1 p2 q2 l l', l <= l' ->
  kcmp e l p1 q1 p2 q2 = Lt -> kcmp e l' p1 q1 p2 q2 <> Lt ->
  exists m, l < m /\ m <= l' /\ hgt e p1 q1 m = hgt e p2 q2 m.
Proof.
  intros e p1 q1 p2 q2 l l' Hl H H'.
  pose proof (hgt_diff e p1 q1 p2 q2 l l') as D.
  destruct (kcmp_spec e l p1 q1 p2 q2) as [K|K|K K2|K K2|K K2]; try discriminate.
  - destruct (kcmp_spec e l' p1 q1 p2 q2) as [J|J|J J2|J J2|J J2]; try contradiction.
    + (* strictly above at l' *)
      assert (N : slope e p1 q1 - slope e p2 q2 <> 0) by (intro N; clear H H'; qc).
      destruct (Qc_div_ex (hgt e p2 q2 l - hgt e p1 q1 l) (slope e p1 q1 - slope e p2 q2) N) as (t & Ht).
      assert (S : slope e p2 q2 < slope e p1 q1) by (apply Qcnot_le_lt; intro; clear H H' Ht; qc).
      exists (l + t). split; [|split].
      * apply Qcnot_le_lt. intro C. clear H H' D J. qc.
      * apply Qcnot_lt_le. intro C. clear H H'. qc.
      * pose proof (hgt_diff e p1 q1 p2 q2 l (l + t)) as D2.
        replace (l + t - l) with t in D2 by ring. clear H H'. qc.
    + exists l'. split; [|split; [qcl|auto]].
      apply Qcle_lt_or_eq in Hl. destruct Hl as [Hl|Hl]; auto. subst. clear H H'. exfalso; qcl.
    + exists l'. split; [|split; [qcl|auto]].
      apply Qcle_lt_or_eq in Hl. destruct Hl as [Hl|Hl]; auto. subst. clear H H'. exfalso; qcl.
  - exfalso. apply H'. unfold kcmp.
    apply Qcle_lt_or_eq in Hl. destruct Hl as [Hl|Hl].
    + destruct (qcmp_spec (hgt e p1 q1 l') (hgt e p2 q2 l')) as [J|J|J]; [apply Qclt_alt; auto|auto|exfalso; clear H H'].
      * assert (0 < (l' - l) * (slope e p2 q2 - slope e p1 q1)) by qc. qcl.
    + subst. rewrite K. rewrite qcmp_refl. apply Qclt_alt. auto.
Qed.
Lemma kcmp_eq_all : forall e p1 q1 p2 q2 l l',
  kcmp e l p1 q1 p2 q2 = Eq -> kcmp e l' p1 q1 p2 q2 = Eq.
Proof.
  intros e p1 q1 p2 q2 l l' H. pose proof (hgt_diff e p1 q1 p2 q2 l l') as D.
  destruct (kcmp_spec e l p1 q1 p2 q2) as [K|K|K K2|K K2|K K2]; try discriminate.
  unfold kcmp. assert (E : hgt e p1 q1 l' = hgt e p2 q2 l') by (rewrite K, K2 in D; clear H; qcl).
  rewrite E, K2, !qcmp_refl. reflexivity.
Qed.
Lemma kcmp_lt_trans : forall e l p1 q1 p2 q2 p3 q3,
  kcmp e l p1 q1 p2 q2 = Lt -> kcmp e l p2 q2 p3 q3 = Lt -> kcmp e l p1 q1 p3 q3 = Lt.
Proof.
  intros e l p1 q1 p2 q2 p3 q3 H K.
  destruct (kcmp_spec e l p1 q1 p2 q2); try discriminate; destruct (kcmp_spec e l p2 q2 p3 q3); try discriminate;
  destruct (kcmp_spec e l p1 q1 p3 q3); auto; exfalso; clear H K; qcl.
Qed.
Lemma kcmp_lt_eq : forall e l p1 q1 p2 q2 p3 q3,
  kcmp e l p1 q1 p2 q2 = Lt -> kcmp e l p2 q2 p3 q3 = Eq -> kcmp e l p1 q1 p3 q3 = Lt.
Proof.
  intros e l p1 q1 p2 q2 p3 q3 H K.
  destruct (kcmp_spec e l p1 q1 p2 q2); try discriminate; destruct (kcmp_spec e l p2 q2 p3 q3); try discriminate;
  destruct (kcmp_spec e l p1 q1 p3 q3); auto; exfalso; clear H K; qcl.
Qed.
Lemma kcmp_eq_lt : forall e l p1 q1 p2 q2 p3 q3,
  kcmp e l p1 q1 p2 q2 = Eq -> kcmp e l p2 q2 p3 q3 = Lt -> kcmp e l p1 q1 p3 q3 = Lt.
Proof.
  intros e l p1 q1 p2 q2 p3 q3 H K.
  destruct (kcmp_spec e l p1 q1 p2 q2); try discriminate; destruct (kcmp_spec e l p2 q2 p3 q3); try discriminate;
  destruct (kcmp_spec e l p1 q1 p3 q3); auto; exfalso; clear H K; qcl.
Qed.
Lemma kcmp_eq_trans : forall e l p1 q1 p2 q2 p3 q3,
  kcmp e l p1 q1 p2 q2 = Eq -> kcmp e l p2 q2 p3 q3 = Eq -> kcmp e l p1 q1 p3 q3 = Eq.
Proof.
  intros e l p1 q1 p2 q2 p3 q3 H K.
  destruct (kcmp_spec e l p1 q1 p2 q2); try discriminate; destruct (kcmp_spec e l p2 q2 p3 q3); try discriminate;
  destruct (kcmp_spec e l p1 q1 p3 q3); auto; exfalso; clear H K; qcl.
Qed.
