(** Exactness of segment intersection. *)
Require Import List Bool Setoid Lqa Psatz String.
From Verif Require Import Base Scalar M_Events M_Geo M_LineOrPoint S_Geo P_Geo.
Import ListNotations.
Local Open Scope Qc_scope.

(** A geometry is valid when a line has its ends in strict order. *)
Definition valid (g : lop) : Prop := match g with Point _ => True | Line p q => lex_lt p q end.
(** The points of a geometry. *)
Definition pts (g : lop) (r : pt) : Prop := match g with Point p => r = p | Line p q => on_seg p q r end.

Lemma lop_of_line_spec : forall l,
  valid (lop_of_line l) /\ (forall r, pts (lop_of_line l) r <-> on_seg (l_start l) (l_end l) r).
Proof.
  intros [a b]. unfold lop_of_line. simpl.
  destruct (pcmp_spec a b) as [E|E|E]; simpl.
  - subst. split; auto. intros r. rewrite on_seg_point. tauto.
  - split; auto. tauto.
  - split; auto. intros r. split; apply on_seg_sym.
Qed.

(** ** The parameters of the crossing point *)
Section TwoLines.
Variables p1 p2 q1 q2 : pt.
Let A1 := cross p1 p2 q1.
Let A2 := cross p1 p2 q2.
Let B1 := cross q1 q2 p1.
Let B2 := cross q1 q2 p2.

Lemma cross_diff : A2 - A1 = B1 - B2.
Proof. unfold A1, A2, B1, B2, cross. ring. Qed.

(** If the lines are not parallel, common points are unique. *)
Lemma common_unique : A1 <> A2 -> forall r r',
  cross p1 p2 r = 0 -> cross q1 q2 r = 0 -> cross p1 p2 r' = 0 -> cross q1 q2 r' = 0 -> r = r'.
Proof.
  intros Hn r r' H1 H2 H3 H4.
  assert (D : A2 - A1 <> 0) by (intro K; apply Hn; qcl).
  assert (Ex : (cx r - cx r') * (A2 - A1) = 0).
  { replace ((cx r - cx r') * (A2 - A1)) with
      ((cx q2 - cx q1) * (cross p1 p2 r - cross p1 p2 r') - (cx p2 - cx p1) * (cross q1 q2 r - cross q1 q2 r'))
      by (unfold A1, A2, cross; ring).
    rewrite H1, H2, H3, H4. ring. }
  assert (Ey : (cy r - cy r') * (A2 - A1) = 0).
  { replace ((cy r - cy r') * (A2 - A1)) with
      ((cy q2 - cy q1) * (cross p1 p2 r - cross p1 p2 r') - (cy p2 - cy p1) * (cross q1 q2 r - cross q1 q2 r'))
      by (unfold A1, A2, cross; ring).
    rewrite H1, H2, H3, H4. ring. }
  apply Qc_mul_0 in Ex. apply Qc_mul_0 in Ey.
  destruct Ex as [Ex|Ex]; [|contradiction]. destruct Ey as [Ey|Ey]; [|contradiction].
  apply pt_eq; qcl.
Qed.

(** If moreover neither segment lies strictly on one side of the other line,
    there is a common point. *)
Definition straddle (a b : Qc) : Prop := (a <= 0 /\ 0 <= b) \/ (0 <= a /\ b <= 0).

Lemma ratio : forall a b, a <> b -> straddle a b -> exists s, 0 <= s /\ s <= 1 /\ s * (a - b) = a.
Proof.
  intros a b Hn Hs. assert (N : a - b <> 0) by (intro K; apply Hn; qcl).
  destruct (Qc_div_ex a (a - b) N) as (s & Hsv). exists s.
  split; [|split; auto]; apply Qcnot_lt_le; intro K;
    destruct (Qc_neq_lt _ _ Hn); destruct Hs as [[? ?]|[? ?]]; qc.
Qed.

Lemma common_exists : A1 <> A2 -> straddle A1 A2 -> straddle B1 B2 ->
  exists r, on_seg p1 p2 r /\ on_seg q1 q2 r.
Proof.
  intros Hn HA HB. pose proof cross_diff as CD.
  assert (Hm : B1 <> B2) by (intro K; apply Hn; qcl).
  destruct (ratio _ _ Hn HA) as (s & Hs0 & Hs1 & Hs).
  destruct (ratio _ _ Hm HB) as (t & Ht0 & Ht1 & Ht).
  assert (D : A1 - A2 <> 0) by (intro K; apply Hn; qcl).
  exists (mkC (cx q1 + s * (cx q2 - cx q1)) (cy q1 + s * (cy q2 - cy q1))).
  split; [|exists s; simpl; auto].
  exists t. simpl. split; auto. split; auto.
  assert (Ht' : t * (A1 - A2) = - B1) by (replace (A1 - A2) with (- (B1 - B2)) by qcl; qcl).
  split; apply (Qc_mul_cancel _ _ _ D).
  - replace ((cx q1 + s * (cx q2 - cx q1)) * (A1 - A2)) with (cx q1 * (A1 - A2) + (s * (A1 - A2)) * (cx q2 - cx q1)) by ring.
    replace ((cx p1 + t * (cx p2 - cx p1)) * (A1 - A2)) with (cx p1 * (A1 - A2) + (t * (A1 - A2)) * (cx p2 - cx p1)) by ring.
    rewrite Hs, Ht'. unfold A1, A2, B1, cross. ring.
  - replace ((cy q1 + s * (cy q2 - cy q1)) * (A1 - A2)) with (cy q1 * (A1 - A2) + (s * (A1 - A2)) * (cy q2 - cy q1)) by ring.
    replace ((cy p1 + t * (cy p2 - cy p1)) * (A1 - A2)) with (cy p1 * (A1 - A2) + (t * (A1 - A2)) * (cy p2 - cy p1)) by ring.
    rewrite Hs, Ht'. unfold A1, A2, B1, cross. ring.
Qed.
End TwoLines.

Lemma cross_affine : forall p q a b t r,
  cx r = cx a + t * (cx b - cx a) -> cy r = cy a + t * (cy b - cy a) ->
  cross p q r = cross p q a + t * (cross p q b - cross p q a).
Proof. intros p q a b t r Hx Hy. unfold cross. rewrite Hx, Hy. ring. Qed.

(** If a segment meets a line, it straddles it. *)
Lemma meets_straddle : forall p q a b r, on_seg a b r -> cross p q r = 0 ->
  straddle (cross p q a) (cross p q b).
Proof.
  intros p q a b r (t & H0 & H1 & Hx & Hy) Hc.
  rewrite (cross_affine p q a b t r Hx Hy) in Hc.
  generalize dependent (cross p q a). generalize dependent (cross p q b). intros u v E.
  unfold straddle.
  destruct (Qc_trichotomy v 0) as [[K|K]|K]; destruct (Qc_trichotomy u 0) as [[J|J]|J];
    try (left; split; qcl; fail); try (right; split; qcl; fail); exfalso; clear Hx Hy.
  - assert (t * u <= 0) by qc. assert ((1 - t) * v <= 0) by qc.
    assert (E' : t * u + (1 - t) * v = 0) by (rewrite <- E; ring).
    assert (t * u = 0) by qcl. assert (F : (1 - t) * v = 0) by qcl.
    apply Qc_mul_0 in F. destruct F as [F|F]; [|qcl].
    assert (G : t * u = 0) by auto. apply Qc_mul_0 in G. destruct G; qcl.
  - assert (0 <= t * u) by qc. assert (0 <= (1 - t) * v) by qc.
    assert (E' : t * u + (1 - t) * v = 0) by (rewrite <- E; ring).
    assert (G : t * u = 0) by qcl. assert (F : (1 - t) * v = 0) by qcl.
    apply Qc_mul_0 in F. destruct F as [F|F]; [|qcl].
    apply Qc_mul_0 in G. destruct G; qcl.
Qed.


Lemma qmin_spec : forall a b, (qmin a b = a /\ a <= b) \/ (qmin a b = b /\ b < a).
Proof.
  intros. unfold qmin. destruct (qleb a b) eqn:E; [left|right]; split; auto.
  - apply qleb_iff; auto.
  - apply Qcnot_le_lt. intro K. apply qleb_iff in K. congruence.
Qed.
Lemma qmax_spec : forall a b, (qmax a b = b /\ a <= b) \/ (qmax a b = a /\ b < a).
Proof.
  intros. unfold qmax. destruct (qleb a b) eqn:E; [left|right]; split; auto.
  - apply qleb_iff; auto.
  - apply Qcnot_le_lt. intro K. apply qleb_iff in K. congruence.
Qed.

Lemma rect_has_true : forall l r, rect_has (line_bounding_rect l) r = true <->
  (qmin (cx (l_start l)) (cx (l_end l)) <= cx r /\ cx r <= qmax (cx (l_start l)) (cx (l_end l)) /\
   qmin (cy (l_start l)) (cy (l_end l)) <= cy r /\ cy r <= qmax (cy (l_start l)) (cy (l_end l))).
Proof.
  intros l r. unfold rect_has, line_bounding_rect. simpl.
  rewrite !andb_true_iff, !qleb_iff. tauto.
Qed.

Lemma on_seg_in_rect : forall l r, on_seg (l_start l) (l_end l) r ->
  rect_has (line_bounding_rect l) r = true.
Proof.
  intros [p q] r (t & H0 & H1 & Hx & Hy). apply rect_has_true. simpl in *.
  rewrite Hx, Hy. clear Hx Hy.
  destruct (qmin_spec (cx p) (cx q)) as [[-> ?]|[-> ?]]; destruct (qmax_spec (cx p) (cx q)) as [[-> ?]|[-> ?]];
  destruct (qmin_spec (cy p) (cy q)) as [[-> ?]|[-> ?]]; destruct (qmax_spec (cy p) (cy q)) as [[-> ?]|[-> ?]];
  repeat split; qc.
Qed.

Lemma rect_has_iff : forall p q r, lex_lt p q -> cross p q r = 0 ->
  (rect_has (line_bounding_rect (mkLine p q)) r = true <-> lex_le p r /\ lex_le r q).
Proof.
  intros p q r Hpq Hc. split.
  - intros H. apply rect_has_true in H. simpl in H. destruct H as (H1 & H2 & H3 & H4).
    destruct Hpq as [L|[L M]].
    + destruct (qmin_spec (cx p) (cx q)) as [[E ?]|[E ?]]; [|exfalso; qcl]. rewrite E in H1. clear E.
      destruct (qmax_spec (cx p) (cx q)) as [[E ?]|[E ?]]; [|exfalso; qcl]. rewrite E in H2. clear E.
      destruct (Qc_trichotomy (cx p) (cx r)) as [[K|K]|K]; [| |exfalso; qcl].
      * split; [left; left; auto|].
        destruct (Qc_trichotomy (cx r) (cx q)) as [[J|J]|J]; [left; left; auto| |exfalso; qcl].
        right. apply pt_eq; auto. unfold cross in Hc. rewrite J in Hc.
        assert (F : (cx q - cx p) * (cy r - cy q) = 0) by qc.
        apply Qc_mul_0 in F. destruct F; qcl.
      * assert (p = r) as ->.
        { apply pt_eq; auto. unfold cross in Hc. rewrite <- K in Hc.
          assert (F : (cx q - cx p) * (cy r - cy p) = 0) by qc.
          apply Qc_mul_0 in F. destruct F; qcl. }
        split; [right; auto|left; left; auto].
    + destruct (qmin_spec (cx p) (cx q)) as [[E ?]|[E ?]]; [|exfalso; qcl]. rewrite E in H1. clear E.
      destruct (qmax_spec (cx p) (cx q)) as [[E ?]|[E ?]]; [|exfalso; qcl]. rewrite E in H2. clear E.
      destruct (qmin_spec (cy p) (cy q)) as [[E ?]|[E ?]]; [|exfalso; qcl]. rewrite E in H3. clear E.
      destruct (qmax_spec (cy p) (cy q)) as [[E ?]|[E ?]]; [|exfalso; qcl]. rewrite E in H4. clear E.
      assert (X : cx r = cx p) by qcl.
      split.
      * destruct (Qc_trichotomy (cy p) (cy r)) as [[K|K]|K]; [left; right; auto|right; apply pt_eq; auto|exfalso; qcl].
      * destruct (Qc_trichotomy (cy r) (cy q)) as [[K|K]|K]; [left; right; split; auto; congruence|right; apply pt_eq; auto; congruence|exfalso; qcl].
  - intros [H1 H2]. apply on_seg_in_rect. simpl. apply on_seg_iff; auto.
Qed.

Lemma rects_intersect : forall a b r,
  rect_has a r = true -> rect_has b r = true -> rect_intersects a b = true.
Proof.
  intros a b r Ha Hb. unfold rect_has, rect_intersects in *.
  rewrite !andb_true_iff, !qleb_iff in *.
  rewrite !negb_true_iff.
  assert (F : forall x y, y <= x -> qltb x y = false).
  { intros x y H. destruct (qltb x y) eqn:E; auto. apply qltb_iff in E. exfalso; qcl. }
  destruct Ha as (((? & ?) & ?) & ?). destruct Hb as (((? & ?) & ?) & ?).
  repeat split; apply F; qcl.
Qed.

(** Collinearity spreads: if [c], [d] are distinct points on the line [a b],
    then the lines [a b] and [c d] have the same points. *)
Lemma collinear_same : forall a b c d r, a <> b -> c <> d ->
  cross a b c = 0 -> cross a b d = 0 -> (cross a b r = 0 <-> cross c d r = 0).
Proof.
  intros a b c d r Hab Hcd Hc Hd.
  (* direction d - c is a multiple of b - a *)
  assert (P : exists k, cx d - cx c = k * (cx b - cx a) /\ cy d - cy c = k * (cy b - cy a)).
  { unfold cross in *.
    assert (E : (cx b - cx a) * (cy d - cy c) = (cy b - cy a) * (cx d - cx c)) by qc.
    destruct (Qc_trichotomy (cx b - cx a) 0) as [[K|K]|K].
    - destruct (Qc_div_ex (cx d - cx c) (cx b - cx a) (Qc_lt_neq _ _ K)) as (k & Hk). exists k. split; auto.
      apply (Qc_mul_cancel _ _ _ (Qc_lt_neq _ _ K)). rewrite Qcmult_comm, E, <- Hk. ring.
    - assert (N : cy b - cy a <> 0) by (intro N; apply Hab; apply pt_eq; qcl).
      destruct (Qc_div_ex (cy d - cy c) (cy b - cy a) N) as (k & Hk). exists k. split; auto.
      rewrite K in *. assert (F : (cy b - cy a) * (cx d - cx c) = 0) by (rewrite <- E; ring).
      apply Qc_mul_0 in F. destruct F as [F|F]; [contradiction|rewrite F; ring].
    - destruct (Qc_div_ex (cx d - cx c) (cx b - cx a) (Qc_gt_neq _ _ K)) as (k & Hk). exists k. split; auto.
      apply (Qc_mul_cancel _ _ _ (Qc_gt_neq _ _ K)). rewrite Qcmult_comm, E, <- Hk. ring. }
  destruct P as (k & Px & Py).
  assert (Kn : k <> 0).
  { intro K. subst k. apply Hcd. apply pt_eq; qc. }
  assert (X : cross c d r = k * (cross a b r - cross a b c)).
  { unfold cross. rewrite Px, Py. ring. }
  rewrite X, Hc. split; intro H.
  - rewrite H. ring.
  - apply Qc_mul_0 in H. destruct H as [H|H]; [contradiction|]. qcl.
Qed.

Lemma same_side_false : forall a b p q u v,
  orient_spec p q a u -> orient_spec p q b v -> same_side u v = false -> straddle (cross p q a) (cross p q b).
Proof.
  intros a b p q u v Hu Hv. destruct Hu as [Hu|Hu|Hu], Hv as [Hv|Hv|Hv]; simpl; intro; try discriminate;
  unfold straddle;
  first [ left; split; qcl | right; split; qcl ].
Qed.

(** ** line_intersection *)
Definition is_inter (P Q : pt -> Prop) (o : option lop) : Prop :=
  match o with
  | None => forall r, ~ (P r /\ Q r)
  | Some g => valid g /\ forall r, pts g r <-> P r /\ Q r
  end.

Definition to_lop (l : line_intersection_result) : lop :=
  match l with SinglePoint i _ => Point i | CollinearSeg i => lop_of_line i end.

Lemma lop_of_line_lt : forall a b, lex_lt a b -> lop_of_line (mkLine a b) = Line a b.
Proof.
  intros a b H. unfold lop_of_line; simpl. destruct (pcmp_spec a b) as [E|E|E]; auto; lord.
Qed.
Lemma lop_of_line_sym : forall a b, lop_of_line (mkLine a b) = lop_of_line (mkLine b a).
Proof.
  intros a b. unfold lop_of_line; simpl. rewrite (pcmp_opp a b).
  destruct (pcmp_spec a b) as [E|E|E]; simpl; auto. subst; auto.
Qed.

Lemma col_case : forall p1 p2 q1 q2, lex_lt p1 p2 -> lex_lt q1 q2 ->
  cross p1 p2 q1 = 0 -> cross p1 p2 q2 = 0 -> cross q1 q2 p1 = 0 -> cross q1 q2 p2 = 0 ->
  is_inter (on_seg p1 p2) (on_seg q1 q2)
    (option_map to_lop (collinear_intersection (mkLine p1 p2) (mkLine q1 q2))).
Proof.
  intros p1 p2 q1 q2 Hp Hq Ha Hb Hc Hd.
  pose proof (rect_has_iff p1 p2 q1 Hp Ha) as Ra.
  pose proof (rect_has_iff p1 p2 q2 Hp Hb) as Rb.
  pose proof (rect_has_iff q1 q2 p1 Hq Hc) as Rc.
  pose proof (rect_has_iff q1 q2 p2 Hq Hd) as Rd.
  assert (S : forall r, cross p1 p2 r = 0 <-> cross q1 q2 r = 0)
    by (intro; apply collinear_same; auto using lex_lt_neq).
  assert (I : forall r, on_seg p1 p2 r /\ on_seg q1 q2 r <->
     cross p1 p2 r = 0 /\ lex_le p1 r /\ lex_le r p2 /\ lex_le q1 r /\ lex_le r q2).
  { intro r. rewrite !on_seg_iff by auto. rewrite <- S. tauto. }
  assert (Zp1 : cross p1 p2 p1 = 0) by (unfold cross; ring).
  assert (Zp2 : cross p1 p2 p2 = 0) by (unfold cross; ring).
  assert (SEG : forall a b, lex_lt a b -> cross p1 p2 a = 0 -> cross p1 p2 b = 0 ->
     lex_le p1 a -> lex_le q1 a -> lex_le b p2 -> lex_le b q2 -> (a = p1 \/ a = q1) -> (b = p2 \/ b = q2) ->
     is_inter (on_seg p1 p2) (on_seg q1 q2) (Some (lop_of_line (mkLine a b)))).
  { intros a b Hab Ca Cb L1 L2 L3 L4 E F. rewrite lop_of_line_lt by auto. simpl. split; auto.
    intros r. rewrite I, on_seg_iff by auto.
    rewrite <- (collinear_same p1 p2 a b r) by auto using lex_lt_neq.
    split.
    - intros (C & K1 & K2). repeat split; auto; lord.
    - intros (C & K1 & K2 & K3 & K4). split; auto. destruct E, F; subst; split; auto. }
  assert (PT : forall a, cross p1 p2 a = 0 ->
     (forall r, lex_le p1 r /\ lex_le r p2 /\ lex_le q1 r /\ lex_le r q2 <-> r = a) ->
     is_inter (on_seg p1 p2) (on_seg q1 q2) (Some (Point a))).
  { intros a Ca H. simpl. split; auto. intros r. rewrite I, H. split; [intros ->; auto|tauto]. }
  assert (NO : (forall r, ~ (lex_le p1 r /\ lex_le r p2 /\ lex_le q1 r /\ lex_le r q2)) ->
     is_inter (on_seg p1 p2) (on_seg q1 q2) None).
  { intros H r. rewrite I. intros (_ & K). exact (H r K). }
  unfold collinear_intersection. simpl l_start. simpl l_end.
  destruct (rect_has (line_bounding_rect (mkLine p1 p2)) q1) eqn:Ea;
  destruct (rect_has (line_bounding_rect (mkLine p1 p2)) q2) eqn:Eb;
  destruct (rect_has (line_bounding_rect (mkLine q1 q2)) p1) eqn:Ec;
  destruct (rect_has (line_bounding_rect (mkLine q1 q2)) p2) eqn:Ed;
  cbn [andb negb]; clear Ea Eb Ec Ed.
  all: repeat match goal with
       | H : true = true <-> ?X |- _ => let K := fresh in assert (K : X) by (apply H; reflexivity); clear H
       | H : false = true <-> ?X |- _ => let K := fresh in assert (K : ~ X) by (intro K; apply H in K; discriminate); clear H
       | H : _ /\ _ |- _ => destruct H
       | H : ~ (lex_le ?a ?b /\ lex_le ?c ?d) |- _ =>
           destruct (lex_le_dec a b); [destruct (lex_le_dec c d); [exfalso; apply H; split; assumption|clear H]|clear H]
       end; try (exfalso; clear SEG PT NO I S; lord).
  all: simpl option_map.
  all: try (apply SEG; auto; clear SEG PT NO I S; lord).
  all: try (apply NO; clear SEG PT NO I S; intros r (K1 & K2 & K3 & K4); lord).
  all: match goal with |- context [peqb ?a ?b] => destruct (peqb_spec a b) as [EQ|NEQ] end;
       simpl option_map.
  all: try (apply PT; auto; clear SEG PT NO I S; intros r; split; [intros (K1 & K2 & K3 & K4); lord|intros ->; repeat split; lord]).
  all: try (exfalso; apply NEQ; clear SEG PT NO I S; lord).
  all: simpl to_lop; try (apply SEG; auto; clear SEG PT NO I S; first [lord|apply lex_le_neq; [lord|congruence]]; fail).
  all: rewrite lop_of_line_sym; apply SEG; auto; clear SEG PT NO I S; first [lord|apply lex_le_neq; [lord|congruence]].
Qed.

Lemma proper_is_common : forall p1 p2 q1 q2, cross p1 p2 q1 <> cross p1 p2 q2 ->
  let w := proper_intersection (mkLine p1 p2) (mkLine q1 q2) in
  cross p1 p2 w = 0 /\ cross q1 q2 w = 0.
Proof.
  intros p1 p2 q1 q2 Hn.
  set (W := (cy p1 - cy p2) * (cx q2 - cx q1) - (cy q1 - cy q2) * (cx p2 - cx p1)).
  assert (N : W <> 0).
  { intro K. apply Hn. unfold W in K.
    assert (cross p1 p2 q2 - cross p1 p2 q1 = W) by (unfold cross, W; ring). unfold W in *. qcl. }
  intro w.
  assert (X : cx w * W = (cx p2 - cx p1) * (cx q1 * cy q2 - cx q2 * cy q1) - (cx q2 - cx q1) * (cx p1 * cy p2 - cx p2 * cy p1)).
  { unfold w, proper_intersection; simpl. fold W. unfold Qcdiv. rewrite <- Qcmult_assoc, (Qcmult_comm (/ W)), Qcmult_inv_r by auto. ring. }
  assert (Y : cy w * W = (cy q1 - cy q2) * (cx p1 * cy p2 - cx p2 * cy p1) - (cy p1 - cy p2) * (cx q1 * cy q2 - cx q2 * cy q1)).
  { unfold w, proper_intersection; simpl. fold W. unfold Qcdiv. rewrite <- Qcmult_assoc, (Qcmult_comm (/ W)), Qcmult_inv_r by auto. ring. }
  split; apply (Qc_mul_cancel _ _ _ N).
  - replace (cross p1 p2 w * W) with ((cx p2 - cx p1) * (cy w * W - cy p1 * W) - (cy p2 - cy p1) * (cx w * W - cx p1 * W))
      by (unfold cross; ring).
    rewrite X, Y. unfold W. ring.
  - replace (cross q1 q2 w * W) with ((cx q2 - cx q1) * (cy w * W - cy q1 * W) - (cy q2 - cy q1) * (cx w * W - cx q1 * W))
      by (unfold cross; ring).
    rewrite X, Y. unfold W. ring.
Qed.

Lemma line_intersection_exact : forall p1 p2 q1 q2, lex_lt p1 p2 -> lex_lt q1 q2 ->
  is_inter (on_seg p1 p2) (on_seg q1 q2)
    (option_map to_lop (line_intersection (mkLine p1 p2) (mkLine q1 q2))).
Proof.
  intros p1 p2 q1 q2 Hp Hq. unfold line_intersection, line_intersection_with. simpl l_start; simpl l_end.
  destruct (rect_intersects _ _) eqn:ER; cbn [negb].
  2:{ intros r [H1 H2].
      rewrite (rects_intersect _ _ r) in ER; [discriminate| |]; apply on_seg_in_rect; auto. }
  pose proof (orient2d_spec p1 p2 q1) as O1. pose proof (orient2d_spec p1 p2 q2) as O2.
  pose proof (orient2d_spec q1 q2 p1) as O3. pose proof (orient2d_spec q1 q2 p2) as O4.
  generalize dependent (orient2d p1 p2 q1). intros o1 O1.
  generalize dependent (orient2d p1 p2 q2). intros o2 O2.
  generalize dependent (orient2d q1 q2 p1). intros o3 O3.
  generalize dependent (orient2d q1 q2 p2). intros o4 O4.
  pose proof (proper_is_common p1 p2 q1 q2) as PC. cbv zeta in PC.
  generalize dependent (proper_intersection (mkLine p1 p2) (mkLine q1 q2)). intros pw PC.
  destruct (same_side o1 o2) eqn:ES1.
  { intros r [H1 H2]. pose proof (meets_straddle p1 p2 q1 q2 r H2 (on_seg_cross _ _ _ H1)) as ST.
    destruct O1, O2; simpl in ES1; try discriminate; destruct ST as [[? ?]|[? ?]]; qcl. }
  destruct (same_side o3 o4) eqn:ES2.
  { intros r [H1 H2]. pose proof (meets_straddle q1 q2 p1 p2 r H1 (on_seg_cross _ _ _ H2)) as ST.
    destruct O3, O4; simpl in ES2; try discriminate; destruct ST as [[? ?]|[? ?]]; qcl. }
  pose proof (same_side_false _ _ _ _ _ _ O1 O2 ES1) as SA.
  pose proof (same_side_false _ _ _ _ _ _ O3 O4 ES2) as SB.
  destruct (Qc_eq_dec (cross p1 p2 q1) (cross p1 p2 q2)) as [EQ|NE].
  - (* parallel *)
    assert (Z1 : cross p1 p2 q1 = 0) by (destruct SA as [[? ?]|[? ?]]; rewrite <- EQ in *; qcl).
    assert (Z2 : cross p1 p2 q2 = 0) by congruence.
    assert (Z3 : cross q1 q2 p1 = 0) by (apply (collinear_same p1 p2 q1 q2 p1 (lex_lt_neq _ _ Hp) (lex_lt_neq _ _ Hq) Z1 Z2); unfold cross; ring).
    assert (Z4 : cross q1 q2 p2 = 0) by (apply (collinear_same p1 p2 q1 q2 p2 (lex_lt_neq _ _ Hp) (lex_lt_neq _ _ Hq) Z1 Z2); unfold cross; ring).
    destruct O1; [exfalso; qcl|exfalso; qcl|]. destruct O2; [exfalso; qcl|exfalso; qcl|].
    destruct O3; [exfalso; qcl|exfalso; qcl|]. destruct O4; [exfalso; qcl|exfalso; qcl|].
    simpl. apply col_case; auto.
  - (* transversal *)
    destruct (common_exists p1 p2 q1 q2 NE SA SB) as (w & W1 & W2).
    assert (U : forall i, on_seg p1 p2 i /\ on_seg q1 q2 i -> is_inter (on_seg p1 p2) (on_seg q1 q2) (Some (Point i))).
    { intros i [I1 I2]. simpl. split; auto. intros r. split; [intros ->; auto|].
      intros [R1 R2]. apply (common_unique p1 p2 q1 q2 NE); apply on_seg_cross; auto. }
    assert (NC : is_collinear o1 && is_collinear o2 && is_collinear o3 && is_collinear o4 = false).
    { destruct O1; simpl; auto. destruct O2; simpl; auto. exfalso; apply NE; congruence. }
    rewrite NC. clear NC.
    assert (Q : forall i, cross p1 p2 i = 0 -> cross q1 q2 i = 0 -> i = w).
    { intros i C1 C2. apply (common_unique p1 p2 q1 q2 NE); auto using on_seg_cross. }
    assert (Zp1 : cross p1 p2 p1 = 0) by (unfold cross; ring).
    assert (Zp2 : cross p1 p2 p2 = 0) by (unfold cross; ring).
    assert (Zq1 : cross q1 q2 q1 = 0) by (unfold cross; ring).
    assert (Zq2 : cross q1 q2 q2 = 0) by (unfold cross; ring).
    destruct (is_collinear o1 || is_collinear o2 || is_collinear o3 || is_collinear o4) eqn:EC.
    + cbn [option_map to_lop]. apply U.
      destruct (peqb_spec p1 q1) as [E|E]; simpl; [subst; split; apply on_seg_start|].
      destruct (peqb_spec p1 q2) as [E'|E']; simpl; [subst; split; [apply on_seg_start|apply on_seg_end]|].
      destruct (peqb_spec p2 q1) as [E2|E2]; simpl; [subst; split; [apply on_seg_end|apply on_seg_start]|].
      destruct (peqb_spec p2 q2) as [E3|E3]; simpl; [subst; split; apply on_seg_end|].
      destruct O1 as [O1|O1|O1], O2 as [O2|O2|O2], O3 as [O3|O3|O3], O4 as [O4|O4|O4];
        cbn [is_collinear orient_eqb orb] in EC |- *; try discriminate EC;
        first [rewrite <- (Q q1 O1 Zq1) in W1, W2; split; assumption | rewrite <- (Q q2 O2 Zq2) in W1, W2; split; assumption
              | rewrite <- (Q p1 Zp1 O3) in W1, W2; split; assumption | rewrite <- (Q p2 Zp2 O4) in W1, W2; split; assumption].
    + cbn [option_map to_lop]. apply U.
      destruct (PC NE) as [P1 P2].
      rewrite (Q _ P1 P2). auto.
Qed.

Lemma intersect_line_exact : forall a b, valid a -> valid b ->
  match intersect_line a b with
  | Ok o => is_line b = true /\ is_inter (pts a) (pts b) o
  | Panic _ => is_line b = false
  | NoFuel => False
  end.
Proof.
  intros a b Ha Hb. unfold intersect_line, intersect_line_with, check.
  destruct b as [b|q1 q2]; simpl; auto. simpl in Hb.
  destruct a as [p|p1 p2]; simpl in Ha; split; auto.
  - pose proof (orient2d_spec q1 p q2) as O.
    assert (CR : cross q1 q2 p = - cross q1 p q2) by (unfold cross; ring).
    destruct O as [O|O|O]; cbn [is_collinear orient_eqb].
    + intros r [-> H]. apply on_seg_cross in H. qcl.
    + intros r [-> H]. apply on_seg_cross in H. qcl.
    + destruct (pleb_spec q1 p); cbn [andb]; [destruct (pleb_spec p q2)|].
      * split; auto. intros r. simpl. split; [intros ->|tauto]. split; auto.
        apply on_seg_iff; auto. split; auto. rewrite CR, O. ring.
      * intros r [-> H]. apply on_seg_between in H; tauto.
      * intros r [-> H]. apply on_seg_between in H; tauto.
  - pose proof (line_intersection_exact p1 p2 q1 q2 Ha Hb) as H. exact H.
Qed.

Lemma intersect_line_ordered_exact : forall a b, valid a -> valid b ->
  intersect_line_ordered a b = intersect_line a b /\
  forall o, intersect_line_ordered a b = Ok (Some o) ->
    lex_le (lop_first a) (lop_first o) /\ lex_le (lop_first b) (lop_first o).
Proof.
  intros a b Ha Hb. pose proof (intersect_line_exact a b Ha Hb) as H.
  unfold intersect_line_ordered, intersect_line_ordered_with. fold (intersect_line a b).
  destruct (intersect_line a b) as [[g|]| |]; simpl in *; [|split; [auto|discriminate]|split; [auto|discriminate]|split; [auto|discriminate]].
  destruct H as (Hl & Hg & HI).
  assert (F : pts g (lop_first g)) by (destruct g; simpl; [auto|apply on_seg_start]).
  assert (L1 : lex_le (lop_first a) (lop_first g) /\ lex_le (lop_first b) (lop_first g)).
  { apply HI in F. destruct F as [F1 F2]. split.
    - destruct a as [p|p q]; simpl in *; [rewrite F1; apply lex_le_refl|apply on_seg_between in F1; tauto].
    - destruct b as [p|p q]; simpl in *; [discriminate|apply on_seg_between in F2; tauto]. }
  destruct g as [p|p q]; simpl in *.
  - destruct L1 as [L1 L2].
    assert (C : qeqb (cx p) (cx (lop_first a)) && qltb (cy p) (cy (lop_first a)) = false).
    { apply not_true_is_false. rewrite andb_true_iff, qeqb_iff, qltb_iff. intros [E1 E2].
      eapply lex_lt_not_le; [|exact L1]. right; auto. }
    rewrite C. simpl. replace (mkC (cx p) (cy p)) with p by (destruct p; reflexivity). apply pleb_iff in L1. apply pleb_iff in L2. rewrite L1, L2. simpl.
    split; auto. intros o [= <-]. simpl. rewrite <- !pleb_iff. auto.
  - split; auto. intros o [= <-]. simpl. auto.
Qed.
