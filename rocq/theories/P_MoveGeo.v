(** Affine maps that keep the order of the sweep keep every test the sweep makes,
    and commute with the intersection of two lines. *)
Require Import List String Bool Arith Lia.
From Verif Require Import Base Scalar M_Events M_Geo M_LineOrPoint S_Geo S_Sweep S_Move P_Geo P_LineOrPoint P_LineInt.
Import ListNotations.
Local Open Scope Qc_scope.

Lemma pt_ext : forall a b : pt, cx a = cx b -> cy a = cy b -> a = b.
Proof. intros [x y] [x' y']. cbn. congruence. Qed.
Lemma affine_form : forall f, affine f -> keeps_order f ->
  exists a c d e h, 0 < a /\ 0 < e /\ forall p, f p = mkC (a * cx p + c) (d * cx p + e * cy p + h).
Proof.
  intros f (a & b & c & d & e & h & F) K.
  assert (O : forall x y x' y', x < x' \/ (x = x' /\ y < y') -> a * x + b * y + c < a * x' + b * y' + c \/ (a * x + b * y + c = a * x' + b * y' + c /\ d * x + e * y + h < d * x' + e * y' + h)).
  { intros x y x' y' L. specialize (K (mkC x y) (mkC x' y') L). rewrite !F in K. exact K. }
  assert (B : b = 0).
  { assert (B0 : 0 <= b) by (destruct (O 0 0 0 1) as [L|[L _]]; [right; split; auto; reflexivity| |]; qcl).
    destruct (Qclt_le_dec 0 b) as [P|P]; [exfalso|apply Qcle_antisym; auto].
    assert (Z : b * (- (a + 1) / b) = - (a + 1)) by (field; intros ->; apply (Qclt_not_eq _ _ P); reflexivity).
    destruct (O 0 0 1 (- (a + 1) / b)) as [L|[L _]]; [left; reflexivity| |]; set (t := - (a + 1) / b) in *; clearbody t; qc. }
  subst b. assert (E : 0 < e) by (destruct (O 0 0 0 1) as [L|[_ L]]; [right; split; auto; reflexivity| |]; qcl).
  assert (A : 0 < a).
  { assert (A0 : 0 <= a) by (destruct (O 0 0 1 0) as [L|[L _]]; [left; reflexivity| |]; qcl). destruct (Qclt_le_dec 0 a) as [P|P]; auto. exfalso.
    assert (Z : e * (- (d + 1) / e) = - (d + 1)) by (field; intros ->; apply (Qclt_not_eq _ _ E); reflexivity).
    destruct (O 0 0 1 (- (d + 1) / e)) as [L|[_ L]]; [left; reflexivity| |]; set (t := - (d + 1) / e) in *; clearbody t; qc. }
  exists a, c, d, e, h. split; auto. split; auto. intros p. rewrite F. f_equal. ring.
Qed.

Lemma lt_mul : forall k x y, 0 < k -> (k * x < k * y <-> x < y).
Proof.
  intros k x y K. split; intros L; qc.
Qed.
Lemma eq_mul : forall k x y, 0 < k -> (k * x = k * y <-> x = y).
Proof.
  intros k x y K. split; [|congruence]. intros E. apply Qcle_antisym; apply Qcnot_lt_le; intros L; apply (lt_mul k _ _ K) in L; rewrite E in L; apply (Qclt_not_eq _ _ L); reflexivity.
Qed.

Section Affine.
Variables (a c d e h : Qc).
Hypotheses (Ha : 0 < a) (He : 0 < e).
Definition sh (p : pt) : pt := mkC (a * cx p + c) (d * cx p + e * cy p + h).
Lemma x_lt : forall u v, cx (sh u) < cx (sh v) <-> cx u < cx v.
Proof. intros u v. cbn. rewrite <- (lt_mul a (cx u) (cx v) Ha). set (x := a * cx u). set (y := a * cx v). clearbody x y. clear Ha He. split; intros L; qcl. Qed.
Lemma x_eq : forall u v, cx (sh u) = cx (sh v) <-> cx u = cx v.
Proof. intros u v. cbn. rewrite <- (eq_mul a (cx u) (cx v) Ha). split; intros L; [|congruence]. set (x := a * cx u) in *. set (y := a * cx v) in *. clearbody x y. clear Ha He. qcl. Qed.
Lemma y_lt : forall u v, cx u = cx v -> (cy (sh u) < cy (sh v) <-> cy u < cy v).
Proof. intros u v E. cbn. rewrite E, <- (lt_mul e (cy u) (cy v) He). set (x := e * cy u). set (y := e * cy v). set (z := d * cx v). clearbody x y z. clear E Ha He. split; intros L; qcl. Qed.
Lemma sh_lt : forall u v, lex_lt (sh u) (sh v) <-> lex_lt u v.
Proof.
  intros u v. unfold lex_lt. rewrite x_lt, x_eq. split; (intros [L|[E L]]; [left; auto|right; split; auto]); apply (y_lt u v E); auto.
Qed.
Lemma sh_inj : forall u v, sh u = sh v -> u = v.
Proof.
  intros u v E. assert (X : cx u = cx v) by (apply x_eq; congruence). apply pt_ext; auto. assert (Y : cy (sh u) = cy (sh v)) by congruence. cbn in Y. rewrite X in Y. apply (eq_mul e _ _ He). set (p := d * cx v) in *. set (x := e * cy u) in *. set (y := e * cy v) in *. clearbody p x y. clear - Y. qcl.
Qed.
Lemma sh_cmp : forall u v, pcmp (sh u) (sh v) = pcmp u v.
Proof.
  intros u v. destruct (pcmp_spec (sh u) (sh v)) as [E|L|L], (pcmp_spec u v) as [E'|L'|L']; auto; exfalso;
    try (apply sh_inj in E; subst v); try (subst v); try rewrite sh_lt in *; eauto using lex_irrefl, lex_asym.
Qed.
Lemma sh_cross : forall u v w, cross (sh u) (sh v) (sh w) = a * e * cross u v w.
Proof. intros. unfold cross, sh. cbn [cx cy]. ring. Qed.
Lemma ae : 0 < a * e.
Proof. qc. Qed.
Lemma sh_cross_lt : forall u v w, 0 < cross (sh u) (sh v) (sh w) <-> 0 < cross u v w.
Proof. intros. rewrite sh_cross. rewrite <- (lt_mul _ 0 (cross u v w) ae). rewrite Qcmult_0_r. reflexivity. Qed.
Lemma sh_cross_eq : forall u v w, cross (sh u) (sh v) (sh w) = 0 <-> cross u v w = 0.
Proof. intros. rewrite sh_cross. rewrite <- (eq_mul _ (cross u v w) 0 ae). rewrite Qcmult_0_r. reflexivity. Qed.
Lemma sh_cross_gt : forall u v w, cross (sh u) (sh v) (sh w) < 0 <-> cross u v w < 0.
Proof. intros. rewrite sh_cross. rewrite <- (lt_mul _ (cross u v w) 0 ae). rewrite Qcmult_0_r. reflexivity. Qed.
Lemma sh_orient : forall u v w, orient2d (sh u) (sh v) (sh w) = orient2d u v w.
Proof.
  intros u v w. destruct (orient2d_spec (sh u) (sh v) (sh w)) as [C|C|C], (orient2d_spec u v w) as [D|D|D]; auto; exfalso;
    rewrite ?sh_cross_lt, ?sh_cross_gt, ?sh_cross_eq in C; qcl.
Qed.
Lemma sh_nudge : forall u v, qeqb (cx (sh u)) (cx (sh v)) && qltb (cy (sh u)) (cy (sh v)) = qeqb (cx u) (cx v) && qltb (cy u) (cy v).
Proof.
  intros u v. apply eq_true_iff_eq. rewrite !andb_true_iff, !qeqb_iff, !qltb_iff, x_eq. split; intros [E L]; split; auto; apply (y_lt u v E); auto.
Qed.
Lemma sh_peqb : forall u v, peqb (sh u) (sh v) = peqb u v.
Proof. intros. unfold peqb. rewrite sh_cmp. reflexivity. Qed.
Lemma sh_seg : forall p q r, on_seg p q r -> on_seg (sh p) (sh q) (sh r).
Proof. intros p q r (t & A & B & X & Y). exists t. split; auto. split; auto. cbn. rewrite X, Y. split; ring. Qed.
Lemma sh_seg_inv : forall p q r', on_seg (sh p) (sh q) r' -> exists r, on_seg p q r /\ r' = sh r.
Proof.
  intros p q r' (t & A & B & X & Y). exists (mkC (cx p + t * (cx q - cx p)) (cy p + t * (cy q - cy p))). split; [exists t; auto|].
  apply pt_ext; [rewrite X|rewrite Y]; cbn; ring.
Qed.
Notation ml := (moved_line sh).
Lemma common : forall l m, (exists r, on_line l r /\ on_line m r) <-> (exists r, on_line (ml l) r /\ on_line (ml m) r).
Proof.
  intros [p q] [s t]. unfold on_line. cbn [moved_line l_start l_end]. split.
  - intros (r & A & B). exists (sh r). auto using sh_seg.
  - intros (r' & A & B). destruct (sh_seg_inv _ _ _ A) as (r & A' & ->). destruct (sh_seg_inv _ _ _ B) as (r2 & B' & E). apply sh_inj in E. subst r2. eauto.
Qed.
Lemma sh_le : forall u v, lex_le (sh u) (sh v) <-> lex_le u v.
Proof. intros. unfold lex_le. rewrite sh_lt. split; (intros [L|L]; [auto|right]); [apply sh_inj; auto|congruence]. Qed.
Lemma sh_rect : forall l r, cross (l_start l) (l_end l) r = 0 -> rect_has (line_bounding_rect (ml l)) (sh r) = rect_has (line_bounding_rect l) r.
Proof.
  intros [p q] r C. cbn [l_start l_end] in C. apply eq_true_iff_eq. unfold moved_line. cbn [l_start l_end]. rewrite !rect_btw; [|auto|apply sh_cross_eq; auto]. unfold btw. rewrite !sh_le. reflexivity.
Qed.
Lemma sh_collinear : forall p q,
  cross (l_start p) (l_end p) (l_start q) = 0 -> cross (l_start p) (l_end p) (l_end q) = 0 ->
  cross (l_start q) (l_end q) (l_start p) = 0 -> cross (l_start q) (l_end q) (l_end p) = 0 ->
  collinear_intersection (ml p) (ml q) = option_map (moved_intersection sh) (collinear_intersection p q).
Proof.
  intros p q A B C D. unfold collinear_intersection.
  change (l_start (ml q)) with (sh (l_start q)). change (l_end (ml q)) with (sh (l_end q)). change (l_start (ml p)) with (sh (l_start p)). change (l_end (ml p)) with (sh (l_end p)).
  rewrite !sh_rect, !sh_peqb by auto. cbv zeta.
  destruct (rect_has (line_bounding_rect p) (l_start q)), (rect_has (line_bounding_rect p) (l_end q)), (rect_has (line_bounding_rect q) (l_start p)), (rect_has (line_bounding_rect q) (l_end p)); cbn [andb negb]; auto.
  all: repeat match goal with |- context [peqb ?x ?y] => destruct (peqb x y) end; reflexivity.
Qed.
Definition wden (p q : line) : Qc := (cy (l_start p) - cy (l_end p)) * (cx (l_end q) - cx (l_start q)) - (cy (l_start q) - cy (l_end q)) * (cx (l_end p) - cx (l_start p)).
Lemma wden_cross : forall p q, wden p q = cross (l_start p) (l_end p) (l_end q) - cross (l_start p) (l_end p) (l_start q).
Proof. intros. unfold wden, cross. ring. Qed.
Lemma sh_proper : forall p q, wden p q <> 0 -> proper_intersection (ml p) (ml q) = sh (proper_intersection p q).
Proof.
  intros p q W. assert (W' : wden (ml p) (ml q) = a * e * wden p q) by (unfold wden, moved_line, sh; cbn [l_start l_end cx cy]; ring).
  assert (A0 : a <> 0) by (intros ->; exact (Qclt_not_eq _ _ Ha eq_refl)). assert (E0 : e <> 0) by (intros ->; exact (Qclt_not_eq _ _ He eq_refl)).
  unfold proper_intersection. cbv zeta. fold (wden p q) (wden (ml p) (ml q)). rewrite W'. unfold sh. cbn [cx cy moved_line l_start l_end].
  f_equal; unfold wden in *; field; auto.
Qed.
Lemma sh_line_intersection : forall p q, line_intersection (ml p) (ml q) = option_map (moved_intersection sh) (line_intersection p q).
Proof.
  intros p q.
  assert (K : rect_intersects (line_bounding_rect (ml p)) (line_bounding_rect (ml q)) = true -> rect_intersects (line_bounding_rect p) (line_bounding_rect q) = true ->
    line_intersection (ml p) (ml q) = option_map (moved_intersection sh) (line_intersection p q)).
  { intros R1 R2. unfold line_intersection, line_intersection_with. rewrite R1, R2. cbn [negb]. cbv zeta.
    change (l_start (ml q)) with (sh (l_start q)). change (l_end (ml q)) with (sh (l_end q)). change (l_start (ml p)) with (sh (l_start p)). change (l_end (ml p)) with (sh (l_end p)).
    rewrite !sh_orient, !sh_peqb.
    destruct (orient2d_spec (l_start p) (l_end p) (l_start q)) as [A|A|A], (orient2d_spec (l_start p) (l_end p) (l_end q)) as [B|B|B]; cbn [same_side]; auto;
    destruct (orient2d_spec (l_start q) (l_end q) (l_start p)) as [C|C|C], (orient2d_spec (l_start q) (l_end q) (l_end p)) as [D|D|D]; cbn [same_side]; auto; cbn [is_collinear orient_eqb andb orb];
    try (apply sh_collinear; auto; fail); try (rewrite sh_proper; [reflexivity|]; rewrite wden_cross; intros Z; clear C D; qcl).
    all: repeat match goal with |- context [peqb ?x ?y] => destruct (peqb x y) end; reflexivity. }
  assert (N1 : forall l m, rect_intersects (line_bounding_rect l) (line_bounding_rect m) = false -> line_intersection l m = None) by (intros l m E; unfold line_intersection, line_intersection_with; rewrite E; reflexivity).
  assert (N2 : forall l m, rect_intersects (line_bounding_rect l) (line_bounding_rect m) = false -> ~ exists r, on_line l r /\ on_line m r).
  { intros l m E (r & A & B). rewrite (rects_intersect _ _ r) in E by (apply on_seg_in_rect; auto). discriminate. }
  assert (N3 : forall l m, (~ exists r, on_line l r /\ on_line m r) -> line_intersection l m = None).
  { intros l m N. pose proof (line_intersection_all l m) as L. destruct (line_intersection l m) as [[x b|s]|]; auto; exfalso; apply N; cbn in L.
    - exists x. apply L. reflexivity.
    - exists (l_start s). apply L. exists 0. split; [apply Qcle_refl|]. split; [discriminate|]. split; ring. }
  destruct (rect_intersects (line_bounding_rect (ml p)) (line_bounding_rect (ml q))) eqn:R1.
  - destruct (rect_intersects (line_bounding_rect p) (line_bounding_rect q)) eqn:R2; auto. rewrite (N1 _ _ R2). apply N3. rewrite <- common. apply N2. exact R2.
  - rewrite (N1 _ _ R1), N3; auto. rewrite common. apply N2. exact R1.
Qed.
End Affine.
