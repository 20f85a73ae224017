(** Facts about boundaries: both sides of a plain place of an edge can be seen,
    pieces are determined by any of their inner points, and a region has only
    one boundary. *)
Require Import List Bool Arith Lia.
From Verif Require Import Base Scalar M_Events M_Geo M_LineOrPoint S_Geo P_Geo P_LineOrPoint P_Tilt P_Tile M_Rings S_Boundary.
Import ListNotations.
Local Open Scope Qc_scope.

Lemma pos_small : forall A B, 0 < A -> exists t0, 0 < t0 /\ forall t, 0 < t -> t <= t0 -> 0 < A + B * t.
Proof.
  intros A B P. destruct (Qclt_le_dec B 0) as [N|N].
  - exists (- A / (B + B)). assert (E : (B + B) * (- A / (B + B)) = - A) by (field; intros Q; clear - Q N; qcl).
    set (t0 := - A / (B + B)) in *. clearbody t0. split; [destruct (Qclt_le_dec 0 t0) as [Q|Q]; auto; exfalso; clear - E Q N P; qc|].
    intros t T1 T2. clear - E N P T1 T2. assert (B * t0 <= B * t) by qc. qcl.
  - exists 1. split; [reflexivity|]. intros t T1 _. clear - P N T1. qc.
Qed.
Lemma on_seg_dec : forall a b m, {on_seg a b m} + {~ on_seg a b m}.
Proof.
  assert (G : forall a b m, lex_lt a b -> {on_seg a b m} + {~ on_seg a b m}).
  { intros a b m L. destruct (lex_le_dec a m) as [L1|L1]; [destruct (lex_le_dec m b) as [L2|L2]; [destruct (Qc_eq_dec (cross a b m) 0) as [Z|Z]|]|].
    - left. apply on_seg_iff; auto.
    - right. intros O. apply Z. apply on_seg_cross; auto.
    - right. intros O. apply (on_seg_between _ _ _ L) in O. destruct O. lord.
    - right. intros O. apply (on_seg_between _ _ _ L) in O. destruct O. lord. }
  intros a b m. destruct (lex_total a b) as [[L|Q]|L]; [apply G; auto| |].
  - subst b. destruct (pt_dec m a) as [Q|Q]; [left|right]; rewrite on_seg_point; auto.
  - destruct (G b a m L) as [O|O]; [left|right; intros W; apply O]; apply on_seg_sym; auto.
Qed.
Definition shift (m d : pt) (t : Qc) : pt := mkC (cx m + t * cx d) (cy m + t * cy d).
Lemma cross_shift : forall a b m d t, cross a b (shift m d t) = cross a b m + ((cx b - cx a) * cy d - (cy b - cy a) * cx d) * t.
Proof. intros. unfold cross, shift. cbn [cx cy]. ring. Qed.
Lemma tilt_shift : forall e m d t, tilt e (shift m d t) = tilt e m + tilt e d * t.
Proof. intros. unfold tilt, shift. cbn [cx cy]. ring. Qed.
Lemma on_seg_tilt : forall e a b r, tilt e a < tilt e b -> on_seg a b r -> tilt e a <= tilt e r /\ tilt e r <= tilt e b.
Proof. intros e a b r L O. apply (on_seg_hgt e a b r L) in O. tauto. Qed.
(** From a point off the segment one can go a little way in any direction. *)
Lemma off_way : forall a b m d, a <> b -> ~ on_seg a b m ->
  exists t0, 0 < t0 /\ forall t, 0 < t -> t <= t0 -> ~ on_seg a b (shift m d t).
Proof.
  intros a b m d N O. set (k := (cx b - cx a) * cy d - (cy b - cy a) * cx d).
  destruct (Qclt_le_dec 0 (cross a b m)) as [P|P]; [|destruct (Qclt_le_dec (cross a b m) 0) as [P'|P']].
  - destruct (pos_small _ k P) as (t0 & T & S). exists t0. split; [auto|]. intros t A B Z. apply on_seg_cross in Z. rewrite cross_shift in Z. fold k in Z.
    specialize (S t A B). clear - S Z. qcl.
  - assert (Q : 0 < - cross a b m) by (clear - P'; qcl). destruct (pos_small _ (- k) Q) as (t0 & T & S). exists t0. split; [auto|].
    intros t A B Z. apply on_seg_cross in Z. rewrite cross_shift in Z. fold k in Z. specialize (S t A B). clear - S Z. qcl.
  - assert (Z : cross a b m = 0) by (apply Qcle_antisym; auto).
    assert (G : forall a b, lex_lt a b -> cross a b m = 0 -> ~ on_seg a b m -> exists t0, 0 < t0 /\ forall t, 0 < t -> t <= t0 -> ~ on_seg a b (shift m d t)).
    { clear. intros a b L Z O. destruct (tilt_list [a; b; m]) as (e & Pe & T). specialize (T e Pe (Qcle_refl e)).
      assert (Tab : tilt e a < tilt e b) by (apply T; simpl; auto).
      destruct (lex_le_dec a m) as [L1|L1]; [destruct (lex_le_dec m b) as [L2|L2]|].
      - exfalso. apply O. apply on_seg_iff; auto.
      - assert (Tm : tilt e b < tilt e m) by (apply T; simpl; auto). assert (Q : 0 < tilt e m - tilt e b) by (clear - Tm; qcl).
        destruct (pos_small _ (tilt e d) Q) as (t0 & P & S). exists t0. split; [auto|]. intros t A B W. apply (on_seg_tilt e) in W; auto.
        rewrite tilt_shift in W. specialize (S t A B). destruct W as [_ W]. clear - S W. qcl.
      - assert (Tm : tilt e m < tilt e a) by (apply T; simpl; auto). assert (Q : 0 < tilt e a - tilt e m) by (clear - Tm; qcl).
        destruct (pos_small _ (- tilt e d) Q) as (t0 & P & S). exists t0. split; [auto|]. intros t A B W. apply (on_seg_tilt e) in W; auto.
        rewrite tilt_shift in W. specialize (S t A B). destruct W as [W _]. clear - S W. qcl. }
    destruct (lex_total a b) as [[L|E]|L]; [apply (G a b); auto|contradiction|].
    destruct (G b a L) as (t0 & Pt & S).
    + unfold cross in *. clear - Z. qc.
    + intros W. apply O. apply on_seg_sym. auto.
    + exists t0. split; [auto|]. intros t A B W. apply (S t A B). apply on_seg_sym. auto.
Qed.
Lemma shift_seg : forall m d t r, 0 < t -> on_seg m (shift m d t) r -> r <> m -> exists t', 0 < t' /\ t' <= t /\ r = shift m d t'.
Proof.
  intros m d t r T (s & S0 & S1 & Ex & Ey) N. exists (s * t). cbn [shift cx cy] in *.
  assert (Q : r = shift m d (s * t)) by (apply pt_eq; unfold shift; cbn [cx cy]; [rewrite Ex|rewrite Ey]; ring).
  split; [|split; [clear - S1 T; qc|exact Q]]. destruct (Qcle_lt_or_eq _ _ S0) as [P|P]; [clear - P T; qc|].
  exfalso. apply N. rewrite Q, <- P. apply pt_eq; unfold shift; cbn [cx cy]; ring.
Qed.

Section Boundaries.
Variable E : list (pt * pt).
Hypothesis Proper : forall a b, In (a, b) E -> a <> b.

Lemma clear_way : forall m d, (forall a b, In (a, b) E -> on_seg a b m -> cross a b (shift m d 1) <> 0) ->
  exists t, 0 < t /\ visible E m (shift m d t).
Proof.
  intros m d C.
  assert (G : exists t0, 0 < t0 /\ forall t, 0 < t -> t <= t0 -> forall a b, In (a, b) E -> ~ on_seg a b (shift m d t)).
  { revert C Proper. induction E as [|[a b] l IH]; intros C Pr; [exists 1; split; [reflexivity|]; intros t _ _ a b []|].
    destruct IH as (t1 & P1 & S1); [intros; apply C; [right|]; auto|intros; apply Pr; right; auto|].
    assert (Q : exists t0, 0 < t0 /\ forall t, 0 < t -> t <= t0 -> ~ on_seg a b (shift m d t)).
    { destruct (on_seg_dec a b m) as [O|O].
      - exists 1. split; [reflexivity|]. intros t T _ W. apply (C a b); [left; auto|auto|]. pose proof (on_seg_cross _ _ _ O) as Z.
        apply on_seg_cross in W. rewrite cross_shift, Z in *. set (k := (cx b - cx a) * cy d - (cy b - cy a) * cx d) in *. clearbody k.
        assert (K : k * t = 0) by (clear - W; qcl). apply Qc_mul_0 in K as [K|K]; [rewrite K; ring|exfalso; rewrite K in T; clear - T; qcl].
      - apply off_way; auto. apply Pr. left; auto. }
    destruct Q as (t2 & P2 & S2). destruct (Qc_min2 t1 t2 P1 P2) as (t0 & P0 & M1 & M2). exists t0. split; [auto|].
    intros t T1 T2 a' b' [Q|I]; [injection Q as <- <-; apply S2; auto; eapply Qcle_trans; eauto|apply S1; auto; eapply Qcle_trans; eauto]. }
  destruct G as (t & P & S). exists t. split; [auto|]. intros r O N a b I W. destruct (shift_seg m d t r P O N) as (t' & A & B & ->). apply (S t' A B a b I W).
Qed.

(** Points of a segment are collinear. *)
Lemma seg_collinear : forall a b x y z, on_seg a b x -> on_seg a b y -> on_seg a b z -> cross x y z = 0.
Proof.
  intros a b x y z (s & _ & _ & Ax & Ay) (t & _ & _ & Bx & By) (u & _ & _ & Dx & Dy). unfold cross. rewrite Ax, Ay, Bx, By, Dx, Dy. ring.
Qed.
Lemma line_trans : forall m r x y z, m <> r -> cross m r x = 0 -> cross m r y = 0 -> cross m r z = 0 -> cross x y z = 0.
Proof.
  intros m r x y z N A B C. assert (G1 : (cx r - cx m) * cross x y z = 0).
  { transitivity ((cx y - cx x) * cross m r z - (cx z - cx x) * cross m r y + (cx z - cx y) * cross m r x); [unfold cross; ring|rewrite A, B, C; ring]. }
  assert (G2 : (cy r - cy m) * cross x y z = 0).
  { transitivity ((cy y - cy x) * cross m r z - (cy z - cy x) * cross m r y + (cy z - cy y) * cross m r x); [unfold cross; ring|rewrite A, B, C; ring]. }
  apply Qc_mul_0 in G1 as [G1|G1]; auto. apply Qc_mul_0 in G2 as [G2|G2]; auto. exfalso. apply N. apply pt_eq; [clear - G1|clear - G2]; qcl.
Qed.
Lemma inside_lt : forall x y m, lex_lt x y -> strictly_inside x y m -> lex_lt x m /\ lex_lt m y.
Proof.
  intros x y m L (O & N1 & N2). destruct (on_seg_between _ _ _ L O) as [A B]. split; apply lex_le_neq; auto.
Qed.
Lemma lt_inside : forall x y m, lex_lt x m -> lex_lt m y -> cross x y m = 0 -> strictly_inside x y m.
Proof.
  intros x y m A B C. split; [apply on_seg_iff; [eapply lex_trans; eauto|split; [auto|split; apply lex_lt_le; auto]]|]. split; intros Q; subst; eapply lex_irrefl; eauto.
Qed.
Lemma piece_inner : forall x y, piece E x y -> exists m, strictly_inside x y m.
Proof.
  intros x y (L & _). set (m := mkC ((cx x + cx y) / (1 + 1)) ((cy x + cy y) / (1 + 1))). exists m.
  assert (H1 : cx m + cx m = cx x + cx y) by (unfold m; cbn [cx cy]; field; discriminate).
  assert (H2 : cy m + cy m = cy x + cy y) by (unfold m; cbn [cx cy]; field; discriminate). clearbody m.
  apply lt_inside; unfold lex_lt, cross in *.
  - destruct L as [L|[L L']]; [left; clear - L H1; qcl|right; split; [apply Qcle_antisym; clear - L H1; qcl|clear - L' H2; qcl]].
  - destruct L as [L|[L L']]; [left; clear - L H1; qcl|right; split; [apply Qcle_antisym; clear - L H1; qcl|clear - L' H2; qcl]].
  - assert (X : cx m = cx x + cx y - cx m) by (clear - H1; qcl). assert (Y : cy m = cy x + cy y - cy m) by (clear - H2; qcl). clear - H1 H2. qc.
Qed.
Lemma inner_on : forall x y a b m, on_seg a b x -> on_seg a b y -> on_seg x y m -> on_seg a b m.
Proof. intros x y a b m Ox Oy O. exact (on_seg_convex a b x y m Ox Oy O). Qed.
Theorem piece_unique : forall x y x' y' m, piece E x y -> piece E x' y' -> strictly_inside x y m -> strictly_inside x' y' m -> x = x' /\ y = y'.
Proof.
  intros x y x' y' m (L & (a & b & I & Ox & Oy) & Px & Py & Pl) (L' & (a' & b' & I' & Ox' & Oy') & Px' & Py' & Pl') S S'.
  destruct (Pl m S) as [_ P2]. assert (Om : on_seg a b m) by (apply (inner_on x y); auto; apply S). assert (Om' : on_seg a' b' m) by (apply (inner_on x' y'); auto; apply S').
  destruct (P2 a b a' b' I I' Om Om') as (r & Nr & Or & Or'). assert (Nr' : m <> r) by congruence.
  assert (Cx : cross m r x = 0) by (apply (seg_collinear a b); auto). assert (Cy : cross m r y = 0) by (apply (seg_collinear a b); auto).
  assert (Cx' : cross m r x' = 0) by (apply (seg_collinear a' b'); auto). assert (Cy' : cross m r y' = 0) by (apply (seg_collinear a' b'); auto).
  destruct (inside_lt _ _ _ L S) as [A B]. destruct (inside_lt _ _ _ L' S') as [A' B']. split.
  - destruct (lex_total x x') as [[Q|Q]|Q]; [|auto|]; exfalso.
    + apply Px', Pl. apply lt_inside; [auto|eapply lex_trans; eauto|apply (line_trans m r); auto].
    + apply Px, Pl'. apply lt_inside; [auto|eapply lex_trans; eauto|apply (line_trans m r); auto].
  - destruct (lex_total y y') as [[Q|Q]|Q]; [|auto|]; exfalso.
    + apply Py, Pl'. apply lt_inside; [eapply lex_trans; eauto|auto|apply (line_trans m r); auto].
    + apply Py', Pl. apply lt_inside; [eapply lex_trans; eauto|auto|apply (line_trans m r); auto].
Qed.
(** Both sides of a piece can be seen from each of its inner points. *)
Lemma sides : forall x y m, piece E x y -> strictly_inside x y m ->
  exists d t t', 0 < t /\ 0 < t' /\ visible E m (shift m d t) /\ visible E m (shift m (mkC (- cx d) (- cy d)) t') /\
    0 < cross x y (shift m d t) /\ cross x y (shift m (mkC (- cx d) (- cy d)) t') < 0 /\
    forall a b, In (a, b) E -> on_seg a b m -> cross a b (shift m d 1) <> 0.
Proof.
  intros x y m (L & (a & b & I & Ox & Oy) & Px & Py & Pl) S. set (d := mkC (cy x - cy y) (cx y - cx x)).
  assert (Om : on_seg a b m) by (apply (inner_on x y); auto; apply S). destruct (Pl m S) as [_ P2].
  assert (N2 : 0 < (cx y - cx x) * (cx y - cx x) + (cy y - cy x) * (cy y - cy x)).
  { unfold lex_lt in L. destruct L as [L|[L1 L2]]; [assert (0 < cx y - cx x) by (clear - L; qcl)|assert (0 < cy y - cy x) by (clear - L2; qcl)].
    - set (u := cx y - cx x) in *. set (v := cy y - cy x) in *. clearbody u v. clear - H. qc.
    - set (u := cx y - cx x) in *. set (v := cy y - cy x) in *. clearbody u v. clear - H. qc. }
  pose proof (on_seg_cross _ _ _ (proj1 S)) as Zm.
  assert (D : forall a' b', In (a', b') E -> on_seg a' b' m -> cross a' b' (shift m d 1) <> 0).
  { intros a' b' I' O' Z. destruct (P2 a b a' b' I I' Om O') as (r & Nr & Or & Or').
    assert (Q1 : cross m r x = 0) by (apply (seg_collinear a b); auto). assert (Q2 : cross m r y = 0) by (apply (seg_collinear a b); auto).
    assert (Q3 : cross a' b' m = 0) by (apply on_seg_cross; auto). assert (Q4 : cross a' b' r = 0) by (apply on_seg_cross; auto).
    assert (Q5 : cross m r (shift m d 1) = 0) by (apply (line_trans a' b'); auto).
    assert (Q6 : cross x y (shift m d 1) = 0) by (apply (line_trans m r); auto).
    rewrite cross_shift, Zm in Q6. unfold d in Q6. cbn [cx cy] in Q6. clear - Q6 N2. qcl. }
  destruct (clear_way m d D) as (t & T & Vt).
  destruct (clear_way m (mkC (- cx d) (- cy d))) as (t' & T' & Vt').
  { intros a' b' I' O' Z. apply (D a' b' I' O'). rewrite cross_shift in *. cbn [cx cy] in Z. pose proof (on_seg_cross _ _ _ O') as Z0. rewrite Z0 in *. clear - Z. qcl. }
  exists d, t, t'. repeat split; auto.
  - rewrite cross_shift, Zm. unfold d. cbn [cx cy]. clear - N2 T. qc.
  - rewrite cross_shift, Zm. unfold d. cbn [cx cy]. clear - N2 T'. qc.
Qed.
End Boundaries.

Theorem boundary_unique : forall E E' inr out out', (forall a b, In (a, b) E -> a <> b) -> (forall e, In e E <-> In e E') ->
  boundary E inr out -> boundary E' inr out' -> incl out out'.
Proof.
  intros E E' inr out out' Pr EE B B' [g w] I. destruct (bd_piece _ _ _ B g w I) as (x & y & -> & P).
  assert (Pl' : forall m, plain E m <-> plain E' m).
  { intros m. unfold plain. split; intros [A1 A2]; split; intros; [apply A1|apply (A2 a b a' b')|apply A1|apply (A2 a b a' b')]; auto; apply EE; auto. }
  assert (V' : forall m q, visible E m q -> visible E' m q) by (intros m q V r O N a b Iab; apply (V r O N); apply EE; auto).
  assert (PP : forall x y, piece E x y <-> piece E' x y).
  { intros x0 y0. unfold piece. rewrite <- !Pl'. split; intros (A & (a & b & Ie & O) & A2 & A3 & A4); (split; [auto|]); (split; [exists a, b; split; [apply EE; auto|auto]|]);
    (split; [auto|]); (split; [auto|]); intros m S; apply Pl'; auto. }
  destruct (piece_inner E x y P) as (m & S). destruct (sides E Pr x y m P S) as (d & t & t' & T & T' & Vq & Vq' & U & D & G).
  pose proof (bd_left _ _ _ B x y w m _ I S Vq U) as BL. pose proof (bd_right _ _ _ B x y w m _ I S Vq' D) as BR.
  set (q := shift m d t) in *. set (q' := shift m (mkC (- cx d) (- cy d)) t') in *.
  assert (Df : inr q <> inr q') by (destruct w, (inr q), (inr q'); intuition discriminate).
  pose proof P as (L & (a & b & Ie & Ox & Oy) & Px & Py & Pl).
  assert (Om : on_seg a b m) by (apply (inner_on x y); auto; apply S). pose proof (on_seg_cross _ _ _ Om) as Zm.
  pose proof (G a b Ie Om) as Ng. rewrite cross_shift, Zm in Ng. set (k := (cx b - cx a) * cy d - (cy b - cy a) * cx d) in *.
  assert (Kq : cross a b q = k * t) by (unfold q; rewrite cross_shift, Zm; unfold k; ring).
  assert (Kq' : cross a b q' = - (k * t')) by (unfold q'; rewrite cross_shift, Zm; unfold k; cbn [cx cy]; ring).
  assert (R : exists x y w, In (Line x y, w) out' /\ strictly_inside x y m).
  { assert (Ie' : In (a, b) E') by (apply EE; auto). assert (Plm : plain E' m) by (apply Pl'; auto). destruct (Qclt_le_dec 0 k) as [K|K].
    - apply (bd_all _ _ _ B' a b m q q'); auto; [rewrite Kq; clear - K T; qc|rewrite Kq'; clear - K T'; qc].
    - assert (K' : k < 0) by (destruct (Qcle_lt_or_eq _ _ K) as [Q|Q]; auto; exfalso; apply Ng; rewrite Q; ring).
      apply (bd_all _ _ _ B' a b m q' q); auto; [rewrite Kq'; clear - K' T'; qc|rewrite Kq; clear - K' T; qc]. }
  destruct R as (x' & y' & w' & I' & S'). destruct (bd_piece _ _ _ B' _ _ I') as (x2 & y2 & Q & P'). injection Q as <- <-.
  destruct (piece_unique E x y x' y' m P (proj2 (PP x' y') P') S S') as [<- <-].
  pose proof (bd_left _ _ _ B' x y w' m _ I' S' (V' _ _ Vq) U) as BL'. assert (w' = w) by (destruct w, w', (inr q); intuition discriminate). subst w'. exact I'.
Qed.
Theorem boundary_empty : forall E inr out, (forall a b, In (a, b) E -> a <> b) -> boundary E inr out -> (forall q, inr q = false) -> out = [].
Proof.
  intros E inr out Pr B Z. destruct out as [|[g w] out]; [reflexivity|]. exfalso.
  assert (I : In (g, w) ((g, w) :: out)) by (left; auto). destruct (bd_piece _ _ _ B g w I) as (x & y & -> & P).
  destruct (piece_inner E x y P) as (m & S). destruct (sides E Pr x y m P S) as (d & t & t' & T & T' & Vq & Vq' & U & D & G).
  pose proof (bd_left _ _ _ B x y w m _ I S Vq U) as BL. pose proof (bd_right _ _ _ B x y w m _ I S Vq' D) as BR. rewrite Z in BL, BR. destruct w; intuition discriminate.
Qed.
(** Pieces of a boundary meet at their ends only. *)
Theorem boundary_ends : forall E inr out g w g' w' x y x' y' r, boundary E inr out -> In (g, w) out -> In (g', w') out -> g <> g' ->
  g = Line x y -> g' = Line x' y' -> on_seg x y r -> on_seg x' y' r -> (r = x \/ r = y) /\ (r = x' \/ r = y').
Proof.
  assert (G : forall E inr out g w g' w' x y x' y' r, boundary E inr out -> In (g, w) out -> In (g', w') out -> g <> g' ->
    g = Line x y -> g' = Line x' y' -> on_seg x y r -> on_seg x' y' r -> r = x \/ r = y).
  { intros E inr out g w g' w' x y x' y' r B I I' N -> -> O O'. destruct (pt_dec r x) as [Q|Q]; [auto|]. destruct (pt_dec r y) as [R|R]; [auto|]. exfalso.
    destruct (bd_piece _ _ _ B _ _ I) as (x1 & y1 & Z & P). injection Z as <- <-. destruct (bd_piece _ _ _ B _ _ I') as (x2 & y2 & Z & P'). injection Z as <- <-.
    assert (S : strictly_inside x y r) by (split; auto). assert (Pr : plain E r) by (apply P; auto).
    assert (S' : strictly_inside x' y' r) by (split; [auto|]; destruct P' as (_ & _ & A & B' & _); split; intros ->; contradiction).
    destruct (piece_unique E x y x' y' r P P' S S') as [<- <-]. apply N; reflexivity. }
  intros. split; [apply (G E inr out g w g' w' x y x' y' r)|apply (G E inr out g' w' g w x' y' x y r)]; auto.
Qed.
