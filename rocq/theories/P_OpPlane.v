(** Crossing parity in the plane: along a segment that meets an edge at most in
    its own start, the relation to the edge changes exactly where the edge's
    ends pass below the segment. *)
Require Import List Bool Arith Lia.
From Verif Require Import Base Scalar M_Events M_Geo M_LineOrPoint S_Geo S_Op P_Geo P_LineOrPoint P_Tilt.
Import ListNotations.
Local Open Scope Qc_scope.

Definition isact (a z p : pt) : bool := pleb a p && pltb p z.
(** [p] is strictly above the edge; [p] is on the edge or above it. *)
Definition above (a z p : pt) : bool := isact a z p && qltb 0 (cross a z p).
Definition onabove (a z p : pt) : bool := isact a z p && qleb 0 (cross a z p).
(** As seen from [q]. *)
Definition seen (a z m q : pt) : bool := isact a z m && (qltb 0 (cross a z m) || (qeqb (cross a z m) 0 && qltb 0 (cross a z q))).
Lemma isact_iff : forall a z p, isact a z p = true <-> lex_le a p /\ lex_lt p z.
Proof. intros a z p. unfold isact. rewrite andb_true_iff, pleb_iff, pltb_iff. tauto. Qed.

Lemma affine_zero : forall A B l1 l2, l1 < l2 -> 0 < A + B * l1 -> A + B * l2 <= 0 -> exists l, l1 < l /\ l <= l2 /\ A + B * l = 0.
Proof.
  intros A B l1 l2 L P N. assert (Bn : B < 0). { destruct (Qclt_le_dec B 0) as [Q|Q]; auto. exfalso. qc. }
  exists (- A / B). assert (E : B * (- A / B) = - A) by (field; intros Q; rewrite Q in Bn; qcl).
  set (l := - A / B) in *. clearbody l. repeat split; [|  |rewrite E; ring].
  - destruct (Qclt_le_dec l1 l) as [Q|Q]; auto. exfalso. qc.
  - destruct (Qclt_le_dec l2 l) as [Q|Q]; [|auto]. exfalso. qc.
Qed.

Lemma pos_mul : forall u v, 0 < u -> (0 < u * v <-> 0 < v).
Proof. intros u v P. split; intros Q; [destruct (Qclt_le_dec 0 v) as [R|R]; auto; exfalso; qc|qc]. Qed.
Lemma neg_mul : forall u v, 0 < u -> (- (u * v) < 0 <-> 0 < v).
Proof. intros u v P. split; intros Q; [destruct (Qclt_le_dec 0 v) as [R|R]; auto; exfalso; qc|qc]. Qed.

Section Edge.
Variables (e : Qc) (a z m q : pt).
Hypothesis HT : tilts e (fun p => In p [a; z; m; q]).
Notation tl := (tilt e).
Hypothesis Laz : lex_lt a z.

(** The edge against the line through [x] and [y], at a level. *)
Definition gapl (x y : pt) (l : Qc) : Qc := hgt e x y l - hgt e a z l.
Lemma gapl_affine : forall x y l, gapl x y l = (gapl x y 0) + (slope e x y - slope e a z) * l.
Proof. intros. unfold gapl, hgt. ring. Qed.
Lemma Ta : tl a < tl z. Proof. apply HT; simpl; auto. Qed.

Section Path.
Variables x y : pt.
Hypothesis Ix : In x [a; z; m; q].
Hypothesis Iy : In y [a; z; m; q].
Hypothesis Lxy : lex_lt x y.
Let Tx : tl x < tl y. Proof. apply HT; auto. Qed.
Lemma meet_level : forall l, tl x <= l -> l <= tl y -> tl a <= l -> l <= tl z -> gapl x y l = 0 ->
  exists r, on_seg x y r /\ on_seg a z r /\ tl r = l.
Proof.
  intros l A B C D E. exists (at_level e x y l). split; [apply on_seg_at_level; auto|]. split.
  - assert (Q : at_level e x y l = at_level e a z l).
    { unfold at_level. assert (Q : hgt e x y l = hgt e a z l) by (unfold gapl in E; clear - E; qcl). rewrite Q. reflexivity. }
    rewrite Q. apply on_seg_at_level; auto. apply Ta.
  - apply tilt_at_level.
Qed.
(** Heights against signs. *)
Lemma sign_end : forall p, cross a z p = (tl z - tl a) * (cy p - hgt e a z (tl p)).
Proof. intros p. apply cross_hgt. apply Ta. Qed.
Lemma sign_x : cross a z x = (tl z - tl a) * gapl x y (tl x).
Proof. rewrite sign_end. unfold gapl. rewrite hgt_start. reflexivity. Qed.
Lemma sign_y : cross a z y = (tl z - tl a) * gapl x y (tl y).
Proof. rewrite sign_end. unfold gapl. rewrite hgt_end by exact Tx. reflexivity. Qed.
Lemma sign_a : cross x y a = - ((tl y - tl x) * gapl x y (tl a)).
Proof. rewrite (cross_hgt e x y a Tx). unfold gapl. rewrite (hgt_start e a z). ring. Qed.
Lemma sign_z : cross x y z = - ((tl y - tl x) * gapl x y (tl z)).
Proof. rewrite (cross_hgt e x y z Tx). unfold gapl. rewrite (hgt_end e a z Ta). ring. Qed.
(** The side does not change between two levels without zero in between. *)
Lemma keep : forall l1 l2, l1 < l2 -> (forall l, l1 <= l -> l <= l2 -> gapl x y l <> 0) -> (0 < gapl x y l1 <-> 0 < gapl x y l2).
Proof.
  clear Tx Ix Iy Lxy HT Laz.
  intros l1 l2 L NZ. assert (N1 : gapl x y l1 <> 0) by (apply NZ; qcl). assert (N2 : gapl x y l2 <> 0) by (apply NZ; qcl).
  split; intros P.
  - destruct (Qclt_le_dec 0 (gapl x y l2)) as [Q|Q]; auto. exfalso. rewrite gapl_affine in P, Q.
    destruct (affine_zero _ _ _ _ L P Q) as (l & A & B & E). rewrite <- gapl_affine in E. apply (NZ l); auto. qcl.
  - destruct (Qclt_le_dec 0 (gapl x y l1)) as [Q|Q]; auto. exfalso. rewrite gapl_affine in P, Q.
    destruct (affine_zero (gapl x y 0) (-(slope e x y - slope e a z)) (- l2) (- l1)) as (l & A & B & E); [qcl|clear - P; qcl|clear - Q; qcl|].
    apply (NZ (- l)); [qcl|qcl|]. rewrite gapl_affine. clear - E. qcl.
Qed.
Lemma keep_from : forall l1 l2 l3, l1 < l2 -> l1 < l3 -> gapl x y l1 = 0 -> (0 < gapl x y l2 <-> 0 < gapl x y l3).
Proof.
  clear Tx Ix Iy Lxy HT Laz.
  intros l1 l2 l3 L2 L3 Z. rewrite (gapl_affine x y l1) in Z. rewrite (gapl_affine x y l2), (gapl_affine x y l3). set (k := slope e x y - slope e a z) in *. set (g := gapl x y 0) in *. clearbody k g.
  assert (E : g = - (k * l1)) by (clear - Z; qcl). subst g. split; intros P.
  - assert (K : 0 < k). { destruct (Qclt_le_dec 0 k) as [Q|Q]; auto. exfalso. qc. } qc.
  - assert (K : 0 < k). { destruct (Qclt_le_dec 0 k) as [Q|Q]; auto. exfalso. qc. } qc.
Qed.
Lemma keep_to : forall l1 l2 l3, l2 < l1 -> l3 < l1 -> gapl x y l1 = 0 -> (0 < gapl x y l2 <-> 0 < gapl x y l3).
Proof.
  clear Tx Ix Iy Lxy HT Laz.
  intros l1 l2 l3 L2 L3 Z. rewrite (gapl_affine x y l1) in Z. rewrite (gapl_affine x y l2), (gapl_affine x y l3). set (k := slope e x y - slope e a z) in *. set (g := gapl x y 0) in *. clearbody k g.
  assert (E : g = - (k * l1)) by (clear - Z; qcl). subst g. split; intros P.
  - assert (K : 0 < - k). { destruct (Qclt_le_dec 0 (- k)) as [Q|Q]; auto. exfalso. qc. } qc.
  - assert (K : 0 < - k). { destruct (Qclt_le_dec 0 (- k)) as [Q|Q]; auto. exfalso. qc. } qc.
Qed.
End Path.

Lemma bool_iff : forall b (P : Prop), (b = true <-> P) -> forall b' (P' : Prop), (b' = true <-> P') -> (P <-> P') -> b = b'.
Proof. intros b P A b' P' B C. apply Bool.eq_iff_eq_true. tauto. Qed.
Notation D := gapl.
(** From [m] to the right. *)
Definition goR (v : pt) : bool := pltb m v && pleb v q && qltb (cross m q v) 0.
Lemma goR_iff : forall v, goR v = true <-> lex_lt m v /\ lex_le v q /\ cross m q v < 0.
Proof. intros v. unfold goR. rewrite !andb_true_iff, pltb_iff, pleb_iff, qltb_iff. tauto. Qed.
Lemma seen_iff : isact a z m = true -> (seen a z m q = true <-> 0 < cross a z m \/ (cross a z m = 0 /\ 0 < cross a z q)).
Proof. intros A. unfold seen. rewrite A. cbn [andb]. rewrite orb_true_iff, andb_true_iff, !qltb_iff, qeqb_iff. tauto. Qed.
Lemma above_iff : isact a z q = true -> (above a z q = true <-> 0 < cross a z q).
Proof. intros A. unfold above. rewrite A. cbn [andb]. apply qltb_iff. Qed.
Lemma seen_off : isact a z m = false -> seen a z m q = false. Proof. intros A. unfold seen. rewrite A. reflexivity. Qed.
Lemma above_off : isact a z q = false -> above a z q = false. Proof. intros A. unfold above. rewrite A. reflexivity. Qed.
Lemma isact_off : forall p, lex_lt p a \/ lex_le z p -> isact a z p = false.
Proof. intros p Q. destruct (isact a z p) eqn:E; auto. apply isact_iff in E as [A B]. exfalso. destruct Q; lord. Qed.

Hypothesis Vis : forall r, on_seg m q r -> r <> m -> on_seg a z r -> False.

Lemma jump_right : lex_lt m q -> xorb (seen a z m q) (above a z q) = xorb (goR a) (goR z).
Proof.
  intros Lmq. assert (Im : In m [a; z; m; q]) by (simpl; auto). assert (Iq : In q [a; z; m; q]) by (simpl; auto).
  assert (Ia : In a [a; z; m; q]) by (simpl; auto). assert (Iz : In z [a; z; m; q]) by (simpl; auto).
  assert (Na : q <> a) by (intros Q; apply (Vis q); [apply on_seg_end|apply not_eq_sym; apply lex_lt_neq; auto|rewrite Q; apply on_seg_start]).
  assert (Nz : q <> z) by (intros Q; apply (Vis q); [apply on_seg_end|apply not_eq_sym; apply lex_lt_neq; auto|rewrite Q; apply on_seg_end]).
  assert (Goff : forall v, lex_le v m \/ lex_lt q v -> goR v = false).
  { intros v Q. destruct (goR v) eqn:E; auto. apply goR_iff in E as (A & B & _). exfalso. destruct Q; lord. }
  destruct (lex_le_dec z m) as [Q1|Q1].
  { rewrite seen_off, above_off, !Goff; auto; [left; lord|apply isact_off; right; lord|apply isact_off; auto]. }
  destruct (lex_le_dec a q) as [Q2|Q2].
  2:{ rewrite seen_off, above_off, !Goff; auto; [right; lord|apply isact_off; left; auto|apply isact_off; left; lord]. }
  assert (Laq : lex_lt a q) by (apply lex_le_neq; auto). clear Q2.
  pose proof Ta as T1. assert (T2 : tl m < tl q) by (apply HT; auto).
  assert (NZ : forall l, tl m < l -> l <= tl q -> tl a <= l -> l <= tl z -> D m q l <> 0).
  { intros l A B C E Z. destruct (meet_level m q Im Iq Lmq l) as (r & O1 & O2 & Tr); auto; [qcl|]. apply (Vis r); auto. intros ->. rewrite Tr in A. qcl. }
  set (hi := if pltb z q then tl z else tl q).
  assert (Hhi : hi <= tl z /\ hi <= tl q /\ tl a < hi /\ tl m < hi).
  { unfold hi. destruct (pltb z q) eqn:E.
    - apply pltb_iff in E. apply (HT z q Iz Iq) in E. repeat split; [apply Qcle_refl|qcl|auto|apply HT; auto].
    - assert (E' : lex_le q z) by (destruct (lex_le_dec q z) as [R|R]; auto; apply pltb_iff in R; congruence).
      apply (tilts_le e _ _ _ HT Iq Iz) in E'. repeat split; [auto|apply Qcle_refl|apply HT; auto|auto]. }
  destruct Hhi as (Hz & Hq & Ha & Hm).
  (** the left end *)
  assert (LEFT : (lex_le a m -> (seen a z m q = true <-> 0 < D m q hi)) /\ (lex_lt m a -> (goR a = true <-> 0 < D m q hi))).
  { split; intros O.
    - assert (A : isact a z m = true) by (apply isact_iff; auto). rewrite (seen_iff A). rewrite (sign_x m q), (sign_y m q Im Iq Lmq).
      assert (P : 0 < tl z - tl a) by (clear - T1; qcl).
      assert (Ea : tl a <= tl m) by (apply (tilts_le e _ _ _ HT); auto).
      rewrite !pos_mul by auto. assert (Z0 : (tl z - tl a) * D m q (tl m) = 0 <-> D m q (tl m) = 0).
      { split; intros Z; [|rewrite Z; ring]. apply Qcmult_integral in Z as [Z|Z]; auto. exfalso. clear - Z P. rewrite Z in P. qcl. }
      rewrite Z0. destruct (Qc_eq_dec (D m q (tl m)) 0) as [Z|Z].
      + rewrite (keep_from m q (tl m) hi (tl q)) by auto. split; [|auto]. intros [Q|[_ Q]]; auto. rewrite Z in Q. exfalso. clear - Q. qcl.
      + assert (KK : 0 < D m q (tl m) <-> 0 < D m q hi).
        { apply keep; auto. intros l A1 A2. destruct (Qc_eq_dec l (tl m)) as [->|N]; auto. apply NZ; [|qcl|qcl|qcl].
          destruct (Qclt_le_dec (tl m) l) as [R|R]; auto. exfalso. apply N. apply Qcle_antisym; auto. }
        tauto.
    - rewrite goR_iff. rewrite (sign_a m q Im Iq Lmq). assert (P : 0 < tl q - tl m) by (clear - T2; qcl). rewrite neg_mul by auto.
      assert (Em : tl m < tl a) by (apply HT; auto).
      rewrite (keep m q (tl a) hi); auto.
      + split; [tauto|]. intros Q. split; auto. split; auto. apply lex_lt_le; auto.
      + intros l A1 A2. apply NZ; auto; [qcl|qcl|qcl]. }
  destruct LEFT as [LF1 LF2].
  destruct (lex_le_dec a m) as [O|O].
  - rewrite (Goff a) by auto. rewrite xorb_false_l. specialize (LF1 O). destruct (pltb z q) eqn:E; unfold hi in LF1.
    + apply pltb_iff in E. rewrite above_off by (apply isact_off; right; apply lex_lt_le; auto). rewrite xorb_false_r.
      eapply bool_iff; [exact LF1|apply goR_iff|]. rewrite (sign_z m q Im Iq Lmq). rewrite neg_mul by (clear - T2; qcl).
      split; [|tauto]. intros R. split; auto. split; auto. apply lex_lt_le; auto.
    + assert (E' : lex_lt q z) by (destruct (lex_total q z) as [[R|R]|R]; [auto|congruence|apply pltb_iff in R; congruence]).
      rewrite (Goff z) by auto. assert (A : isact a z q = true) by (apply isact_iff; split; auto; apply lex_lt_le; auto).
      assert (Q : seen a z m q = above a z q); [|rewrite Q; apply xorb_nilpotent].
      eapply bool_iff; [exact LF1|apply (above_iff A)|]. rewrite (sign_y m q Im Iq Lmq). rewrite pos_mul by (clear - T1; qcl). tauto.
  - rewrite seen_off by (apply isact_off; auto). rewrite xorb_false_l. specialize (LF2 O). destruct (pltb z q) eqn:E; unfold hi in LF2.
    + apply pltb_iff in E. rewrite above_off by (apply isact_off; right; apply lex_lt_le; auto).
      assert (Q : goR a = goR z); [|rewrite Q, xorb_nilpotent; reflexivity].
      eapply bool_iff; [exact LF2|apply goR_iff|]. rewrite (sign_z m q Im Iq Lmq). rewrite neg_mul by (clear - T2; qcl).
      split; [|tauto]. intros R. split; auto. split; auto. apply lex_lt_le; auto.
    + assert (E' : lex_lt q z) by (destruct (lex_total q z) as [[R|R]|R]; [auto|congruence|apply pltb_iff in R; congruence]).
      rewrite (Goff z) by auto. rewrite xorb_false_r. assert (A : isact a z q = true) by (apply isact_iff; split; auto; apply lex_lt_le; auto).
      symmetry. eapply bool_iff; [exact LF2|apply (above_iff A)|]. rewrite (sign_y m q Im Iq Lmq). rewrite pos_mul by (clear - T1; qcl). tauto.
Qed.

(** From [m] to the left. *)
Definition goL (v : pt) : bool := pltb q v && pleb v m && qltb (cross q m v) 0.
Lemma goL_iff : forall v, goL v = true <-> lex_lt q v /\ lex_le v m /\ cross q m v < 0.
Proof. intros v. unfold goL. rewrite !andb_true_iff, pltb_iff, pleb_iff, qltb_iff. tauto. Qed.
Hypothesis Nma : m <> a.
Hypothesis Nmz : m <> z.

Lemma jump_left : lex_lt q m -> xorb (seen a z m q) (above a z q) = xorb (goL a) (goL z).
Proof.
  intros Lqm. assert (Im : In m [a; z; m; q]) by (simpl; auto). assert (Iq : In q [a; z; m; q]) by (simpl; auto).
  assert (Ia : In a [a; z; m; q]) by (simpl; auto). assert (Iz : In z [a; z; m; q]) by (simpl; auto).
  assert (Na : q <> a) by (intros Q; apply (Vis q); [apply on_seg_end|apply lex_lt_neq; auto|rewrite Q; apply on_seg_start]).
  assert (Nz : q <> z) by (intros Q; apply (Vis q); [apply on_seg_end|apply lex_lt_neq; auto|rewrite Q; apply on_seg_end]).
  assert (Goff : forall v, lex_le v q \/ lex_lt m v -> goL v = false).
  { intros v Q. destruct (goL v) eqn:E; auto. apply goL_iff in E as (A & B & _). exfalso. destruct Q; lord. }
  destruct (lex_le_dec z q) as [Q1|Q1].
  { rewrite seen_off, above_off, !Goff; auto; [left; lord|apply isact_off; auto|apply isact_off; right; lord]. }
  destruct (lex_le_dec a m) as [Q2|Q2].
  2:{ rewrite seen_off, above_off, !Goff; auto; [right; lord|apply isact_off; left; lord|apply isact_off; left; auto]. }
  assert (Lam : lex_lt a m) by (apply lex_le_neq; auto). clear Q2.
  pose proof Ta as T1. assert (T2 : tl q < tl m) by (apply HT; auto).
  assert (NZ : forall l, tl q <= l -> l < tl m -> tl a <= l -> l <= tl z -> D q m l <> 0).
  { intros l A B C E Z. destruct (meet_level q m Iq Im Lqm l) as (r & O1 & O2 & Tr); auto; [qcl|]. apply (Vis r); auto; [apply on_seg_sym; auto|]. intros ->. rewrite Tr in B. qcl. }
  set (lo := if pltb q a then tl a else tl q).
  assert (Hlo : tl a <= lo /\ tl q <= lo /\ lo < tl z /\ lo < tl m).
  { unfold lo. destruct (pltb q a) eqn:E.
    - apply pltb_iff in E. apply (HT q a Iq Ia) in E. repeat split; [apply Qcle_refl|qcl|auto|apply HT; auto].
    - assert (E' : lex_le a q) by (destruct (lex_le_dec a q) as [R|R]; auto; apply pltb_iff in R; congruence).
      apply (tilts_le e _ _ _ HT Ia Iq) in E'. repeat split; [auto|apply Qcle_refl|apply HT; auto|auto]. }
  destruct Hlo as (Ha & Hq & Hz & Hm).
  assert (RIGHT : (lex_lt m z -> (seen a z m q = true <-> 0 < D q m lo)) /\ (lex_lt z m -> (goL z = true <-> 0 < D q m lo))).
  { split; intros O.
    - assert (A : isact a z m = true) by (apply isact_iff; split; auto; apply lex_lt_le; auto). rewrite (seen_iff A). rewrite (sign_y q m Iq Im Lqm), (sign_x q m).
      assert (P : 0 < tl z - tl a) by (clear - T1; qcl).
      assert (Ez : tl m < tl z) by (apply HT; auto).
      rewrite !pos_mul by auto. assert (Z0 : (tl z - tl a) * D q m (tl m) = 0 <-> D q m (tl m) = 0).
      { split; intros Z; [|rewrite Z; ring]. apply Qcmult_integral in Z as [Z|Z]; auto. exfalso. clear - Z P. rewrite Z in P. qcl. }
      rewrite Z0. destruct (Qc_eq_dec (D q m (tl m)) 0) as [Z|Z].
      + rewrite (keep_to q m (tl m) lo (tl q)) by auto. split; [|auto]. intros [Q|[_ Q]]; auto. rewrite Z in Q. exfalso. clear - Q. qcl.
      + assert (KK : 0 < D q m lo <-> 0 < D q m (tl m)).
        { apply keep; auto. intros l A1 A2. destruct (Qc_eq_dec l (tl m)) as [->|N]; auto. apply NZ; [qcl| |qcl|qcl].
          destruct (Qclt_le_dec l (tl m)) as [R|R]; auto. exfalso. apply N. apply Qcle_antisym; auto. }
        tauto.
    - rewrite goL_iff. rewrite (sign_z q m Iq Im Lqm). assert (P : 0 < tl m - tl q) by (clear - T2; qcl). rewrite neg_mul by auto.
      assert (Em : tl z < tl m) by (apply HT; auto).
      rewrite <- (keep q m lo (tl z)); auto.
      + split; [tauto|]. intros Q. split; auto. split; auto. apply lex_lt_le; auto.
      + intros l A1 A2. apply NZ; auto; [qcl|qcl|qcl]. }
  destruct RIGHT as [RF1 RF2].
  destruct (lex_total m z) as [[O|O]|O]; [|contradiction|].
  - rewrite (Goff z) by auto. rewrite xorb_false_r. specialize (RF1 O). destruct (pltb q a) eqn:E; unfold lo in RF1.
    + apply pltb_iff in E. rewrite above_off by (apply isact_off; auto). rewrite xorb_false_r.
      eapply bool_iff; [exact RF1|apply goL_iff|]. rewrite (sign_a q m Iq Im Lqm). rewrite neg_mul by (clear - T2; qcl).
      split; [|tauto]. intros R. split; auto. split; auto. apply lex_lt_le; auto.
    + assert (E' : lex_lt a q) by (destruct (lex_total a q) as [[R|R]|R]; [auto|congruence|apply pltb_iff in R; congruence]).
      rewrite (Goff a) by (left; apply lex_lt_le; auto). assert (A : isact a z q = true) by (apply isact_iff; split; auto; apply lex_lt_le; auto).
      assert (Q : seen a z m q = above a z q); [|rewrite Q; apply xorb_nilpotent].
      eapply bool_iff; [exact RF1|apply (above_iff A)|]. rewrite (sign_x q m). rewrite pos_mul by (clear - T1; qcl). tauto.
  - rewrite seen_off by (apply isact_off; right; apply lex_lt_le; auto). rewrite xorb_false_l. specialize (RF2 O). destruct (pltb q a) eqn:E; unfold lo in RF2.
    + apply pltb_iff in E. rewrite above_off by (apply isact_off; auto).
      assert (Q : goL a = goL z); [|rewrite Q, xorb_nilpotent; reflexivity].
      symmetry. eapply bool_iff; [exact RF2|apply goL_iff|]. rewrite (sign_a q m Iq Im Lqm). rewrite neg_mul by (clear - T2; qcl).
      split; [|tauto]. intros R. split; auto. split; auto. apply lex_lt_le; auto.
    + assert (E' : lex_lt a q) by (destruct (lex_total a q) as [[R|R]|R]; [auto|congruence|apply pltb_iff in R; congruence]).
      rewrite (Goff a) by (left; apply lex_lt_le; auto). rewrite xorb_false_l. assert (A : isact a z q = true) by (apply isact_iff; split; auto; apply lex_lt_le; auto).
      symmetry. eapply bool_iff; [exact RF2|apply (above_iff A)|]. rewrite (sign_x q m). rewrite pos_mul by (clear - T1; qcl). tauto.
Qed.
End Edge.
