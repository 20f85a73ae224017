(** The boolean sweep from point to point: what it emits at a place [m]. *)
Require Import List String Bool Arith Lia Permutation Sorted.
From Verif Require Import Base Scalar M_Events M_Geo M_LineOrPoint M_Splay M_Slab M_Active M_Sweep M_Crossings M_Rings M_Op.
From Verif Require Import S_Geo P_Geo P_LineOrPoint P_Tilt P_Slab P_Active P_Chain P_Bundle P_Tile P_Heap P_Order P_Inv P_Store P_Handle P_LL P_Step P_Run.
From Verif Require Import S_Op P_OpLab P_OpPoint P_OpStep.
Import Datatypes.
Import ListNotations.
Local Open Scope nat_scope.

Section Run.
Variables (ln : nat -> line) (tie : nat -> nat) (presort : list crossing -> list crossing) (n : nat) (e : Qc) (V V' : list pt).
Hypothesis HT' : tilts e (fun p => In p V').
Hypothesis HVV : incl V V'.
Hypothesis HV1 : forall c a z, c < n -> geo ln c = Line a z -> In a V /\ In z V.
Hypothesis HV2 : forall c c' a z a' z' r, c < n -> c' < n -> geo ln c = Line a z -> geo ln c' = Line a' z' ->
  on_seg a z r -> on_seg a' z' r -> (forall r', on_seg a z r' -> on_seg a' z' r' -> r' = r) -> In r V.
Hypothesis HV3 : forall v, In v V ->
  (exists c, c < n /\ geo ln c = Point v) \/ (exists c a z, c < n /\ geo ln c = Line a z /\ (v = a \/ v = z)) \/
  (exists c c' a z a' z', c < n /\ c' < n /\ geo ln c = Line a z /\ geo ln c' = Line a' z' /\ on_seg a z v /\ on_seg a' z' v /\
     (forall r', on_seg a z r' -> on_seg a' z' r' -> r' = v)).
Context {ar : arith} {fa : faithful ar ln n}.
Hypothesis HL : forall c, c < n -> exists a z, geo ln c = Line a z.
Hypothesis Pre : (forall l, presort l = l) \/ ((forall l, Permutation (presort l) l) /\ no_overlap ln n).
Variables (ty : op_type) (fs : nat -> bool).
Hypothesis HB : forall b (g : pt -> bool), par fs n b (fun c => xorb (g (ea ln c)) (g (ez ln c))) = false.
Variable m : pt.
Hypothesis Vm : In m V'.
Hypothesis Nm : ~ In m V.
Notation tl := (tilt e).
Notation H := (P_Order.H e).
Notation K := (P_Order.K e).
Notation Sl := (P_Order.S e).
Notation ea := (ea ln).
Notation ez := (ez ln).
Notation eb := (eb ln).
Notation thr := (thr ln).
Notation actb := (actb ln).
Notation upto := (upto ln e).
Notation dst := (dst ln n e V).
Notation rst := (rst ln n e V).
Notation final := (final ln n V).
Notation lab := (lab ty fs n).
Notation cell := (cell ty).
Notation wfe := (wfe n (geo ln) fs).
Notation kx := (kx e).

Let HT : tilts e (fun p => In p V).
Proof. intros a b A B. apply HT'; auto. Qed.

(** The labels above and below [m], from the edges below it. *)
Definition Fm (c : nat) : bool := actb m c && qleb (H (eb c) (tl m)) (cy m).
Definition Fo (c : nat) : bool := actb m c && qltb (H (eb c) (tl m)) (cy m).
Definition Pm : bool := is_ty (lab Fm) ty.
Definition Nm_ : bool := is_ty (lab Fo) ty.
Definition wind : winding := if negb Nm_ then Ccw else Cw.

Lemma thr_act : forall c, c < n -> thr m c -> lex_lt (ea c) m /\ lex_lt m (ez c).
Proof.
  intros c L T. pose proof (thr_between ln n HL m c L T) as [A B]. pose proof (eV ln n V HV1 HL c L) as [Va Vz].
  split; apply lex_le_neq; auto; intros Q; apply Nm; [rewrite <- Q|rewrite Q]; auto.
Qed.
Lemma thr_actb : forall c, c < n -> thr m c -> actb m c = true.
Proof. intros c L T. destruct (thr_act c L T). apply actb_iff. split; [apply lex_lt_le|]; auto. Qed.
Lemma actb_H : forall c, c < n -> actb m c = true -> (thr m c <-> H (eb c) (tl m) = cy m).
Proof. intros c L A. apply actb_iff in A as [A B]. apply (thr_iff ln n e V V' HT' HVV HV1 HL); auto. apply lex_lt_le; auto. Qed.
Lemma thr_same : forall c c', c < n -> c' < n -> thr m c -> thr m c' -> same_line e (eb c) (eb c').
Proof.
  intros c c' L L' T T'. destruct (meet_V ln n e V V' HT' HVV HV1 HV2 HL c c' m L L' T T') as [Q|Q]; [auto|contradiction].
Qed.
Lemma lab_Fm : forall c, c < n -> thr m c -> lab (upto m c) = lab Fm.
Proof.
  intros c L T. apply lab_ext. intros c' L'. unfold P_OpLab.upto, Fm. destruct (actb m c') eqn:A; [|reflexivity]. cbn [andb].
  pose proof (proj1 (actb_H c L (thr_actb c L T)) T) as E. unfold lek.
  destruct (K_spec e (tl m) (eb c') (eb c)) as [Q|Q|Q1 Q2|Q1 Q2|Q1 Q2]; rewrite E in *; symmetry.
  - apply qleb_iff. apply Qclt_le_weak. exact Q.
  - destruct (qleb_spec (H (eb c') (tl m)) (cy m)) as [Z|Z]; auto. exfalso. clear - Z Q. qcl.
  - apply qleb_iff. rewrite Q1. apply Qcle_refl.
  - exfalso. assert (T' : thr m c') by (apply actb_H; auto). destruct (thr_same c c' L L' T T') as [Z _]. rewrite Z in Q2. clear - Q2. qcl.
  - apply qleb_iff. rewrite Q1. apply Qcle_refl.
Qed.
Lemma lab_Fo : forall g, (forall c, c < n -> (inb g c = true <-> thr m c)) -> lab (fun c => xorb (Fm c) (inb g c)) = lab Fo.
Proof.
  intros g G. apply lab_ext. intros c L. unfold Fm, Fo. specialize (G c L). destruct (actb m c) eqn:A; cbn [andb].
  - pose proof (actb_H c L A) as Q. destruct (inb g c).
    + rewrite (proj1 Q (proj1 G eq_refl)). destruct (qltb_spec (cy m) (cy m)) as [Z|Z]; [exfalso; clear - Z; qcl|]. rewrite (proj2 (qleb_iff _ _) (Qcle_refl _)). reflexivity.
    + rewrite xorb_false_r. destruct (qltb_spec (H (eb c) (tl m)) (cy m)) as [Z|Z].
      * apply qleb_iff. apply Qclt_le_weak; auto.
      * destruct (qleb_spec (H (eb c) (tl m)) (cy m)) as [Z'|Z']; auto. assert (E : H (eb c) (tl m) = cy m) by (apply Qcle_antisym; [exact Z'|apply Qcnot_lt_le; exact Z]).
        apply Q in E. apply G in E. discriminate.
  - rewrite xorb_false_l. destruct (inb g c) eqn:Z; auto. pose proof (thr_actb c L (proj1 G eq_refl)) as Z'. congruence.
Qed.

(** ** What is known between two points *)
Record lst (p0 : pt) (es : list edge) : Prop := {
  ls_wf : wfe es;
  ls_geo : forall c, c < n -> actb p0 c = true -> cell es c = lab (upto p0 c);
  ls_m : lex_lt m p0 -> forall c, c < n -> thr m c -> (forall v, In v V -> thr v c -> lex_lt m v -> lex_lt p0 v) -> cell es c = lab (upto m c)
}.
(** Strictly inside a piece. *)
Definition within (g : lop) : Prop := exists x y, g = Line x y /\ on_seg x y m /\ lex_lt x m /\ lex_lt m y.

Lemma dec_thr : forall p c, c < n -> In p V' -> actb p c = true -> {thr p c} + {~ thr p c}.
Proof.
  intros p c L Vp A. apply actb_iff in A as [A B]. destruct (Qc_eq_dec (H (eb c) (tl p)) (cy p)) as [Q|Q]; [left|right].
  - apply (thr_iff ln n e V V' HT' HVV HV1 HL); auto. apply lex_lt_le; auto.
  - intros T. apply Q. apply (thr_iff ln n e V V' HT' HVV HV1 HL) in T; auto. apply lex_lt_le; auto.
Qed.

Section Point.
Variables (p0 p1 : pt) (mu : nat) (sw : sweep) (act pend : list bundle) (pts ppend : list pin) (past : list crossing) (es : list edge).
Hypothesis V0 : In p0 V'.
Hypothesis V1 : In p1 V.
Hypothesis L01 : lex_lt p0 p1.
Hypothesis Nm0 : p0 <> m.
Hypothesis NoV : forall v, In v V -> lex_lt p0 v -> lex_lt v p1 -> False.
Hypothesis D : dst p1 mu sw act pend pts ppend past.
Hypothesis NP : nopass e p1 act.
Hypothesis Ls : lst p0 es.
Let W := ls_wf _ _ Ls.

Lemma V_le : forall v, In v V -> lex_lt v p1 -> lex_le v p0.
Proof. intros v Iv Lv. destruct (lex_le_dec v p0) as [Q|Q]; auto. exfalso. apply (NoV v); auto. Qed.
Lemma old_label : forall c, c < n -> actb p1 c = true -> ~ thr p1 c -> cell es c = lab (upto p1 c).
Proof.
  intros c L A NT. pose proof (eV ln n V HV1 HL c L) as [Va Vz]. pose proof A as A'. apply actb_iff in A' as [A1 A2].
  assert (A0 : actb p0 c = true).
  { apply actb_iff. split; [|lord]. apply V_le; auto. apply lex_le_neq; auto. intros Q. apply NT. rewrite <- Q. apply on_seg_start. }
  rewrite (ls_geo _ _ Ls c L A0). apply (advance ln n e V V' HT' HVV HV1 HV2 HL ty fs HB); auto.
Qed.
(** Just before [p1] an edge through [m] without event in between has the label of [m]. *)
Lemma pre_label : lex_lt m p1 -> forall c, c < n -> thr m c -> (forall v, In v V -> thr v c -> lex_lt m v -> lex_le p1 v) -> cell es c = lab (upto m c).
Proof.
  intros Lm c L T NV. destruct (thr_act c L T) as [A B]. pose proof (eV ln n V HV1 HL c L) as [Va Vz]. destruct (lex_le_dec m p0) as [Q|Q].
  - apply (ls_m _ _ Ls); auto; [apply lex_le_neq; auto|]. intros v Iv Tv Lv. specialize (NV v Iv Tv Lv). lord.
  - assert (A0 : actb p0 c = true) by (apply actb_iff; split; [apply V_le; auto; lord|lord]).
    rewrite (ls_geo _ _ Ls c L A0). apply (advance ln n e V V' HT' HVV HV1 HV2 HL ty fs HB); auto.
    + intros v Iv L1 L2. apply (NoV v Iv L1). lord.
    + apply thr_actb; auto.
Qed.

Lemma end_x : forall x, In x (sw_out sw) -> cr_left x = false -> exists px, cr_cross x < n /\ cr_line x = Line px p1 /\ lex_lt px p1 /\ In px V /\
  thr px (cr_cross x) /\ thr p1 (cr_cross x) /\ (forall v, In v V -> on_seg px p1 v -> lex_lt px v -> lex_lt v p1 -> False).
Proof.
  intros x Ix Lx. destruct (out_shape ln n e V HL p1 mu sw act pend pts ppend past D x Ix) as (L & p & y & E & Lt & Vp & Vy & T1 & T2 & P).
  rewrite Lx in P. subst y. exists p. repeat (split; [assumption|]). intros v Iv O L1 L2.
  pose proof (ba_core _ _ _ _ _ _ _ _ _ _ _ _ (dt_base _ _ _ _ _ _ _ _ _ _ _ _ D)) as Co.
  apply (co_fine _ _ _ _ _ _ _ _ _ _ _ Co (cr_cross x) p p1 v); auto. rewrite ended_app. apply in_or_app; right.
  apply in_flat_map. exists x. split; auto. rewrite Nat.eqb_refl, Lx, E. left; reflexivity.
Qed.
Lemma end_cell : forall x, In x (sw_out sw) -> cr_left x = false -> cell es (cr_cross x) = lab (upto p0 (cr_cross x)).
Proof.
  intros x Ix Lx. destruct (end_x x Ix Lx) as (px & L & E & Lt & Vp & T1 & T2 & _).
  pose proof (thr_between ln n HL _ _ L T1) as [A _]. pose proof (thr_between ln n HL _ _ L T2) as [_ B].
  apply (ls_geo _ _ Ls); auto. apply actb_iff. split; [|lord]. pose proof (V_le px Vp Lt). lord.
Qed.
(** Entries that end together are the edges through any place of the piece. *)
Lemma end_group : forall x l, In x (sw_out sw) -> cr_left x = false -> within (cr_line x) ->
  (forall y, In y l <-> In y (sw_out sw) /\ cr_left y = false) ->
  forall c, c < n -> (inb (grp kx l x) c = true <-> thr m c).
Proof.
  intros x l Ix Lx (px & p1' & E & Om & L1 & L2) Hl c L. destruct (end_x x Ix Lx) as (px' & Lc & E' & Lt & Vp & T1 & T2 & Fine).
  rewrite E in E'. injection E' as <- ->.
  assert (Tx : thr m (cr_cross x)).
  { exact (on_seg_convex _ _ _ _ _ T1 T2 Om). }
  rewrite inb_spec. unfold grp. rewrite in_map_iff. split.
  - intros (y & <- & Iy). apply filter_In in Iy as [Iy Sy]. apply same_iff in Sy. apply Hl in Iy as [Iy Ly].
    pose proof (ends_line ln n e V V' HT' HVV HL p1 mu sw act pend pts ppend past D y x Iy Ix Ly Lx Sy) as Ey. rewrite E in Ey.
    destruct (end_x y Iy Ly) as (py & Lcy & Ey' & Lty & Vpy & Ty1 & Ty2 & _). rewrite Ey in Ey'. injection Ey' as <-.
    exact (on_seg_convex _ _ _ _ _ Ty1 Ty2 Om).
  - intros T. pose proof (thr_same c (cr_cross x) L Lc T Tx) as Sm. destruct (thr_act c L T) as [A B].
    pose proof (eV ln n V HV1 HL c L) as [Va Vz].
    assert (Bx : lex_le p1 (ez c)).
    { destruct (lex_le_dec p1 (ez c)) as [Q|Q]; auto. exfalso. apply (Fine (ez c) Vz); auto; [|lord].
      pose proof (thr_between ln n HL _ _ Lc T2) as [_ Q2]. pose proof (thr_between ln n HL _ _ Lc T1) as [Q1 _].
      apply (onb_of e V HT (mkB px p1 [] : bundle) (ez c)); [split; [exact Lt|auto]|auto|cbn [b_p]; lord|cbn [b_q]; lord|].
      assert (S2 : same_line e (mkB px p1 [] : bundle) (eb (cr_cross x))).
      { apply same_line_sym. apply (sub_same e V HT); auto; [apply (ebg ln n V HV1 HL); auto|split; [exact Lt|auto]]. }
      rewrite (proj2 S2), <- (proj2 Sm). apply (onb_H e V HT); [apply (ebg ln n V HV1 HL); auto|apply on_seg_end]. }
    assert (Tp : thr p1 c).
    { apply (onb_of e V HT (eb c) p1); [apply (ebg ln n V HV1 HL); auto|auto|cbn [eb b_p]; apply lex_lt_le; lord|exact Bx|]. rewrite (proj2 Sm). apply (onb_H e V HT); [apply (ebg ln n V HV1 HL); auto|exact T2]. }
    destruct (proj2 (ends_iff ln tie n e V V' HT' HVV HV1 HL p1 mu sw act pend pts ppend past V1 D NP c L)) as (y & Iy & Ly & Ey).
    { split; [lord|]. auto. }
    exists y. split; auto. apply filter_In. split; [apply Hl; auto|]. apply same_iff.
    rewrite !(kx_edge ln n e V V' HT' HVV HV1 HL p1 mu sw act pend pts ppend past D) by auto. rewrite Ey. apply (proj1 Sm).
Qed.

Record emits (out : list crossing) (em : list (lop * winding)) : Prop := {
  em_sound : forall g w, In (g, w) em -> exists x, In x out /\ cr_left x = false /\ cr_line x = g /\ (within g -> xorb Pm Nm_ = true /\ w = wind);
  em_complete : forall x, In x out -> cr_left x = false -> within (cr_line x) -> xorb Pm Nm_ = true -> In (cr_line x, wind) em;
  em_NoDup : NoDup (map fst em)
}.
Lemma start_x : forall x, In x (sw_out sw) -> cr_left x = true -> okx n (geo ln) x.
Proof.
  intros x Ix Lx. destruct (out_shape ln n e V HL p1 mu sw act pend pts ppend past D x Ix) as (L & p & y & E & Lt & Vp & Vy & T1 & T2 & P).
  split; auto. rewrite E. cbn [lop_first]. pose proof (thr_between ln n HL _ _ L T2) as [_ Q]. change (lex_lt p (ez (cr_cross x))). lord.
Qed.
Lemma end_ok : forall x, In x (sw_out sw) -> cr_left x = false -> okx n (geo ln) x.
Proof.
  intros x Ix Lx. destruct (end_x x Ix Lx) as (px & L & E & Lt & Vp & T1 & T2 & _). split; auto. rewrite E. cbn [lop_first].
  pose proof (thr_between ln n HL _ _ L T2) as [_ Q]. change (lex_lt px (ez (cr_cross x))). lord.
Qed.
Lemma emit_at : forall x E, In x (sw_out sw) -> cr_left x = false -> within (cr_line x) -> (forall y, In y E <-> In y (sw_out sw) /\ cr_left y = false) ->
  NoDup (map (@cr_cross nat) E) ->
  emit1 kx ty fs es E x = if xorb Pm Nm_ then [(cr_line x, wind)] else [].
Proof.
  intros x E Ix Lx Wx HE ND. pose proof Wx as (px & p1' & El & Om & L1 & L2). destruct (end_x x Ix Lx) as (px' & Lc & E' & Lt & Vp & T1 & T2 & Fine).
  rewrite El in E'. injection E' as <- ->. assert (Tm : thr m (cr_cross x)) by exact (on_seg_convex _ _ _ _ _ T1 T2 Om).
  assert (Ec : cell es (cr_cross x) = lab Fm).
  { rewrite <- (lab_Fm (cr_cross x)) by auto. apply pre_label; auto. intros v Iv Tv Lv. destruct (lex_le_dec p1 v) as [Q|Q]; auto. exfalso. apply (Fine v Iv); [|lord|auto].
    apply (on_seg_mid (ea (cr_cross x)) (ez (cr_cross x))); auto; [apply lex_lt_le; lord|apply lex_lt_le; auto]. }
  unfold emit1. rewrite Ec. rewrite crossall_lab.
  - rewrite (lab_Fo (grp kx E x)); [reflexivity|]. apply end_group; auto.
  - unfold grp. clear - ND. induction E as [|y E IH]; [constructor|]. cbn [map] in ND. inversion ND as [|? ? Na ND']; subst. cbn [filter]. destruct (same kx x y); auto.
    cbn [map]. constructor; auto. intros I. apply Na. apply in_map_iff in I as (z & <- & I). apply filter_In in I as [I _]. apply in_map; auto.
  - intros c I. apply in_map_iff in I as (y & <- & I). apply filter_In in I as [I _]. apply HE in I as [I Ly]. destruct (end_x y I Ly) as (? & Q & _). exact Q.
Qed.

Lemma point_ok : forall s, exists it2 es' em, op_point presort ghost ty sw es s = Ok (it2, es', s ++ em) /\
  (exists t l, it2 = set_active t (set_out l sw) /\ holds t (map b_key act)) /\ lst p1 es' /\ emits (sw_out sw) em.
Proof.
  intros s.
  assert (PP : Permutation (presort (sw_out sw)) (sw_out sw)) by (destruct Pre as [Q|[Q _]]; [rewrite Q; reflexivity|apply Q]).
  assert (HC : forall x y, In x (sw_out sw) -> In y (sw_out sw) -> compare_crossings x y = Ok (ccmp kx x y)).
  { exact (cmp_ok ln n e V V' HT' HVV HL p1 mu sw act pend pts ppend past D). }
  destruct (sort_ok kx (presort (sw_out sw))) as (l' & El & Pl & Sl' & St).
  { intros x y Ix Iy. apply HC; eapply Permutation_in; eauto. }
  destruct (sorted_split kx l' Sl') as (E & S & Es & LE & LS & SE & SS).
  assert (Perm : Permutation (sw_out sw) l') by (rewrite <- Pl; symmetry; exact PP).
  assert (Io : forall x, In x l' -> In x (sw_out sw)) by (intros x I; eapply Permutation_in; [symmetry; exact Perm|exact I]).
  assert (HE : forall y, In y E <-> In y (sw_out sw) /\ cr_left y = false).
  { intros y. split; intros Q.
    - split; [apply Io; rewrite Es; apply in_or_app; auto|auto].
    - destruct Q as [Q1 Q2]. apply (Permutation_in _ Perm) in Q1. rewrite Es in Q1. apply in_app_iff in Q1 as [Q1|Q1]; auto. rewrite (LS y Q1) in Q2. discriminate. }
  assert (HS : forall y, In y S <-> In y (sw_out sw) /\ cr_left y = true).
  { intros y. split; intros Q.
    - split; [apply Io; rewrite Es; apply in_or_app; auto|auto].
    - destruct Q as [Q1 Q2]. apply (Permutation_in _ Perm) in Q1. rewrite Es in Q1. apply in_app_iff in Q1 as [Q1|Q1]; auto. rewrite (LE y Q1) in Q2. discriminate. }
  assert (ND : NoDup (map (@cr_cross nat) E)).
  { pose proof (ends_NoDup ln n e V HL p1 mu sw act pend pts ppend past D) as Q. eapply Permutation_NoDup; [|exact Q]. apply Permutation_map.
    eapply perm_trans; [apply perm_filter; exact Perm|]. rewrite Es, filter_app, (filter_none2 _ S), app_nil_r, filter_all; [reflexivity| |].
    - intros x Ix. rewrite (LE x Ix). reflexivity.
    - intros x Ix. rewrite (LS x Ix). reflexivity. }
  assert (NDS : NoDup (map (@cr_cross nat) S)).
  { pose proof (starts_NoDup ln n e V HL p1 mu sw act pend pts ppend past D) as Q. eapply Permutation_NoDup; [|exact Q]. apply Permutation_map.
    eapply perm_trans; [apply perm_filter; exact Perm|]. rewrite Es, filter_app, (filter_none2 _ E), filter_all by auto. reflexivity. }
  set (em := flat_map (emit1 kx ty fs es E) (lasts kx E)).
  assert (PE : process_ends ghost ty es l' None s = Ok (s ++ em, S)).
  { rewrite Es. apply (process_ends_ok kx ty n (geo ln) fs es E S W SE LE LS) with (pre := []).
    - intros x y Ix Iy. rewrite <- Es in Ix, Iy. auto.
    - intros x Ix. apply HE in Ix as [Ix Lx]. apply end_ok; auto.
    - intros x y Ix Iy Q. apply HE in Ix as [Ix Lx]. apply HE in Iy as [Iy Ly]. rewrite !end_cell by auto.
      rewrite !(kx_edge ln n e V V' HT' HVV HV1 HL p1 mu sw act pend pts ppend past D) in Q by auto.
      destruct (end_x x Ix Lx) as (px & Lc & E1 & Lt & Vp & T1 & T2 & _). destruct (end_x y Iy Ly) as (py & Lcy & E2 & Lty & Vpy & T1y & T2y & _).
      assert (Sm : same_line e (eb (cr_cross x)) (eb (cr_cross y))).
      { apply (K_eq_same e (tl p1)). apply K_eq_iff. split; auto.
        rewrite (onb_H e V HT (eb (cr_cross x)) p1 (ebg ln n V HV1 HL _ Lc) T2), (onb_H e V HT (eb (cr_cross y)) p1 (ebg ln n V HV1 HL _ Lcy) T2y). reflexivity. }
      apply lab_ext. intros c L. unfold P_OpLab.upto, lek. rewrite (K_same e _ _ _ _ _ (same_line_refl e (eb c)) Sm). reflexivity.
    - reflexivity.
    - reflexivity. }
  assert (EM : emits (sw_out sw) em).
  { constructor.
    - intros g w I. unfold em in I. apply in_flat_map in I as (x & Ix & I). apply lasts_in in Ix. apply HE in Ix as [Ix Lx]. exists x. split; auto. split; auto.
      assert (Eg : cr_line x = g) by (unfold emit1 in I; destruct (xorb _ _); [destruct I as [I|[]]; congruence|destruct I]).
      split; auto. intros Wg. rewrite <- Eg in Wg. rewrite (emit_at x E) in I by auto. destruct (xorb Pm Nm_); [|destruct I]. destruct I as [I|[]].
      split; congruence.
    - intros x Ix Lx Wx Xm. destruct (lasts_all kx E x) as (y & Iy & Ky); [apply HE; auto|]. pose proof Iy as Iy'. apply lasts_in in Iy'. apply HE in Iy' as [Iyo Ly].
      pose proof (ends_line ln n e V V' HT' HVV HL p1 mu sw act pend pts ppend past D y x Iyo Ix Ly Lx Ky) as Ey.
      unfold em. apply in_flat_map. exists y. split; auto. rewrite (emit_at y E), Xm, Ey; auto; [left; reflexivity|rewrite Ey; auto].
    - unfold em. pose proof (lasts_NoDup kx E) as Q. assert (Q' : forall x y, In x (lasts kx E) -> In y (lasts kx E) -> cr_line x = cr_line y -> kx x = kx y).
      { intros x y _ _ Exy. unfold P_OpStep.kx. rewrite Exy. reflexivity. }
      clearbody em || idtac. clear - Q Q'. induction (lasts kx E) as [|x l IH]; [constructor|]. cbn [map] in Q. inversion Q as [|? ? Na ND']; subst. cbn [flat_map]. rewrite map_app.
      assert (IH' : NoDup (map fst (flat_map (emit1 kx ty fs es E) l))) by (apply IH; auto; intros; apply Q'; auto; right; auto).
      unfold emit1 at 1. destruct (xorb _ _); [|exact IH']. cbn [map fst app]. constructor; auto. intros I. apply in_map_iff in I as ([g w] & Eg & I). cbn [fst] in Eg.
      apply in_flat_map in I as (y & Iy & I). assert (Ey : cr_line y = g) by (unfold emit1 in I; destruct (xorb _ _); [destruct I as [I|[]]; congruence|destruct I]).
      apply Na. rewrite (Q' x y); [apply in_map; auto|left; auto|right; auto|congruence]. }
  assert (LsN : forall es', wfe es' -> (forall c, c < n -> ~ (actb p1 c = true /\ thr p1 c) -> cell es' c = cell es c) ->
    (forall c, c < n -> actb p1 c = true -> thr p1 c -> cell es' c = lab (upto p1 c)) -> lst p1 es').
  { intros es' W' Same New. constructor; auto.
    - intros c L A. destruct (dec_thr p1 c L (HVV _ V1) A) as [T|T]; auto.
      rewrite Same; [apply old_label; auto|auto|tauto].
    - intros Lm c L T NV. assert (NT : ~ thr p1 c) by (intros Q; specialize (NV p1 V1 Q Lm); lord).
      rewrite Same; [|auto|tauto]. apply pre_label; auto. intros v Iv Tv Lv. apply lex_lt_le. auto. }
  unfold op_point, ci_intersections, sort_crossings. rewrite El. cbn [bind]. rewrite PE. cbn [bind].
  destruct S as [|bot S0].
  - exists (set_out l' sw), es, em. split; [reflexivity|]. split; [|split; [|exact EM]].
    + exists (sw_active sw), l'. split; [destruct sw; reflexivity|]. apply (ba_act _ _ _ _ _ _ _ _ _ _ _ _ (dt_base _ _ _ _ _ _ _ _ _ _ _ _ D)).
    + apply LsN; auto. intros c L A T. exfalso.
      destruct (proj2 (starts_iff ln tie n e V V' HT' HVV HV1 HL p1 mu sw act pend pts ppend past V1 D NP c L) (conj A T)) as (x & Ix & Lx & _).
      destruct (proj2 (HS x) (conj Ix Lx)).
  - rewrite (LS bot (or_introl eq_refl)). cbn [check bind].
    assert (Stab : (forall z, filter (ceq kx z) l' = filter (ceq kx z) (sw_out sw)) \/ no_overlap ln n).
    { destruct Pre as [Q|[_ Q]]; [left|right; auto]. intros z. rewrite St, Q. reflexivity. }
    destruct (prev_ok ln tie n e V V' HT' HVV HV1 HL p1 mu sw act pend pts ppend past V1 D NP l' E bot S0 Perm Es LE LS SS Stab ty fs es W old_label)
      as (sw2 & prev & E1 & (t & E2 & Ht) & E3).
    rewrite E1. cbn [bind]. rewrite E3. cbn [bind].
    destruct (process_starts_ok kx ty n (geo ln) fs (bot :: S0) (lab (under ln e p1)) SS LS) with (l := bot :: S0) (g := @nil crossing) (pre := @nil crossing) (es := es) (r := lab (under ln e p1))
      as (es' & F & W' & C1 & C2).
    + intros x y Ix Iy. apply HC; apply HS; auto.
    + intros x Ix. apply HS in Ix as [Ix Lx]. apply start_x; auto.
    + exact NDS.
    + reflexivity.
    + exact W.
    + reflexivity.
    + intros Q; contradiction.
    + cbn [app]. intros x y [<-|[]] [<-|[]]. reflexivity.
    + intros x y [].
    + cbn [app] in C1, C2. rewrite F. cbn [bind]. exists sw2, es', em. split; [reflexivity|]. split; [exists t, l'; auto|]. split; [|exact EM].
      apply LsN; auto.
      * intros c L NA. apply C1. destruct (inb (map (@cr_cross nat) (bot :: S0)) c) eqn:Q; auto. exfalso. apply NA. apply inb_spec in Q. apply in_map_iff in Q as (x & Ex & Ix).
        apply HS in Ix as [Ix Lx]. apply (starts_iff ln tie n e V V' HT' HVV HV1 HL p1 mu sw act pend pts ppend past V1 D NP c L). eauto.
      * intros c L A T. destruct (proj2 (starts_iff ln tie n e V V' HT' HVV HV1 HL p1 mu sw act pend pts ppend past V1 D NP c L) (conj A T)) as (x & Ix & Lx & Ex).
        assert (Ixs : In x (bot :: S0)) by (apply HS; auto). rewrite <- Ex. rewrite (C2 x Ixs).
        apply (start_label ln tie n e V V' HT' HVV HV1 HL p1 mu sw act pend pts ppend past V1 D NP l' E bot S0 Perm Es LE LS ty fs x Ixs).
Qed.
End Point.

(** ** The loop *)
Lemma emits_app : forall l l' s s', emits l s -> emits l' s' ->
  (forall x y, In x l -> In y l' -> cr_left x = false -> cr_left y = false -> crpt x <> crpt y) -> emits (l ++ l') (s ++ s').
Proof.
  intros l l' s s' [A1 A2 A3] [B1 B2 B3] Dj. constructor.
  - intros g w I. apply in_app_iff in I as [I|I]; [destruct (A1 g w I) as (x & Ix & Q)|destruct (B1 g w I) as (x & Ix & Q)]; exists x; (split; [apply in_or_app; auto|exact Q]).
  - intros x Ix Lx Wx Xm. apply in_or_app. apply in_app_iff in Ix as [Ix|Ix]; auto.
  - rewrite map_app. clear A2 B2. induction s as [|[g w] s IH]; [exact B3|]. cbn [map fst app] in *. inversion A3 as [|? ? Na ND]; subst. constructor.
    + intros I. apply in_app_iff in I as [I|I]; [contradiction|]. apply in_map_iff in I as ([g' w'] & Eg & I). cbn [fst] in Eg. subst g'.
      destruct (A1 g w (or_introl eq_refl)) as (x & Ix & Lx & Ex & _). destruct (B1 g w' I) as (y & Iy & Ly & Ey & _). apply (Dj x y Ix Iy Lx Ly).
      unfold crpt. rewrite Lx, Ly, Ex, Ey. reflexivity.
    + apply IH; auto. intros g' w' I. apply A1. right; auto.
Qed.

Definition rdyo (mu : nat) (sw : sweep) (past : list crossing) (p0 : pt) : Prop :=
  (exists p1 act pend pts ppend, peek_point sw = Some p1 /\ In p1 V /\ lex_lt p0 p1 /\ (forall v, In v V -> lex_lt p0 v -> lex_lt v p1 -> False) /\
     rst p1 mu (set_out [] sw) act pend pts ppend past) \/
  (sw_events sw = [] /\ final past).

Lemma next_dst : forall mu sw past fuel p1 act pend pts ppend, peek_point sw = Some p1 -> In p1 V ->
  rst p1 mu (set_out [] sw) act pend pts ppend past -> mu < fuel ->
  exists sw2 mu2 act2 pend2 ppend2, ci_next ln tie fuel sw = Ok (sw2, Some p1) /\ Datatypes.S mu2 <= mu /\
    dst p1 mu2 sw2 act2 pend2 pts ppend2 past /\ nopass e p1 act2.
Proof.
  intros mu sw past fuel p1 act pend pts ppend Ep V1 R Lf. destruct (peek_in _ _ Ep) as [Ex _].
  assert (S0 : stt ln n e V p1 mu (set_out [] sw) act pend pts ppend past) by (split; [left; exact R|intros Q; destruct Q; reflexivity]).
  assert (Ep0 : peek_point (set_out [] sw) = Some p1) by exact Ep.
  destruct fuel as [|fuel]; [lia|]. unfold ci_next. rewrite Ep0. cbn [ci_loop]. rewrite Ep0. cbn [opt_peqb].
  destruct (peqb_spec p1 p1) as [_|N]; [|contradiction]. cbn [andb].
  destruct (step ln tie n e V HT HV1 HV2 p1 V1 _ _ _ _ _ _ _ S0 Ex) as (sw1 & mu1 & act1 & pend1 & ppend1 & E1 & Lm1 & S1).
  rewrite E1. cbn [bind].
  destruct (loop ln tie n e V HT HV1 HV2 p1 V1 mu1 fuel _ _ _ _ _ _ S1 ltac:(lia)) as (sw2 & mu2 & act2 & pend2 & ppend2 & E2 & Lm2 & S2 & HB2).
  rewrite E2. cbn [bind].
  pose proof (stt_done ln tie n e V _ _ _ _ _ _ _ _ S2 HB2) as D. pose proof (out_ne ln tie n e V HT HV3 _ _ _ _ _ _ _ _ D V1) as Ne.
  exists sw2, mu2, act2, pend2, ppend2. split; [destruct (sw_out sw2); [contradiction|reflexivity]|]. split; [lia|]. split; [exact D|]. apply (proj2 S2 Ne).
Qed.
Lemma rst_active : forall p mu sw act pend pts ppend past t l, rst p mu (set_out [] sw) act pend pts ppend past -> holds t (map b_key act) ->
  rst p mu (set_out [] (set_active t (set_out l sw))) act pend pts ppend past.
Proof.
  intros p mu sw act pend pts ppend past t l [R1 R2 R3 R4 R5] Ht. constructor; auto. destruct R1 as [B1 B2 B3 B4 B5 B6 B7 B8 B9]. constructor; auto.
Qed.

Lemma loop_ok : forall mu sw past p0 es s N fuel, rdyo mu sw past p0 -> lst p0 es -> emits past s -> In p0 V' -> p0 <> m -> mu < fuel -> mu < N ->
  exists log s', op_loop tie presort ghost N fuel ln ty sw es s = Ok s' /\ final log /\ emits log s'.
Proof.
  induction mu as [mu IH] using lt_wf_ind. intros sw past p0 es s N fuel R Ls Em V0 N0 Lf LN. destruct N as [|N]; [lia|]. cbn [op_loop].
  destruct R as [(p1 & act & pend & pts & ppend & Ep & V1 & L01 & NoV & R)|[E F]].
  - destruct (next_dst mu sw past fuel p1 act pend pts ppend Ep V1 R Lf) as (sw2 & mu2 & act2 & pend2 & ppend2 & E1 & Lm & D & NP).
    rewrite E1. cbn [bind].
    destruct (point_ok p0 p1 mu2 sw2 act2 pend2 pts ppend2 past es V0 V1 L01 N0 NoV D NP Ls s) as (it2 & es' & em & E2 & (t & l & Et & Ht) & Ls' & Em').
    rewrite E2. cbn [bind].
    apply (IH mu2 ltac:(lia) it2 (past ++ sw_out sw2) p1); auto; try lia.
    + destruct (peek_point sw2) as [p2|] eqn:Ep2.
      * left. destruct (to_next ln tie n e V HT HV3 p1 p2 _ _ _ _ _ _ _ D NP V1 Ep2) as (V2 & L12 & R2 & NV2).
        exists p2, act2, pend2, pts, ppend2. split; [rewrite Et; exact Ep2|]. split; auto. split; auto. split; auto. rewrite Et. apply rst_active; auto.
      * right. apply peek_none in Ep2. split; [rewrite Et; exact Ep2|]. eapply base_final; [exact tie|apply D|apply D|exact Ep2].
    + apply emits_app; auto. intros x y Ix Iy _ _ Q. pose proof (dt_base _ _ _ _ _ _ _ _ _ _ _ _ D) as Ba.
      pose proof (ba_past _ _ _ _ _ _ _ _ _ _ _ _ Ba x Ix) as Q1. rewrite Q, (ba_out _ _ _ _ _ _ _ _ _ _ _ _ Ba y Iy) in Q1. lord.
    + intros ->. contradiction.
  - assert (En : ci_next ln tie fuel sw = Ok (set_out [] sw, None)).
    { unfold ci_next. assert (Ep : peek_point (set_out [] sw) = None) by (unfold peek_point; cbn [set_out sw_events]; rewrite E; reflexivity).
      rewrite Ep. destruct fuel as [|fuel]; [lia|]. cbn [ci_loop]. rewrite Ep. reflexivity. }
    rewrite En. cbn [bind]. exists past, s. auto.
Qed.

Lemma start_o : forall s0, (forall v, In v V -> lex_lt s0 v) -> exists sw, ci_from_iter ln (seq 0 n) = Ok sw /\ rdyo (bound n V) sw [] s0.
Proof.
  intros s0 Hs. assert (HV0 : forall c v, c < n -> geo ln c = Point v -> In v V).
  { intros c v L E. destruct (HL c L) as (a & z & E'). rewrite E in E'. discriminate. }
  destruct (init_ok ln n V HV1 HV0 n (le_n n)) as (sw & pend & pts & E & Ea & Eo & Co & LR & Nd & _). exists sw. split; [exact E|].
  assert (Ba : forall p, base ln n V p (bound n V) (set_out [] sw) [] [] pend pts pts []).
  { intros p. constructor; cbn [set_out sw_segs sw_events sw_active sw_out app]; auto; try (intros x []; fail).
    - rewrite Ea. apply holds_new.
    - exact I.
    - split; [intros x []|intros u []]. }
  unfold rdyo. destruct (peek_point sw) as [p1|] eqn:Ep.
  - left. destruct (peek_in _ _ Ep) as [(ev & Iev & Eev) Mn]. exists p1, [], pend, pts, pts. split; auto.
    assert (V1 : In p1 V) by (rewrite <- Eev; eapply co_evV; eauto). split; auto. split; auto. split.
    + intros v Iv _ Lv. apply (gap ln tie n V HV3 v _ _ _ [] [] pend pts pts Co Iv); auto.
      * intros x [].
      * intros x Ix. pose proof (Mn x Ix). lord.
      * intros u [].
      * intros u u' [].
    + constructor; auto.
      * split; [constructor|split; [constructor|exact I]].
      * intros u v [].
  - right. apply peek_none in Ep. split; [exact Ep|]. assert (Q : sw_events (set_out [] sw) = []) by exact Ep.
    pose proof (base_final ln tie n V (l_start (ln 0)) (bound n V) (set_out [] sw) [] pend pts pts [] (Ba _)) as F. apply F; [exact LR|exact Q].
Qed.

(** The whole run, as seen from [m]. *)
Theorem run_at : forall s0 es fuel, In s0 V' -> s0 <> m -> (forall v, In v V -> lex_lt s0 v) -> wfe es -> bound n V < fuel -> lex_lt s0 m ->
  exists sw log em, ci_from_iter ln (seq 0 n) = Ok sw /\ op_loop tie presort ghost fuel fuel ln ty sw es [] = Ok em /\ final log /\ emits log em.
Proof.
  intros s0 es fuel Vs Ns Hs W Lf Lsm. destruct (start_o s0 Hs) as (sw & E & R). exists sw.
  destruct (loop_ok (bound n V) sw [] s0 es [] fuel fuel R) as (log & em & A & B & C); auto.
  - constructor; auto.
    + intros c L A. exfalso. apply actb_iff in A as [A _]. pose proof (eV ln n V HV1 HL c L) as [Va _]. pose proof (Hs _ Va). lord.
    + intros Q. lord.
  - constructor; [intros g w []|intros x []|constructor].
  - exists log, em. auto.
Qed.
End Run.
