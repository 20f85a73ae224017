(** What the boolean sweep finds at one point. *)
Require Import List String Bool Arith Lia Permutation Sorted.
From Verif Require Import Base Scalar M_Events M_Geo M_LineOrPoint M_Splay M_Slab M_Active M_Sweep M_Crossings M_Rings M_Op.
From Verif Require Import S_Geo P_Geo P_LineOrPoint P_Tilt P_Slab P_Active P_Chain P_Bundle P_Tile P_Heap P_Order P_Inv P_Store P_Handle P_LL P_Step P_Run.
From Verif Require Import S_Op P_OpLab P_OpPoint.
Import Datatypes.
Import ListNotations.
Local Open Scope nat_scope.

Lemma perm_filter : forall {X} (f : X -> bool) l l', Permutation l l' -> Permutation (filter f l) (filter f l').
Proof.
  intros X f l l' P. induction P; cbn [filter]; auto.
  - destruct (f x); auto.
  - destruct (f x), (f y); auto. apply perm_swap.
  - eapply perm_trans; eauto.
Qed.

Section Point.
Variables (ln : nat -> line) (tie : nat -> nat) (n : nat) (e : Qc) (V V' : list pt).
Hypothesis HT' : tilts e (fun p => In p V').
Hypothesis HVV : incl V V'.
Hypothesis HV1 : forall c a z, c < n -> geo ln c = Line a z -> In a V /\ In z V.
Hypothesis HV2 : forall c c' a z a' z' r, c < n -> c' < n -> geo ln c = Line a z -> geo ln c' = Line a' z' ->
  on_seg a z r -> on_seg a' z' r -> (forall r', on_seg a z r' -> on_seg a' z' r' -> r' = r) -> In r V.
Hypothesis HL : forall c, c < n -> exists a z, geo ln c = Line a z.
Notation tl := (tilt e).
Notation H := (P_Order.H e).
Notation K := (P_Order.K e).
Notation Sl := (P_Order.S e).
Notation ea := (ea ln).
Notation ez := (ez ln).
Notation eb := (eb ln).
Notation thr := (thr ln).
Notation actb := (actb ln).
Notation lek := (lek ln e).
Notation dst := (dst ln n e V).
Notation good := (good V).

Lemma HT : tilts e (fun p => In p V).
Proof. intros a b A B. apply HT'; auto. Qed.
Lemma geo_l : forall c, c < n -> geo ln c = Line (ea c) (ez c). Proof. exact (geo_eq ln n HL). Qed.
Lemma ebg : forall c, c < n -> good (eb c).
Proof. intros c L. pose proof (eV ln n V HV1 HL c L) as [A B]. split; [apply (e_lt ln n HL); auto|auto]. Qed.

Variables (p1 : pt) (mu : nat) (sw : sweep) (act pend : list bundle) (pts ppend : list pin) (past : list crossing).
Hypothesis V1 : In p1 V.
Hypothesis D : dst p1 mu sw act pend pts ppend past.
Hypothesis NP : nopass e p1 act.
Let out := sw_out sw.
Let log := past ++ out.
Let Co : core ln n V mu (sw_segs sw) (sw_events sw) log (act ++ pend) pend pts ppend.
Proof. pose proof (ba_core _ _ _ _ _ _ _ _ _ _ _ _ (dt_base _ _ _ _ _ _ _ _ _ _ _ _ D)) as Q. exact Q. Qed.
Let Ba := dt_base _ _ _ _ _ _ _ _ _ _ _ _ D.

Lemma log_pt : forall x, In x log -> lex_le (crpt x) p1 /\ (crpt x = p1 -> In x out).
Proof.
  intros x Ix. apply in_app_iff in Ix as [Ix|Ix].
  - pose proof (ba_past _ _ _ _ _ _ _ _ _ _ _ _ Ba x Ix) as L. split; [apply lex_lt_le; auto|]. intros E. rewrite E in L. exfalso. lord.
  - split; auto. rewrite (ba_out _ _ _ _ _ _ _ _ _ _ _ _ Ba x Ix). apply lex_le_refl.
Qed.
(** The shape of a report. *)
Lemma out_shape : forall x, In x out -> cr_cross x < n /\ exists p y, cr_line x = Line p y /\ lex_lt p y /\ In p V /\ In y V /\
  thr p (cr_cross x) /\ thr y (cr_cross x) /\ (if cr_left x then p else y) = p1.
Proof.
  intros x Ix. destruct (co_log _ _ _ _ _ _ _ _ _ _ _ Co x) as (L & S & _); [apply in_or_app; auto|]. split; auto.
  pose proof (ba_out _ _ _ _ _ _ _ _ _ _ _ _ Ba x Ix) as Pt. unfold crpt in Pt.
  destruct (cr_line x) as [p|p y]; [destruct S as [S _]; rewrite (geo_l _ L) in S; discriminate|].
  destruct S as (a & z & G & Lt & Vp & Vy & O1 & O2). rewrite (geo_l _ L) in G. injection G as <- <-.
  exists p, y. repeat (split; auto).
Qed.
Lemma act_range : forall b, In b act -> good b /\ lex_le (b_p b) p1 /\ lex_lt p1 (b_q b).
Proof.
  intros b Ib. destruct (dt_ord _ _ _ _ _ _ _ _ _ _ _ _ D) as (R & _). rewrite Forall_forall in R. destruct (R b Ib) as (G & _ & P).
  split; auto. split; auto. apply (dt_hb _ _ _ _ _ _ _ _ _ _ _ _ D (ev_LR (b_q b) b)). apply (dt_lr _ _ _ _ _ _ _ _ _ _ _ _ D). apply in_or_app; auto.
Qed.
Lemma pend_range : forall b, In b pend -> lex_lt p1 (b_p b).
Proof.
  intros b Ib. pose proof (LL_in ln tie n V _ _ _ _ _ _ _ _ b Co Ib) as I. exact (dt_hb _ _ _ _ _ _ _ _ _ _ _ _ D _ I).
Qed.
Lemma mem_line : forall b m, In b (act ++ pend) -> In m (b_mem b) -> m_c m < n /\ thr (b_p b) (m_c m) /\ thr (b_q b) (m_c m) /\ good b.
Proof.
  intros b m Ib Im. destruct (co_mem _ _ _ _ _ _ _ _ _ _ _ Co b m Ib Im) as (L & _). split; auto.
  pose proof (co_tile _ _ _ _ _ _ _ _ _ _ _ Co (m_c m) _ _ L (geo_l _ L)) as T.
  destruct (tile_piece V _ _ _ (b_p b) (b_q b) T) as (A & B & E & F & G & _).
  { apply in_or_app; right. eapply in_current; eauto. }
  repeat (split; auto).
Qed.
Lemma mem_same : forall b m, In b (act ++ pend) -> In m (b_mem b) -> same_line e (eb (m_c m)) b.
Proof. intros b m Ib Im. destruct (mem_line b m Ib Im) as (L & T1 & T2 & G). apply (sub_same e V HT); auto. apply ebg; auto. Qed.
Lemma mem_act : forall b m, In b act -> In m (b_mem b) -> actb p1 (m_c m) = true.
Proof.
  intros b m Ib Im. destruct (mem_line b m (in_or_app _ _ _ (or_introl Ib)) Im) as (L & T1 & T2 & G). destruct (act_range b Ib) as (_ & R1 & R2).
  apply (thr_between ln n HL) in T1; auto. apply (thr_between ln n HL) in T2; auto. apply actb_iff. destruct T1, T2. split; lord.
Qed.
(** Every edge that is active belongs to an active bundle. *)
Lemma act_bundle : forall c, c < n -> actb p1 c = true -> exists b m, In b act /\ In m (b_mem b) /\ m_c m = c /\ (thr p1 c -> b_p b = p1).
Proof.
  intros c L A. apply actb_iff in A as [A1 A2].
  pose proof (co_tile _ _ _ _ _ _ _ _ _ _ _ Co c _ _ L (geo_l _ L)) as T.
  destruct (tile_cover_l V _ _ _ p1 T A1 A2) as (x & y & I & L1 & L2).
  apply in_app_iff in I as [I|I].
  - exfalso. apply ended_in in I as (r & Ir & _ & E1 & E2). destruct (log_pt r Ir) as [Q _]. rewrite (crpt_end r x y E1 E2) in Q. lord.
  - apply current_in in I as (b & m & Ib & Im & Ec & -> & ->). apply in_app_iff in Ib as [Ib|Ib]; [|pose proof (pend_range b Ib); exfalso; lord].
    exists b, m. split; auto. split; auto. split; auto. intros Th. destruct (pt_dec (b_p b) p1) as [Q|Q]; auto. exfalso.
    apply (NP b Ib); [apply lex_le_neq; auto|auto|].
    rewrite <- (proj2 (mem_same b m (in_or_app _ _ _ (or_introl Ib)) Im)), Ec. apply (onb_H e V HT); [apply ebg; auto|exact Th].
Qed.
Lemma ends_iff : forall c, c < n ->
  ((exists x, In x out /\ cr_left x = false /\ cr_cross x = c) <-> lex_lt (ea c) p1 /\ lex_le p1 (ez c) /\ thr p1 c).
Proof.
  intros c L. split.
  - intros (x & Ix & Lx & <-). destruct (out_shape x Ix) as (_ & p & y & E & Lt & _ & _ & T1 & T2 & P). rewrite Lx in P. subst y.
    apply (thr_between ln n HL) in T1 as [Q1 _]; auto. pose proof (thr_between ln n HL _ _ L T2) as [_ Q2]. split; [lord|auto].
  - intros (A1 & A2 & Th). pose proof (co_tile _ _ _ _ _ _ _ _ _ _ _ Co c _ _ L (geo_l _ L)) as T.
    destruct (tile_cover_r V _ _ _ p1 T A1 A2) as (x & y & I & L1 & L2). apply in_app_iff in I as [I|I].
    + apply ended_in in I as (r & Ir & Ec & E1 & E2). exists r. destruct (log_pt r Ir) as [Q1 Q2]. rewrite (crpt_end r x y E1 E2) in Q1, Q2.
      split; auto. apply Q2. lord.
    + exfalso. apply current_in in I as (b & m & Ib & Im & Ec & -> & ->). apply in_app_iff in Ib as [Ib|Ib]; [|pose proof (pend_range b Ib); lord].
      destruct (act_range b Ib) as (_ & _ & R). apply (NP b Ib); auto.
      rewrite <- (proj2 (mem_same b m (in_or_app _ _ _ (or_introl Ib)) Im)), Ec. apply (onb_H e V HT); [apply ebg; auto|exact Th].
Qed.
Lemma starts_iff : forall c, c < n ->
  ((exists x, In x out /\ cr_left x = true /\ cr_cross x = c) <-> actb p1 c = true /\ thr p1 c).
Proof.
  intros c L. split.
  - intros (x & Ix & Lx & <-). destruct (out_shape x Ix) as (_ & p & y & E & Lt & _ & _ & T1 & T2 & P). rewrite Lx in P. subst p.
    pose proof (thr_between ln n HL _ _ L T1) as [Q1 _]; auto. pose proof (thr_between ln n HL _ _ L T2) as [_ Q2]. split; [|auto]. apply actb_iff. split; [auto|lord].
  - intros (A & Th). destruct (act_bundle c L A) as (b & m & Ib & Im & Ec & Ep). specialize (Ep Th).
    assert (I : In p1 (started c log)).
    { eapply Permutation_in; [symmetry; apply (ba_start _ _ _ _ _ _ _ _ _ _ _ _ Ba)|]. rewrite map_app. apply in_or_app; right.
      apply in_map_iff. exists (b_p b, b_q b). split; [exact Ep|]. eapply in_current; eauto. }
    apply started_in in I as (r & Ir & Er & El & Ef). exists r. destruct (log_pt r Ir) as [_ Q]. split; auto. apply Q.
    unfold crpt. rewrite El. destruct (cr_line r); exact Ef.
Qed.

Lemma starts_NoDup : NoDup (map (@cr_cross nat) (filter (@cr_left nat) out)).
Proof.
  assert (N : forall c, c < n -> NoDup (started c out)).
  { intros c L. pose proof (co_tile _ _ _ _ _ _ _ _ _ _ _ Co c _ _ L (geo_l _ L)) as T. apply tile_NoDup_fst in T.
    pose proof (ba_start _ _ _ _ _ _ _ _ _ _ _ _ Ba c) as St. apply Permutation_sym in St.
    assert (Q : NoDup (started c (past ++ sw_out sw))).
    { eapply Permutation_NoDup; [exact St|]. rewrite current_app, app_assoc, map_app in T. apply NoDup_app_l in T. exact T. }
    rewrite started_app in Q. clear - Q. induction (started c past) as [|a l IH]; [exact Q|]. inversion Q; auto. }
  assert (F : forall x, In x out -> cr_left x = true -> lop_first (cr_line x) = p1).
  { intros x Ix Lx. destruct (out_shape x Ix) as (_ & p & y & E & _ & _ & _ & _ & _ & P). rewrite Lx in P. rewrite E. exact P. }
  assert (R : forall x, In x out -> cr_cross x < n) by (intros x Ix; apply out_shape; auto).
  clearbody out. clear - N F R. induction out as [|x l IH]; [constructor|]. cbn [filter].
  assert (IHl : NoDup (map (@cr_cross nat) (filter (@cr_left nat) l))).
  { apply IH; [|intros; apply F; auto; right; auto|intros; apply R; right; auto]. intros c Lc. specialize (N c Lc). cbn [started flat_map] in N.
    destruct ((cr_cross x =? c) && cr_left x); [cbn [app] in N; inversion N; auto|exact N]. }
  destruct (cr_left x) eqn:Lx; auto. cbn [map]. constructor; auto. intros I. apply in_map_iff in I as (y & Ey & Iy). apply filter_In in Iy as [Iy Ly].
  specialize (N (cr_cross x) (R x (or_introl eq_refl))). cbn [started flat_map] in N. rewrite Nat.eqb_refl, Lx in N. cbn [andb app] in N.
  inversion N as [|? ? Nx _]; subst. apply Nx. rewrite (F x (or_introl eq_refl) Lx). apply in_flat_map. exists y. split; auto.
  rewrite Ey, Nat.eqb_refl, Ly. cbn [andb]. left. apply F; auto. right; auto.
Qed.
Lemma ends_NoDup : NoDup (map (@cr_cross nat) (filter (fun x => negb (cr_left x)) out)).
Proof.
  assert (N : forall c, c < n -> NoDup (map snd (ended c out))).
  { intros c L. pose proof (co_tile _ _ _ _ _ _ _ _ _ _ _ Co c _ _ L (geo_l _ L)) as T. apply tile_NoDup_snd in T.
    rewrite map_app in T. apply NoDup_app_l in T. unfold log in T. rewrite ended_app, map_app in T. clear - T.
    induction (map snd (ended c past)) as [|a l IH]; [exact T|]. inversion T; auto. }
  assert (F : forall x, In x out -> cr_left x = false -> exists p, cr_line x = Line p p1).
  { intros x Ix Lx. destruct (out_shape x Ix) as (_ & p & y & E & _ & _ & _ & _ & _ & P). rewrite Lx in P. exists p. rewrite E, P. reflexivity. }
  assert (R : forall x, In x out -> cr_cross x < n) by (intros x Ix; apply out_shape; auto).
  clearbody out. clear - N F R. induction out as [|x l IH]; [constructor|]. cbn [filter].
  assert (IHl : NoDup (map (@cr_cross nat) (filter (fun x => negb (cr_left x)) l))).
  { apply IH; [|intros; apply F; auto; right; auto|intros; apply R; right; auto]. intros c Lc. specialize (N c Lc). cbn [ended flat_map] in N.
    rewrite map_app in N. revert N. generalize (map snd (if (cr_cross x =? c) && negb (cr_left x) then match cr_line x with Point _ => [] | Line p q => [(p, q)] end else [])).
    intros l0 N. induction l0 as [|a l0 IH0]; [exact N|]. inversion N; auto. }
  destruct (cr_left x) eqn:Lx; auto. cbn [negb map]. constructor; auto. intros I. apply in_map_iff in I as (y & Ey & Iy). apply filter_In in Iy as [Iy Ly].
  apply negb_true_iff in Ly. destruct (F x (or_introl eq_refl) Lx) as (px & Ex). destruct (F y (or_intror Iy) Ly) as (py & Eyl).
  specialize (N (cr_cross x) (R x (or_introl eq_refl))). cbn [ended flat_map] in N. rewrite Nat.eqb_refl, Lx, Ex in N. cbn [andb negb app map snd] in N.
  inversion N as [|? ? Nx _]; subst. apply Nx. apply in_map_iff. exists (py, p1). split; auto. apply in_flat_map. exists y. split; auto.
  rewrite Ey, Nat.eqb_refl, Ly, Eyl. left. reflexivity.
Qed.

(** ** The comparison *)
Definition kx (x : crossing) : Qc := slope e (lop_first (cr_line x)) (lop_second (cr_line x)).
Lemma kx_edge : forall x, In x out -> kx x = Sl (eb (cr_cross x)).
Proof.
  intros x Ix. destruct (out_shape x Ix) as (L & p & y & E & Lt & Vp & Vy & T1 & T2 & _). unfold kx. rewrite E. cbn [lop_first lop_second].
  assert (G : good (mkB p y [] : bundle)) by (repeat split; auto).
  pose proof (sub_same e V HT (eb (cr_cross x)) (mkB p y []) (ebg _ L) G T1 T2) as [Q _]. symmetry. exact Q.
Qed.
Lemma cmp_ok : forall x y, In x out -> In y out -> compare_crossings x y = Ok (ccmp kx x y).
Proof.
  intros x y Ix Iy. destruct (out_shape x Ix) as (Lx & px & qx & Ex & Ltx & Vpx & Vqx & _ & _ & Px). destruct (out_shape y Iy) as (Ly & py & qy & Ey & Lty & Vpy & Vqy & _ & _ & Py).
  assert (Tx : (tl px < tl qx)%Qc) by (apply HT; auto). assert (Ty : (tl py < tl qy)%Qc) by (apply HT; auto).
  unfold compare_crossings, ccmp, kx. rewrite Ex, Ey. cbn [lop_first lop_second lop_partial_cmp].
  rewrite (lines_kcmp e px qx py qy Tx Ty Ltx Lty). cbn [expect bind].
  destruct (cr_left x), (cr_left y); auto.
  - f_equal. subst px py. unfold lmax. replace (if pltb p1 p1 then tl p1 else tl p1) with (tl p1) by (destruct (pltb p1 p1); auto).
    unfold kcmp. rewrite !hgt_start, qcmp_refl. reflexivity.
  - f_equal. subst qx qy. assert (Lm : (lmax e px py < tl p1)%Qc) by (unfold lmax; destruct (pltb py px); auto).
    pose proof (hgt_diff e px p1 py p1 (tl p1) (lmax e px py)) as Df. rewrite !hgt_end in Df by auto.
    unfold kcmp. generalize (lmax e px py) Lm Df. intros l Ll Dl.
    destruct (qcmp_spec (hgt e px p1 l) (hgt e py p1 l)) as [A|A|A]; destruct (qcmp_spec (slope e px p1) (slope e py p1)) as [B|B|B]; auto; exfalso.
    + rewrite A in Dl. assert (Z : ((l - tl p1) * (slope e py p1 - slope e px p1) = 0)%Qc) by (clear - Dl; qcl). apply Qcmult_integral in Z as [Z|Z]; clear - Z Ll B; qcl.
    + rewrite A in Dl. assert (Z : ((l - tl p1) * (slope e py p1 - slope e px p1) = 0)%Qc) by (clear - Dl; qcl). apply Qcmult_integral in Z as [Z|Z]; clear - Z Ll B; qcl.
    + rewrite B in Dl. clear - Dl A. qc.
    + clear - Dl A B Ll. qc.
    + rewrite B in Dl. clear - Dl A. qc.
    + clear - Dl A B Ll. qc.
Qed.
(** Ends in the same direction are the same piece. *)
Lemma ends_line : forall x y, In x out -> In y out -> cr_left x = false -> cr_left y = false -> kx x = kx y -> cr_line x = cr_line y.
Proof.
  assert (Q : forall x y px py, In x out -> In y out -> cr_left x = false -> cr_left y = false -> kx x = kx y -> cr_line x = Line px p1 -> cr_line y = Line py p1 -> lex_lt px py -> False).
  { intros x y px py Ix Iy Lx Ly Ek Ex Ey Lt.
    destruct (out_shape x Ix) as (Nx & px' & qx & Ex' & Ltx & Vpx & Vqx & _ & _ & Px). rewrite Ex in Ex'. injection Ex' as <- <-.
    destruct (out_shape y Iy) as (Ny & py' & qy & Ey' & Lty & Vpy & Vqy & _ & _ & Py). rewrite Ey in Ey'. injection Ey' as <- <-.
    assert (Gx : good (mkB px p1 [] : bundle)) by (repeat split; auto). assert (Gy : good (mkB py p1 [] : bundle)) by (repeat split; auto).
    assert (Sm : same_line e (mkB px p1 [] : bundle) (mkB py p1 [])).
    { unfold kx in Ek. rewrite Ex, Ey in Ek. apply (K_eq_same e (tl p1)). apply K_eq_iff. split; [|exact Ek].
      rewrite (onb_H e V HT _ p1 Gx (on_seg_end _ _)), (onb_H e V HT _ p1 Gy (on_seg_end _ _)). reflexivity. }
    apply (co_fine _ _ _ _ _ _ _ _ _ _ _ Co (cr_cross x) px p1 py); auto.
    - apply in_flat_map. exists x. split; [apply in_or_app; auto|]. rewrite Nat.eqb_refl, Lx, Ex. left. reflexivity.
    - apply (onb_of e V HT (mkB px p1 [] : bundle) py); auto; [apply lex_lt_le; auto|apply lex_lt_le; auto|].
      rewrite (proj2 Sm). apply (onb_H e V HT _ py Gy (on_seg_start _ _)). }
  intros x y Ix Iy Lx Ly Ek.
  destruct (out_shape x Ix) as (Nx & px & qx & Ex & Ltx & Vpx & Vqx & _ & _ & Px). destruct (out_shape y Iy) as (Ny & py & qy & Ey & Lty & Vpy & Vqy & _ & _ & Py).
  rewrite Lx in Px. rewrite Ly in Py. subst qx qy. rewrite Ex, Ey. f_equal. destruct (lex_total px py) as [[A|A]|A]; auto; exfalso.
  - apply (Q x y px py); auto.
  - apply (Q y x py px); auto.
Qed.

(** ** The lowest start and what is below it *)
Lemma col_kx : forall u x, In u act -> b_p u = p1 -> In x out -> cr_left x = true -> (col u x <-> kx x = Sl u).
Proof.
  intros u x Iu Pu Ix Lx. destruct (act_range u Iu) as (G & _ & R). destruct (out_shape x Ix) as (_ & p & y & E & Lt & Vp & Vy & _ & _ & P).
  rewrite Lx in P. subst p. unfold col, kx. rewrite E. cbn [lop_first lop_second].
  assert (T1 : (tl (b_p u) < tl (b_q u))%Qc) by (apply (good_tl e V HT); auto). assert (T2 : (tl p1 < tl y)%Qc) by (apply HT; auto).
  rewrite (cross_hgt e _ _ y T1). pose proof (slope_eq e p1 y T2) as E2. unfold P_Order.S, hgt. rewrite Pu in *.
  set (s := slope e p1 (b_q u)) in *. set (s' := slope e p1 y) in *. split.
  - intros Q. apply Qcmult_integral in Q as [Q|Q]; [exfalso; clear - Q T1; qcl|].
    apply (Qc_mul_cancel _ _ (tl y - tl p1)); [intro; clearbody s s'; qcl|]. rewrite E2. clearbody s s'. clear - Q. qcl.
  - intros Q. rewrite <- Q. clearbody s s'. assert (Z : (cy y - (cy p1 + (tl y - tl p1) * s') = 0)%Qc) by (clear - E2; qcl). rewrite Z. ring.
Qed.

(** Either equal entries keep their order or there are none. *)
Definition no_overlap : Prop := forall c c' r r', c < n -> c' < n -> c <> c' -> thr r c -> thr r c' -> thr r' c -> thr r' c' -> r = r'.
Variable l' E : list crossing.
Variable bot : crossing.
Variable S0 : list crossing.
Hypothesis Perm : Permutation out l'.
Hypothesis El : l' = E ++ bot :: S0.
Hypothesis LE : forall x, In x E -> cr_left x = false.
Hypothesis LS : forall x, In x (bot :: S0) -> cr_left x = true.
Hypothesis SS : StronglySorted (kle kx) (bot :: S0).
Hypothesis Stab : (forall z, filter (ceq kx z) l' = filter (ceq kx z) out) \/ no_overlap.

Lemma in_S : forall x, In x out -> cr_left x = true -> In x (bot :: S0).
Proof.
  intros x Ix Lx. apply (Permutation_in _ Perm) in Ix. rewrite El in Ix. apply in_app_iff in Ix as [Ix|Ix]; auto. rewrite (LE x Ix) in Lx. discriminate.
Qed.
Lemma S_out : forall x, In x (bot :: S0) -> In x out /\ cr_left x = true.
Proof. intros x Ix. split; [|auto]. apply (Permutation_in _ (Permutation_sym Perm)). rewrite El. apply in_or_app; auto. Qed.
Lemma bot_min : forall x, In x (bot :: S0) -> (kx bot <= kx x)%Qc.
Proof. intros x [<-|Ix]; [apply Qcle_refl|]. inversion SS as [|? ? _ F]; subst. rewrite Forall_forall in F. apply F; auto. Qed.

Lemma bot_root : exists A u B, act = A ++ u :: B /\ b_p u = p1 /\ cr_key bot = b_key u /\
  (forall w, In w A -> (H w (tl p1) < cy p1)%Qc) /\ (forall w, In w (u :: B) -> (cy p1 <= H w (tl p1))%Qc).
Proof.
  destruct (S_out bot (or_introl eq_refl)) as [Ib Lb]. destruct (ba_rep _ _ _ _ _ _ _ _ _ _ _ _ Ba) as [R1 R2].
  destruct (R1 bot Ib Lb) as (u & Iu & Pu & Cu). apply in_split in Iu as Iu'. destruct Iu' as (A & B & EA). exists A, u, B. split; auto. split; auto.
  destruct (act_range u Iu) as (Gu & _). assert (Hu : H u (tl p1) = cy p1) by (apply (onb_H e V HT); [auto|rewrite <- Pu; apply onb_p]).
  destruct (dt_ord _ _ _ _ _ _ _ _ _ _ _ _ D) as (_ & O & _). split; [|split].
  - destruct (R2 u Iu Pu) as (l1 & y & l2 & Eo & Ly & Ky & Cy & Nl). assert (Iy : In y out) by (unfold out; rewrite Eo; apply in_or_app; right; left; auto).
    assert (E1 : kx bot = kx y) by (apply (col_kx u) in Cu; auto; apply (col_kx u) in Cy; auto; congruence).
    destruct Stab as [St|NO].
    + specialize (St bot). assert (Q1 : filter (ceq kx bot) out = y :: filter (ceq kx bot) l2).
      { unfold out. rewrite Eo, filter_app. cbn [filter]. assert (Q : ceq kx bot y = true) by (apply ceq_iff; split; congruence). rewrite Q.
        rewrite (filter_none2 (ceq kx bot) l1); [reflexivity|]. intros x Ix. destruct (ceq kx bot x) eqn:Qx; auto. exfalso.
        apply ceq_iff in Qx as [Q2 Q3]. rewrite Lb in Q2. assert (Ixo : In x out) by (unfold out; rewrite Eo; apply in_or_app; auto).
        apply (Nl x Ix); auto. apply (col_kx u); auto. apply (col_kx u) in Cu; auto. congruence. }
      assert (Q2 : exists r, filter (ceq kx bot) l' = bot :: r).
      { rewrite El, filter_app. rewrite (filter_none2 (ceq kx bot) E).
        - cbn [app filter]. rewrite (proj2 (ceq_iff kx bot bot)) by auto. eauto.
        - intros x Ix. destruct (ceq kx bot x) eqn:Qx; auto. exfalso. apply ceq_iff in Qx as [Q2 _]. rewrite Lb, (LE x Ix) in Q2. discriminate. }
      destruct Q2 as (r & Q2). rewrite St, Q1 in Q2. injection Q2 as <- _. exact Ky.
    + assert (Q : bot = y); [|congruence].
      destruct (out_shape bot Ib) as (L1 & p & q & E3 & Lt & Vp & Vq & T1 & T2 & P). rewrite Lb in P. subst p.
      destruct (out_shape y Iy) as (L2 & p & q' & E4 & Lt' & Vp' & Vq' & T1' & T2' & P). rewrite Ly in P. subst p.
      destruct (Nat.eq_dec (cr_cross bot) (cr_cross y)) as [Ec|Nc].
      * assert (ND := starts_NoDup). clear - ND Ib Iy Lb Ly Ec. clearbody out. induction out as [|z l IH]; [destruct Ib|]. cbn [filter] in ND.
        destruct Ib as [->|Ib], Iy as [->|Iy]; auto.
        -- exfalso. rewrite Lb in ND. cbn [map] in ND. inversion ND as [|? ? Q _]; subst. apply Q. rewrite Ec. apply in_map. apply filter_In. auto.
        -- exfalso. rewrite Ly in ND. cbn [map] in ND. inversion ND as [|? ? Q _]; subst. apply Q. rewrite <- Ec. apply in_map. apply filter_In. auto.
        -- apply IH; auto. destruct (cr_left z); auto. inversion ND; auto.
      * exfalso.
        assert (Sm : same_line e (eb (cr_cross bot)) (eb (cr_cross y))).
        { apply (K_eq_same e (tl p1)). apply K_eq_iff. rewrite <- !kx_edge by auto. split; auto.
          rewrite (onb_H e V HT _ p1 (ebg _ L1) T1), (onb_H e V HT _ p1 (ebg _ L2) T1'). reflexivity. }
        destruct (lex_le_dec q q') as [Lq|Lq].
        -- apply (lex_lt_neq _ _ Lt). apply (NO (cr_cross bot) (cr_cross y) p1 q); auto.
           pose proof (thr_between ln n HL _ _ L2 T2') as [_ Z]. pose proof (thr_between ln n HL _ _ L2 T1') as [Z' _].
           apply (onb_of e V HT (eb (cr_cross y)) q); [apply ebg; auto|auto|cbn [b_p eb]; lord|cbn [b_q eb]; lord|].
           rewrite <- (proj2 Sm). apply (onb_H e V HT); [apply ebg; auto|exact T2].
        -- apply (lex_lt_neq _ _ Lt'). apply (NO (cr_cross bot) (cr_cross y) p1 q'); auto.
           pose proof (thr_between ln n HL _ _ L1 T2) as [_ Z]. pose proof (thr_between ln n HL _ _ L1 T1) as [Z' _].
           apply (onb_of e V HT (eb (cr_cross bot)) q'); [apply ebg; auto|auto|cbn [b_p eb]; lord|cbn [b_q eb]; lord|].
           rewrite (proj2 Sm). apply (onb_H e V HT); [apply ebg; auto|exact T2'].
  - intros w Iw. assert (Iwa : In w act) by (rewrite EA; apply in_or_app; auto).
    apply in_split in Iw as (A1 & A2 & ->). rewrite EA, <- app_assoc in O. cbn [app] in O. apply FOP_in in O. destruct O as [_ [Kl Kp]].
    rewrite Hu in Kp. apply K_lt_iff in Kl. rewrite Hu in Kl. destruct Kl as [Kl|[Kl1 Kl2]]; auto. exfalso.
    destruct (Kp Kl1) as [Pw _]. destruct (R2 w Iwa Pw) as (l1 & y & l2 & Eo & Ly & _ & Cy & _). assert (Iy : In y out) by (unfold out; rewrite Eo; apply in_or_app; right; left; auto).
    pose proof (bot_min y (in_S y Iy Ly)) as M. apply (col_kx w) in Cy; auto. apply (col_kx u) in Cu; auto. rewrite Cy, Cu in M. clear - M Kl2. qcl.
  - intros w [<-|Iw]; [rewrite Hu; apply Qcle_refl|]. apply in_split in Iw as (B1 & B2 & ->). rewrite EA in O. apply FOP_in in O. destruct O as [_ [Kl _]].
    apply K_le in Kl. rewrite Hu in Kl. exact Kl.
Qed.

(** ** The segment below the lowest start *)
Definition under (c : nat) : bool := actb p1 c && qltb (H (eb c) (tl p1)) (cy p1).
Lemma prev_seg : exists t prev, (forall l, prev_active (set_out l sw) bot = Ok (set_active t (set_out l sw), prev)) /\ holds t (map b_key act) /\
  match prev with
  | Some sg => sg_cross sg < n /\ actb p1 (sg_cross sg) = true /\ ~ thr p1 (sg_cross sg) /\ lex_lt (lop_first (sg_geom sg)) (ez (sg_cross sg)) /\
      forall c, c < n -> upto ln e p1 (sg_cross sg) c = under c
  | None => forall c, c < n -> under c = false
  end.
Proof.
  destruct bot_root as (A & u & B & EA & Pu & Ek & LA & LB).
  assert (Si : sits seg_partial_cmp (sw_segs sw) (b_key u) (map b_key A) [b_key u] (map b_key B)).
  { pose proof Co as Co'. rewrite EA in Co'. pose proof (dt_ord _ _ _ _ _ _ _ _ _ _ _ _ D) as O. rewrite EA in O.
    eapply (sits_act ln n e V HT PL); [exact Co'|exact O]. }
  assert (Ho : holds (sw_active sw) (map b_key A ++ [b_key u] ++ map b_key B)).
  { pose proof (ba_act _ _ _ _ _ _ _ _ _ _ _ _ Ba) as Q. rewrite EA, map_app in Q. exact Q. }
  destruct (prev_key_ok _ _ _ _ _ _ _ Ho Si) as (t & Et & Ht).
  assert (Ht' : holds t (map b_key act)) by (rewrite EA, map_app; exact Ht).
  assert (Cs : A = [] \/ exists A' w, A = A' ++ [w]).
  { destruct (rev A) as [|w r] eqn:Er; [left; apply (f_equal (@rev _)) in Er; rewrite rev_involutive in Er; exact Er|right].
    exists (rev r), w. apply (f_equal (@rev _)) in Er. rewrite rev_involutive in Er. exact Er. }
  (** the edges strictly below the point *)
  assert (Un : forall c b m, c < n -> In b act -> In m (b_mem b) -> m_c m = c -> under c = qltb (H b (tl p1)) (cy p1)).
  { intros c b m L Ib Im Ec. unfold under. rewrite <- Ec, (mem_act b m Ib Im). cbn [andb].
    rewrite (proj2 (mem_same b m (in_or_app _ _ _ (or_introl Ib)) Im)). reflexivity. }
  destruct Cs as [EA0|(A' & w & EA')].
  - exists t, None. split; [|split; [exact Ht'|]].
    { intros l. unfold prev_active. rewrite (LS bot (or_introl eq_refl)). cbn [check bind set_out sw_active sw_segs]. rewrite Ek, Et. cbn [bind].
      rewrite EA0. reflexivity. }
    intros c L. destruct (under c) eqn:Q; auto. exfalso.
    assert (Q' := Q). unfold under in Q'. apply andb_true_iff in Q' as [Q' _]. destruct (act_bundle c L Q') as (b & m & Ib & Im & Ec & _).
    rewrite (Un c b m L Ib Im Ec) in Q. apply qltb_iff in Q. rewrite EA, EA0 in Ib. pose proof (LB b Ib) as Z. clear - Q Z. qcl.
  - assert (Iw : In w act) by (rewrite EA, EA'; rewrite <- app_assoc; apply in_or_app; right; left; auto).
    exists t, (Some (rs w)). split; [|split; [exact Ht'|]].
    { intros l. unfold prev_active. rewrite (LS bot (or_introl eq_refl)). cbn [check bind set_out sw_active sw_segs]. rewrite Ek, Et. cbn [bind].
      rewrite EA', map_app, rev_app_distr. cbn [map rev app hd_error].
      rewrite (root_get_unchecked ln n V _ _ _ _ _ _ _ _ w Co (in_or_app _ _ _ (or_introl Iw))). reflexivity. }
    destruct (b_mem w) as [|m ms] eqn:Em; [exfalso; apply (co_ne _ _ _ _ _ _ _ _ _ _ _ Co w); [apply in_or_app; auto|auto]|].
    assert (Im : In m (b_mem w)) by (rewrite Em; left; auto).
    destruct (mem_line w m (in_or_app _ _ _ (or_introl Iw)) Im) as (L & T1 & T2 & G).
    rewrite rs_geom. assert (Ers : sg_cross (rs w) = m_c m) by (unfold rs; rewrite Em; reflexivity). rewrite Ers.
    assert (Hw : (H w (tl p1) < cy p1)%Qc) by (apply LA; rewrite EA'; apply in_or_app; right; left; auto).
    pose proof (mem_same w m (in_or_app _ _ _ (or_introl Iw)) Im) as Smw.
    split; [exact L|]. split; [eapply mem_act; eauto|]. split.
    { intros Th. apply (onb_H e V HT (eb (m_c m)) p1 (ebg _ L)) in Th. rewrite (proj2 Smw) in Th. rewrite Th in Hw. destruct (Qclt_not_eq _ _ Hw eq_refl). }
    split.
    { cbn [b_geom lop_first]. pose proof (thr_between ln n HL _ _ L T2) as [_ Z]. destruct G as [G _]. change (lex_lt (b_p w) (ez (m_c m))). lord. }
    intros c Lc. unfold upto. destruct (actb p1 c) eqn:Ac; [|unfold under; rewrite Ac; reflexivity]. cbn [andb].
    destruct (act_bundle c Lc Ac) as (b & mb & Ib & Imb & Ec & _). rewrite (Un c b mb Lc Ib Imb Ec).
    pose proof (mem_same b mb (in_or_app _ _ _ (or_introl Ib)) Imb) as Smb. rewrite Ec in Smb.
    unfold lek. rewrite (K_same e _ _ _ _ _ Smb Smw).
    destruct (dt_ord _ _ _ _ _ _ _ _ _ _ _ _ D) as (_ & O & _).
    assert (Pos : b = w \/ (In b A' \/ In b (u :: B))).
    { rewrite EA, EA' in Ib. rewrite <- app_assoc in Ib. cbn [app] in Ib. apply in_app_iff in Ib as [Ib|[Ib|Ib]]; auto. }
    destruct Pos as [->|[Ib'|Ib']].
    + rewrite (proj2 (K_eq_same e (tl p1) w w) (same_line_refl e w)). symmetry. apply qltb_iff. exact Hw.
    + apply in_split in Ib' as (X & Y & EX). rewrite EA, EA', EX in O. rewrite <- !app_assoc in O. cbn [app] in O. apply FOP_in in O.
      destruct O as [_ [Kl _]]. rewrite Kl. symmetry. apply qltb_iff. apply K_le in Kl. clear - Kl Hw. qcl.
    + assert (Kl : K (tl p1) w b = Lt).
      { rewrite EA, EA' in O. rewrite <- app_assoc in O. cbn [app] in O. apply FOP_app in O as (_ & O & _). inversion O as [|? ? F _]; subst. rewrite Forall_forall in F. apply F; auto. }
      rewrite (K_opp e _ w b), Kl. cbn [CompOpp]. destruct (qltb_spec (H b (tl p1)) (cy p1)) as [Q|Q]; auto. exfalso. pose proof (LB b Ib') as Z. clear - Q Z. qcl.
Qed.
(** The edges up to a start: those below the point, and the starts up to it. *)
Lemma start_upto : forall x c, In x (bot :: S0) -> c < n -> upto ln e p1 (cr_cross x) c = xorb (under c) (inb (lower kx (bot :: S0) x) c).
Proof.
  intros x c Ix L. destruct (S_out x Ix) as [Ixo Lx].
  destruct (out_shape x Ixo) as (Lx' & _). assert (Tx : actb p1 (cr_cross x) = true /\ thr p1 (cr_cross x)) by (apply starts_iff; eauto). destruct Tx as [Ax Tx].
  pose proof (onb_H e V HT _ p1 (ebg _ Lx') Tx) as Hx.
  assert (Lo : inb (lower kx (bot :: S0) x) c = true <-> actb p1 c = true /\ thr p1 c /\ (Sl (eb c) <= Sl (eb (cr_cross x)))%Qc).
  { rewrite inb_spec. unfold lower. rewrite in_map_iff. split.
    - intros (z & <- & I). apply filter_In in I as [I Q]. apply qleb_iff in Q. apply S_out in I as [I Lz].
      assert (Tz : actb p1 (cr_cross z) = true /\ thr p1 (cr_cross z)) by (apply starts_iff; [apply out_shape; auto|eauto]). destruct Tz. split; auto. split; auto.
      rewrite <- !kx_edge by auto. exact Q.
    - intros (A1 & A2 & A3). destruct (proj2 (starts_iff c L)) as (z & Iz & Lz & Ez); auto. exists z. split; auto. apply filter_In. split; [apply in_S; auto|].
      apply qleb_iff. rewrite !kx_edge by auto. rewrite Ez. exact A3. }
  unfold under, upto. destruct (actb p1 c) eqn:Ac; cbn [andb].
  2:{ rewrite xorb_false_l. destruct (inb _ c); auto. destruct (proj1 Lo eq_refl); discriminate. }
  apply actb_iff in Ac as [Ac1 Ac2]. apply lex_lt_le in Ac2.
  pose proof (thr_iff ln n e V V' HT' HVV HV1 HL p1 c L (HVV _ V1) Ac1 Ac2) as Ti. symmetry.
  unfold lek. destruct (K_spec e (tl p1) (eb c) (eb (cr_cross x))) as [Q|Q|Q1 Q2|Q1 Q2|Q1 Q2]; rewrite Hx in *.
  - rewrite (proj2 (qltb_iff _ _) Q). destruct (inb _ c); auto. destruct (proj1 Lo eq_refl) as (_ & Z & _). apply Ti in Z. exfalso. clear - Q Z. qcl.
  - destruct (qltb_spec (H (eb c) (tl p1)) (cy p1)) as [Z|Z]; [exfalso; clear - Z Q; qcl|]. rewrite xorb_false_l. destruct (inb _ c); auto.
    destruct (proj1 Lo eq_refl) as (_ & Z' & _). apply Ti in Z'. exfalso. clear - Q Z'. qcl.
  - destruct (qltb_spec (H (eb c) (tl p1)) (cy p1)) as [Z|Z]; [exfalso; clear - Z Q1; qcl|]. rewrite xorb_false_l. apply Lo. split; auto. split; [apply Ti; auto|clear - Q2; qcl].
  - destruct (qltb_spec (H (eb c) (tl p1)) (cy p1)) as [Z|Z]; [exfalso; clear - Z Q1; qcl|]. rewrite xorb_false_l. destruct (inb _ c); auto.
    destruct (proj1 Lo eq_refl) as (_ & _ & Z'). exfalso. clear - Z' Q2. qcl.
  - destruct (qltb_spec (H (eb c) (tl p1)) (cy p1)) as [Z|Z]; [exfalso; clear - Z Q1; qcl|]. rewrite xorb_false_l. apply Lo. split; auto. split; [apply Ti; auto|clear - Q2; qcl].
Qed.

(** ** The label below the lowest start *)
Variables (ty : op_type) (fs : nat -> bool) (es : list edge).
Hypothesis W : wfe n (geo ln) fs es.
Notation lab := (lab ty fs n).
Notation cell := (cell ty).
Hypothesis Old : forall c, c < n -> actb p1 c = true -> ~ thr p1 c -> cell es c = lab (upto ln e p1 c).

Lemma prev_ok : exists sw2 prev, prev_active (set_out l' sw) bot = Ok (sw2, prev) /\ (exists t, sw2 = set_active t (set_out l' sw) /\ holds t (map b_key act)) /\
  match prev with
  | Some sg => let* e := edge_at es (sg_cross sg) in Ok (get_region e (sg_geom sg))
  | None => Ok (region_infinity ty)
  end = Ok (lab under).
Proof.
  destruct prev_seg as (t & prev & E1 & Ht & Q). exists (set_active t (set_out l' sw)), prev. split; [apply E1|]. split; [exists t; auto|]. destruct prev as [sg|].
  - destruct Q as (L & A & NT & Lt & U). destruct (edge_at_ok ty n (geo ln) fs es (sg_cross sg) W L) as (ed & E2 & _ & _ & _ & E3). rewrite E2. cbn [bind]. f_equal.
    rewrite E3 by exact Lt. rewrite Old by auto. apply lab_ext. exact U.
  - f_equal. symmetry. apply lab_none. exact Q.
Qed.

(** ** The labels of the starts *)
Lemma start_label : forall x, In x (bot :: S0) -> crossall fs (lower kx (bot :: S0) x) (lab under) = lab (upto ln e p1 (cr_cross x)).
Proof.
  intros x Ix. destruct (S_out x Ix) as [Ixo Lx].
  assert (Pm : Permutation (filter (@cr_left nat) out) (bot :: S0)).
  { eapply perm_trans; [apply (perm_filter (@cr_left nat) _ _ Perm)|]. rewrite El, filter_app, (filter_none2 _ E), filter_all by auto. reflexivity. }
  assert (ND : NoDup (lower kx (bot :: S0) x)).
  { unfold lower. assert (Q : NoDup (map (@cr_cross nat) (bot :: S0))) by (eapply Permutation_NoDup; [apply Permutation_map; exact Pm|apply starts_NoDup]).
    clear - Q. induction (bot :: S0) as [|a l IH]; [constructor|]. cbn [map] in Q. inversion Q as [|? ? Na Q']; subst. cbn [filter]. destruct (qleb (kx a) (kx x)); auto.
    cbn [map]. constructor; auto. intros I. apply Na. apply in_map_iff in I as (z & <- & I). apply filter_In in I as [I _]. apply in_map; auto. }
  rewrite crossall_lab; auto.
  2:{ intros c I. apply in_map_iff in I as (z & <- & I). apply filter_In in I as [I _]. apply S_out in I as [I _]. apply out_shape; auto. }
  apply lab_ext. intros c L. symmetry. apply start_upto; auto.
Qed.
End Point.
