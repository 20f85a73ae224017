(** From point to point. *)
Require Import List String Bool Arith Lia Permutation Sorted.
From Verif Require Import Base Scalar M_Events M_Geo M_LineOrPoint M_Splay M_Slab M_Active M_Sweep M_Crossings.
From Verif Require Import S_Geo P_Geo P_LineOrPoint P_Tilt P_Slab P_Active P_Chain P_Bundle P_Tile P_Heap P_Order P_Inv P_Store P_Handle P_LL P_Step.
Import Datatypes.
Import ListNotations.
Local Open Scope nat_scope.

Lemma adj_and : forall {X} (R1 R2 : X -> X -> Prop) l, adj R1 l -> adj R2 l -> adj (fun a b => R1 a b /\ R2 a b) l.
Proof.
  intros X R1 R2 l. induction l as [|a l IH]; [auto|]. destruct l as [|b l]; [auto|].
  intros A B. apply adj_cons in A as [A1 A2]. apply adj_cons in B as [B1 B2]. apply adj_cons. split; auto.
Qed.

Section Run.
Variables (ln : nat -> line) (tie : nat -> nat) (n : nat) (e : Qc) (V : list pt).
Hypothesis HT : tilts e (fun p => In p V).
Hypothesis HV1 : forall c a z, c < n -> geo ln c = Line a z -> In a V /\ In z V.
Hypothesis HV2 : forall c c' a z a' z' r, c < n -> c' < n -> geo ln c = Line a z -> geo ln c' = Line a' z' ->
  on_seg a z r -> on_seg a' z' r -> (forall r', on_seg a z r' -> on_seg a' z' r' -> r' = r) -> In r V.
Context {ar : arith} {fa : faithful ar ln n}.
Hypothesis HV3 : forall v, In v V ->
  (exists c, c < n /\ geo ln c = Point v) \/
  (exists c a z, c < n /\ geo ln c = Line a z /\ (v = a \/ v = z)) \/
  (exists c c' a z a' z', c < n /\ c' < n /\ geo ln c = Line a z /\ geo ln c' = Line a' z' /\
     on_seg a z v /\ on_seg a' z' v /\ forall r', on_seg a z r' -> on_seg a' z' r' -> r' = v).
Notation core := (core ln n V).
Notation good := (good V).
Notation Ord := (Ord e V).
Notation tl := (tilt e).
Notation H := (H e).
Notation K := (K e).
Notation base := (base ln n V).
Notation lst := (lst ln n e V).
Notation rst := (rst ln n e V).
Notation stt := (stt ln n e V).
Notation nopass := (nopass e).
Notation Nok := (Nok V).

Lemma geo_lt : forall c a z, geo ln c = Line a z -> lex_lt a z.
Proof. intros c a z E. destruct (lop_of_line_spec (ln c)) as [W _]. unfold geo in E. rewrite E in W. exact W. Qed.

(** Nothing happens between two points of [V], so the order stays. *)
Lemma ord_L_to_R : forall p0 p1 (act : list bundle), Ord p0 PL act [] -> In p0 V -> In p1 V -> lex_lt p0 p1 ->
  (forall u, In u act -> lex_le p1 (b_q u)) -> Ord p1 PR act [].
Proof.
  intros p0 p1 act (R & P & A) V0 V1 L01 Q. rewrite Forall_forall in R.
  assert (L : (tl p0 < tl p1)%Qc) by (apply (tl_lt e V HT); auto).
  assert (R' : Forall (inrange V p1 PR) act).
  { apply Forall_forall. intros u Iu. destruct (R u Iu) as (G & _ & Pu). split; [exact G|split; [auto|]]. lord. }
  assert (Cl : adj (@clean nat) act).
  { eapply adj_impl; [|exact A]. intros a b _ _ [C|[_ (w & [] & _)]]. exact C. }
  assert (F : ForallOrdPairs (fun u v => (H u (tl p1) <= H v (tl p1))%Qc /\ (H u (tl p1) = H v (tl p1) -> b_q u = p1 /\ b_q v = p1)) act).
  { apply adj_FOP.
    - intros a b c _ _ _ [L1 E1] [L2 E2]. split; [eapply Qcle_trans; eauto|]. intros E.
      assert (Eab : H a (tl p1) = H b (tl p1)) by (apply Qcle_antisym; [auto|rewrite E; auto]).
      split; [apply E1; auto|]. apply E2. congruence.
    - eapply adj_impl; [|apply adj_and; [exact Cl|apply FOP_adj; exact P]]. intros u v Iu Iv [C [_ [Kl _]]].
      destruct (R u Iu) as (Gu & Qu & Pu). destruct (R v Iv) as (Gv & Qv & Pv). pose proof (Q u Iu) as Qu1. pose proof (Q v Iv) as Qv1.
      pose proof (H_diff e u v (tl p0) (tl p1)) as D.
      assert (Tu : (tl (b_p u) <= tl p0)%Qc) by (apply (tl_le e V HT); [apply Gu|auto|auto]).
      assert (Tv : (tl (b_p v) <= tl p0)%Qc) by (apply (tl_le e V HT); [apply Gv|auto|auto]).
      assert (Su : (tl p1 <= tl (b_q u))%Qc) by (apply (tl_le e V HT); [auto|apply Gu|auto]).
      assert (Sv : (tl p1 <= tl (b_q v))%Qc) by (apply (tl_le e V HT); [auto|apply Gv|auto]).
      apply K_lt_iff in Kl. destruct (Qc_trichotomy (H u (tl p1)) (H v (tl p1))) as [[Lt|Gt]|E].
      + split; [apply Qclt_le_weak; exact Lt|]. intros E. rewrite E in Lt. destruct (Qclt_not_eq _ _ Lt eq_refl).
      + split; [rewrite Gt; apply Qcle_refl|]. intros _.
        destruct (meet_at e V HT u v (tl p1)) as (r & Ou & Ov & Tr & _); auto; try qcl.
        destruct (C r Ou Ov) as [[-> _]|[E1 E2]]; [exfalso; qcl|].
        split; apply (tl_eq e V HT); auto; try apply Gu; try apply Gv; congruence.
      + exfalso. destruct Kl as [Kl|[Kl1 Kl2]]; [|rewrite Kl1 in D; qc].
        set (D0 := (H v (tl p0) - H u (tl p0))%Qc) in *. set (D1 := (H u (tl p1) - H v (tl p1))%Qc).
        assert (PD : (0 < D0 + D1)%Qc) by (unfold D0, D1; qcl).
        set (l := (tl p0 + D0 * (tl p1 - tl p0) / (D0 + D1))%Qc).
        assert (Hl : H u l = H v l).
        { pose proof (H_diff e u v (tl p0) l) as Dl. fold D0 in Dl.
          assert (E0 : ((D0 + D1) * (H v l - H u l) = 0)%Qc).
          { rewrite Dl. unfold l.
            assert (Sl : ((tl p1 - tl p0) * (P_Order.S e v - P_Order.S e u) = - (D0 + D1))%Qc) by (unfold D1; qc).
            assert (N : (D0 + D1 <> 0)%Qc) by (intro Z; rewrite Z in PD; destruct (Qclt_not_eq _ _ PD eq_refl)).
            transitivity ((D0 + D1) * D0 + D0 * ((tl p1 - tl p0) * (P_Order.S e v - P_Order.S e u)))%Qc; [field; auto|]. rewrite Sl. ring. }
          apply Qcmult_integral in E0 as [E0|E0]; [rewrite E0 in PD; destruct (Qclt_not_eq _ _ PD eq_refl)|].
          qcl. }
        assert (El : ((l - tl p0) * (D0 + D1) = D0 * (tl p1 - tl p0))%Qc).
        { unfold l. field. intro Z; rewrite Z in PD; destruct (Qclt_not_eq _ _ PD eq_refl). }
        assert (PD0 : (0 < D0)%Qc) by (unfold D0; qcl). assert (PD1 : (0 < D1)%Qc) by (unfold D1; qcl).
        assert (Ll : (tl p0 < l)%Qc) by (clearbody D0 D1 l; clear - El PD PD0 PD1 L; qc).
        assert (Lr : (l < tl p1)%Qc) by (clearbody D0 D1 l; clear - El PD PD0 PD1 L; qc).
        destruct (meet_at e V HT u v l) as (r & Ou & Ov & Tr & _); auto; try (clearbody l; qcl).
        destruct (C r Ou Ov) as [[-> _]|[-> _]]; rewrite Tr in *; clearbody l; [clear - Tu Ll; qcl|clear - Su Lr; qcl]. }
  split; [exact R'|]. split.
  - assert (F2 : ForallOrdPairs (fun u v => pair_ok e p0 PL u v /\ ((H u (tl p1) <= H v (tl p1))%Qc /\ (H u (tl p1) = H v (tl p1) -> b_q u = p1 /\ b_q v = p1))) act).
    { clear - P F. induction P as [|u l Fu P IH]; [constructor|]. inversion F; subst. constructor; auto.
      rewrite Forall_forall in *. auto. }
    eapply FOP_impl; [|exact F2]. intros u v _ _ [[B _] X]. split; [exact B|exact X].
  - eapply adj_impl; [|exact Cl]. intros a b _ _ C. left. exact C.
Qed.

(** ** A point with nothing left *)
Record dst (p0 : pt) (mu : nat) (sw : sweep) (act pend : list bundle) (pts ppend : list pin) (past : list crossing) : Prop := {
  dt_base : base p0 mu sw act [] pend pts ppend past;
  dt_ord : Ord p0 PL act [];
  dt_lr : lrs (sw_events sw) (act ++ pend);
  dt_hb : forall ev, In ev (sw_events sw) -> lex_lt p0 (ev_point ev);
  dt_N : Nok p0 act
}.
Lemma stt_done : forall p0 mu sw act pend pts ppend past, stt p0 mu sw act pend pts ppend past ->
  (forall ev, In ev (sw_events sw) -> lex_lt p0 (ev_point ev)) -> dst p0 mu sw act pend pts ppend past.
Proof.
  intros p0 mu sw act pend pts ppend past [[R|L] _] HB.
  - destruct R as [R1 R2 R3 R4 R5]. constructor; auto. apply (ord_R_to_L e V); auto. intros u Iu.
    apply (HB (ev_LR (b_q u) u)). apply R3. apply in_or_app; auto.
  - destruct L as [L1 L2 L3 L4 L5]. constructor; auto. eapply ord_adj_imp; [exact L2|]. intros u v _ _ [C|[_ (w & Iw & Pw & _)]]; [left; auto|].
    exfalso. pose proof (HB _ (LL_in ln tie n V _ _ _ _ _ _ _ _ w (ba_core _ _ _ _ _ _ _ _ _ _ _ _ L1) Iw)) as Q. cbn [evLL ev_LL ev_point] in Q. rewrite Pw in Q. lord.
Qed.

Lemma crpt_end : forall (r : crossing) x y, cr_left r = false -> cr_line r = Line x y -> crpt r = y.
Proof. intros r x y E1 E2. unfold crpt. rewrite E1, E2. reflexivity. Qed.

Lemma gap : forall v mu sl heap log act pend pts ppend,
  core mu sl heap log (act ++ pend) pend pts ppend -> In v V ->
  (forall x, In x log -> lex_lt (crpt x) v) -> (forall ev, In ev heap -> lex_lt v (ev_point ev)) ->
  lrs heap (act ++ pend) -> (forall u, In u act -> lex_lt (b_p u) v) ->
  (forall u u', In u act -> In u' act -> onb u v -> onb u' v -> u = u') -> False.
Proof.
  intros v mu sl heap log act pend pts ppend Co Vv HL HH LR HP HU.
  assert (LLv : forall b, In b pend -> lex_lt v (b_p b)) by (intros b Ib; exact (HH _ (LL_in ln tie n V _ _ _ _ _ _ _ _ b Co Ib))).
  assert (LRv : forall b, In b (act ++ pend) -> lex_lt v (b_q b)) by (intros b Ib; exact (HH _ (LR b Ib))).
  assert (EE : forall c x y, In (x, y) (ended c log) -> lex_lt y v).
  { intros c x y I. apply ended_in in I as (r & Ir & _ & E1 & E2). rewrite <- (crpt_end r x y E1 E2). auto. }
  assert (Ends : forall c a z, c < n -> geo ln c = Line a z -> v = a \/ v = z -> False).
  { intros c a z Lc Gc [->| ->]; pose proof (co_tile _ _ _ _ _ _ _ _ _ _ _ Co c a z Lc Gc) as T; pose proof (geo_lt c a z Gc) as Laz.
    - destruct (tile_cover_l V a z _ a T (lex_le_refl _) Laz) as (x & y & I & L1 & L2).
      destruct (tile_piece V a z _ x y T I) as (_ & _ & _ & _ & _ & L3 & _).
      apply in_app_iff in I as [I|I]; [apply EE in I; lord|]. apply current_in in I as (b & m & Ib & _ & _ & -> & ->).
      apply in_app_iff in Ib as [Ib|Ib]; [pose proof (HP b Ib); lord|pose proof (LLv b Ib); lord].
    - destruct (tile_cover_r V a z _ z T Laz (lex_le_refl _)) as (x & y & I & L1 & L2).
      destruct (tile_piece V a z _ x y T I) as (_ & _ & _ & _ & _ & _ & L3).
      apply in_app_iff in I as [I|I]; [apply EE in I; lord|]. apply current_in in I as (b & m & Ib & _ & _ & -> & ->).
      pose proof (LRv b Ib); lord. }
  assert (Mid : forall c a z, c < n -> geo ln c = Line a z -> on_seg a z v ->
     exists b, In b act /\ onb b v /\ on_seg a z (b_p b)).
  { intros c a z Lc Gc Ov. pose proof (co_tile _ _ _ _ _ _ _ _ _ _ _ Co c a z Lc Gc) as T. pose proof (geo_lt c a z Gc) as Laz.
    destruct (on_seg_between a z v Laz Ov) as [B1 B2].
    assert (N2 : v <> z) by (intros ->; eapply Ends; eauto).
    destruct (tile_cover_l V a z _ v T B1) as (x & y & I & L1 & L2); [apply lex_le_neq; auto|].
    destruct (tile_piece V a z _ x y T I) as (Lxy & _ & _ & Ox & Oy & _ & _).
    apply in_app_iff in I as [I|I]; [apply EE in I; lord|]. apply current_in in I as (b & m & Ib & _ & _ & -> & ->).
    apply in_app_iff in Ib as [Ib|Ib]; [|pose proof (LLv b Ib); lord].
    exists b. split; auto. split; auto. apply (on_seg_mid a z); auto. apply lex_lt_le; auto. }
  destruct (HV3 v Vv) as [(c & Lc & Gc)|[(c & a & z & Lc & Gc & Ev)|(c & c' & a & z & a' & z' & Lc & Lc' & Gc & Gc' & O1 & O2 & U)]].
  - assert (I : In (c, v) (ptlog log ++ map pin_cp ppend)).
    { eapply Permutation_in; [symmetry; eapply co_pts; exact Co|]. apply PTS_in. auto. }
    apply in_app_iff in I as [I|I].
    + apply ptlog_in in I as (r & Ir & _ & E). pose proof (HL r Ir) as L. unfold crpt in L. rewrite E in L. lord.
    + apply in_map_iff in I as (x & Ex & Ix). pose proof (HH _ (PL_in ln tie n V _ _ _ _ _ _ _ _ x Co Ix)) as L.
      destruct x as [[k cx] px]. cbn [pin_cp] in Ex. injection Ex as -> ->. cbn [evPL ev_point] in L. lord.
  - eapply Ends; eauto.
  - destruct (Mid c a z Lc Gc O1) as (b & Ib & Ob & Pb). destruct (Mid c' a' z' Lc' Gc' O2) as (b' & Ib' & Ob' & Pb').
    pose proof (HU b b' Ib Ib' Ob Ob'). subst b'. pose proof (U _ Pb Pb') as E. pose proof (HP b Ib) as L. rewrite E in L. lord.
Qed.

(** Every point the sweep stops at is reported. *)
Lemma out_ne : forall p0 mu sw act pend pts ppend past, dst p0 mu sw act pend pts ppend past -> In p0 V -> sw_out sw <> [].
Proof.
  intros p0 mu sw act pend pts ppend past [Ba Or LR HB HN] V0 E. pose proof (ba_core _ _ _ _ _ _ _ _ _ _ _ _ Ba) as Co. cbn [app] in Co.
  rewrite E, app_nil_r in Co. pose proof (ba_past _ _ _ _ _ _ _ _ _ _ _ _ Ba) as Pa.
  assert (Pu : forall u, In u act -> lex_lt (b_p u) p0).
  { intros u Iu. destruct Or as (R & _). rewrite Forall_forall in R. destruct (R u Iu) as (_ & _ & Q). cbv beta iota in Q.
    destruct (pt_dec (b_p u) p0) as [Ep|Np]; [|apply lex_le_neq; auto]. exfalso.
    assert (Iu' : In u (act ++ pend)) by (apply in_or_app; auto).
    pose proof (co_ne _ _ _ _ _ _ _ _ _ _ _ Co u Iu') as Nm. destruct (b_mem u) as [|m ms] eqn:Em; [contradiction|].
    assert (I : In (b_p u) (started (m_c m) past)).
    { pose proof (ba_start _ _ _ _ _ _ _ _ _ _ _ _ Ba (m_c m)) as St. rewrite E, app_nil_r in St. eapply Permutation_in; [symmetry; exact St|].
      rewrite map_app. apply in_or_app; right. apply in_map_iff. exists (b_p u, b_q u). split; auto.
      eapply in_current; eauto. rewrite Em. left; auto. }
    apply started_in in I as (r & Ir & _ & El & Ef). pose proof (Pa r Ir) as L.
    unfold crpt in L. rewrite El in L. destruct (cr_line r); cbn [lop_first] in Ef; rewrite Ef, Ep in L; lord. }
  apply (gap p0 _ _ _ _ _ _ _ _ Co V0); auto.
  intros u u' Iu Iu' Ou Ou'. destruct Or as (R & P & _). rewrite Forall_forall in R.
  pose proof (onb_H e V HT u p0 (proj1 (R u Iu)) Ou) as E1. pose proof (onb_H e V HT u' p0 (proj1 (R u' Iu')) Ou') as E2.
  destruct (ForallOrdPairs_In P u u' Iu Iu') as [Eq|[[_ [_ Q]]|[_ [_ Q]]]]; auto.
  - exfalso. destruct Q as [Q _]; [congruence|]. pose proof (Pu u Iu) as L. rewrite Q in L. lord.
  - exfalso. destruct Q as [Q _]; [congruence|]. pose proof (Pu u' Iu') as L. rewrite Q in L. lord.
Qed.

(** On to the next point. *)
Lemma to_next : forall p0 p1 mu sw act pend pts ppend past, dst p0 mu sw act pend pts ppend past -> nopass p0 act ->
  In p0 V -> peek_point sw = Some p1 ->
  In p1 V /\ lex_lt p0 p1 /\ rst p1 mu (set_out [] sw) act pend pts ppend (past ++ sw_out sw) /\
  (forall v, In v V -> lex_lt p0 v -> lex_lt v p1 -> False).
Proof.
  intros p0 p1 mu sw act pend pts ppend past D NP V0 Ep. pose proof D as [Ba Or LR HB HN]. destruct (peek_in _ _ Ep) as [(ev & Iev & Eev) Mn].
  pose proof (ba_core _ _ _ _ _ _ _ _ _ _ _ _ Ba) as Co. cbn [app] in Co.
  assert (V1 : In p1 V) by (rewrite <- Eev; eapply co_evV; eauto).
  assert (L01 : lex_lt p0 p1) by (rewrite <- Eev; auto).
  assert (Qu : forall u, In u act -> lex_le p1 (b_q u)).
  { intros u Iu. apply (Mn (ev_LR (b_q u) u)). apply LR. apply in_or_app; auto. }
  assert (HL : forall x, In x (past ++ sw_out sw) -> lex_le (crpt x) p0).
  { intros x Ix. apply in_app_iff in Ix as [Ix|Ix]; [apply lex_lt_le; eapply ba_past; eauto|]. erewrite ba_out by eauto. apply lex_le_refl. }
  assert (Rg : forall u, In u act -> good u /\ lex_le (b_p u) p0).
  { intros u Iu. destruct Or as (R & _). rewrite Forall_forall in R. destruct (R u Iu) as (? & _ & ?). auto. }
  assert (NoV : forall v, In v V -> lex_lt p0 v -> lex_lt v p1 -> False).
  { intros v Vv L1 L2. apply (gap v _ _ _ _ _ _ _ _ Co Vv); auto.
    - intros x Ix. pose proof (HL x Ix). lord.
    - intros x Ix. pose proof (Mn x Ix). lord.
    - intros u Iu. destruct (Rg u Iu). lord.
    - intros u u' Iu Iu' Ou Ou'.
      destruct (ord_L_to_R p0 v act Or V0 Vv L1) as (_ & P & _).
      { intros w Iw. pose proof (Qu w Iw). apply lex_lt_le. lord. }
      pose proof (onb_H e V HT u v (proj1 (Rg u Iu)) Ou) as E1. pose proof (onb_H e V HT u' v (proj1 (Rg u' Iu')) Ou') as E2.
      destruct (ForallOrdPairs_In P u u' Iu Iu') as [Eq|[[_ [_ Q]]|[_ [_ Q]]]]; auto.
      + exfalso. destruct Q as [Q _]; [congruence|]. pose proof (Qu u Iu) as L. rewrite Q in L. lord.
      + exfalso. destruct Q as [Q _]; [congruence|]. pose proof (Qu u' Iu') as L. rewrite Q in L. lord. }
  split; [exact V1|]. split; [exact L01|]. split; [|exact NoV]. constructor.
  - destruct Ba as [B1 B2 B3 B4 B5 B6 B7 B8 B9]. constructor; auto; cbn [set_out sw_segs sw_events sw_out sw_active]; rewrite ?app_nil_r; auto.
    + intros x Ix. pose proof (HL x Ix). lord.
    + intros x [].
    + exact I.
    + split; [intros x []|]. intros u Iu Pu. exfalso. destruct (Rg u Iu) as [_ L]. rewrite Pu in L. lord.
  - eapply ord_L_to_R; eauto.
  - exact LR.
  - exact Mn.
  - intros u v Iu Vv Ov Lv. destruct (lex_le_dec p1 v) as [Q|Q]; [exact Q|exfalso].
    pose proof (HN u v Iu Vv Ov Lv) as L0. destruct (pt_dec p0 v) as [<-|Nv].
    + apply (NP u Iu Lv); [pose proof (Qu u Iu); lord|]. apply (onb_H e V HT); [apply Rg; auto|auto].
    + apply (NoV v Vv); auto. apply lex_le_neq; auto.
Qed.

(** ** What the reports amount to in the end *)
Record final (log : list crossing) : Prop := {
  fi_tile : forall c a z, c < n -> geo ln c = Line a z -> tile V a z (ended c log);
  fi_start : forall c, Permutation (started c log) (map fst (ended c log));
  fi_pts : Permutation (ptlog log) (PTS ln n);
  fi_log : forall x, In x log -> cr_cross x < n /\
     match cr_line x with
     | Point p => geo ln (cr_cross x) = Point p /\ cr_left x = false /\ cr_overlap x = false
     | Line p y => exists a z, geo ln (cr_cross x) = Line a z /\ lex_lt p y /\ In p V /\ In y V /\ on_seg a z p /\ on_seg a z y
     end /\ (cr_first x = true -> lop_first (cr_line x) = lop_first (geo ln (cr_cross x)));
  fi_fine : forall c p q v, In (p, q) (ended c log) -> In v V -> on_seg p q v -> lex_lt p v -> lex_lt v q -> False
}.
Lemma core_final : forall mu sl log allb pend pts ppend, core mu sl [] log allb pend pts ppend -> allb = [] -> ppend = [] ->
  (forall c, Permutation (started c log) (map fst (ended c log))) -> final log.
Proof.
  intros mu sl log allb pend pts ppend Co -> -> St. destruct Co as [A1 A2 A3 A4 A5 A6 A7 A8 A9 A10 A11 A12 A13 A14 A15]. constructor; auto.
  - intros c a z Lc Gc. pose proof (A10 c a z Lc Gc) as T. cbn [current flat_map] in T. rewrite app_nil_r in T. exact T.
  - cbn [map] in A11. rewrite app_nil_r in A11. exact A11.
Qed.
Lemma base_final : forall p0 mu (sw : sweep) act pend pts ppend past, base p0 mu sw act [] pend pts ppend past ->
  lrs (sw_events sw) (act ++ pend) -> sw_events sw = [] -> final (past ++ sw_out sw).
Proof.
  intros p0 mu sw act pend pts ppend past Ba LR E. pose proof (ba_core _ _ _ _ _ _ _ _ _ _ _ _ Ba) as Co. cbn [app] in Co. rewrite E in *.
  assert (Eb : act ++ pend = []) by (destruct (act ++ pend) as [|b l] eqn:Q; [auto|destruct (LR b (or_introl eq_refl))]).
  assert (Ep : ppend = []) by (destruct ppend as [|x l]; [auto|destruct (PL_in ln tie n V _ _ _ _ _ _ _ _ x Co (or_introl eq_refl))]).
  eapply core_final; [exact Co|exact Eb|exact Ep|]. intros c. pose proof (ba_start _ _ _ _ _ _ _ _ _ _ _ _ Ba c) as St.
  apply app_eq_nil in Eb as [-> _]. cbn [current flat_map] in St. rewrite app_nil_r in St. exact St.
Qed.

(** Between two calls of next(). *)
Definition rdy (mu : nat) (sw : sweep) (past : list crossing) : Prop :=
  (exists p1 act pend pts ppend, peek_point sw = Some p1 /\ In p1 V /\ rst p1 mu (set_out [] sw) act pend pts ppend past) \/
  (sw_events sw = [] /\ final past).

Lemma next_ok : forall mu sw past fuel, rdy mu sw past -> mu < fuel ->
  (exists sw' p1 mu', ci_next ln tie fuel sw = Ok (sw', Some p1) /\ S mu' <= mu /\ In p1 V /\ sw_out sw' <> [] /\
     (forall x, In x (sw_out sw') -> crpt x = p1) /\ ovl_ok (sw_out sw') /\ (forall x, In x past -> lex_lt (crpt x) p1) /\
     rdy mu' sw' (past ++ sw_out sw')) \/
  (ci_next ln tie fuel sw = Ok (set_out [] sw, None) /\ sw_events sw = [] /\ final past).
Proof.
  intros mu sw past fuel [(p1 & act & pend & pts & ppend & Ep & V1 & R)|[E F]] Lf.
  - left. destruct (peek_in _ _ Ep) as [Ex _].
    assert (S0 : stt p1 mu (set_out [] sw) act pend pts ppend past) by (split; [left; exact R|intros Q; destruct Q; reflexivity]).
    assert (Ep0 : peek_point (set_out [] sw) = Some p1) by exact Ep.
    destruct fuel as [|fuel]; [lia|]. unfold ci_next. rewrite Ep0. cbn [ci_loop]. rewrite Ep0. cbn [opt_peqb].
    destruct (peqb_spec p1 p1) as [_|N]; [|contradiction]. cbn [andb].
    destruct (step ln tie n e V HT HV1 HV2 p1 V1 _ _ _ _ _ _ _ S0 Ex) as (sw1 & mu1 & act1 & pend1 & ppend1 & E1 & Lm1 & S1).
    rewrite E1. cbn [bind].
    destruct (loop ln tie n e V HT HV1 HV2 p1 V1 mu1 fuel _ _ _ _ _ _ S1 ltac:(lia)) as (sw2 & mu2 & act2 & pend2 & ppend2 & E2 & Lm2 & S2 & HB).
    rewrite E2. cbn [bind].
    pose proof (stt_done _ _ _ _ _ _ _ _ S2 HB) as D. pose proof (out_ne _ _ _ _ _ _ _ _ D V1) as Ne.
    pose proof (dt_base _ _ _ _ _ _ _ _ D) as Ba.
    exists sw2, p1, mu2. split; [destruct (sw_out sw2); [contradiction|reflexivity]|]. split; [lia|]. split; [exact V1|]. split; [exact Ne|].
    split; [apply (ba_out _ _ _ _ _ _ _ _ _ _ _ _ Ba)|]. split; [apply (ba_ovl _ _ _ _ _ _ _ _ _ _ _ _ Ba)|]. split; [apply (ba_past _ _ _ _ _ _ _ _ _ _ _ _ Ba)|].
    destruct (peek_point sw2) as [p2|] eqn:Ep2.
    + left. destruct (to_next p1 p2 _ _ _ _ _ _ _ D (proj2 S2 Ne) V1 Ep2) as (V2 & _ & R2 & _). exists p2, act2, pend2, pts, ppend2. auto.
    + right. apply peek_none in Ep2. split; [exact Ep2|]. eapply base_final; [exact Ba|apply D|exact Ep2].
  - right. split; [|auto]. unfold ci_next. assert (Ep : peek_point (set_out [] sw) = None).
    { unfold peek_point. cbn [set_out sw_events]. rewrite E. reflexivity. }
    rewrite Ep. destruct fuel as [|fuel]; [lia|]. cbn [ci_loop]. rewrite Ep. reflexivity.
Qed.

(** ** The start *)
Hypothesis HV0 : forall c v, c < n -> geo ln c = Point v -> In v V.
Definition newb (k : nat) (a z : pt) (c : nat) : bundle := mkB a z [mkMem k c true false].
Lemma PTS_S : forall k, PTS ln (S k) = PTS ln k ++ match geo ln k with Point p => [(k, p)] | Line _ _ => [] end.
Proof. intros k. unfold PTS. rewrite seq_S, flat_map_app. cbn [flat_map]. rewrite app_nil_r. reflexivity. Qed.

Lemma fold_res_app : forall {A B} (f : B -> A -> res B) l l' s, fold_res f s (l ++ l') = (let* s' := fold_res f s l in fold_res f s' l').
Proof.
  intros A B f l. induction l as [|x l IH]; intros l' s; [reflexivity|]. cbn [app fold_res]. destruct (f s x); cbn [bind]; auto.
Qed.
Lemma current_none : forall c bs, (forall b m, In b bs -> In m (b_mem b) -> m_c m <> c) -> current c bs = [].
Proof.
  intros c bs N. destruct (current c bs) as [|[x y] l] eqn:E; [reflexivity|]. exfalso.
  assert (I : In (x, y) (current c bs)) by (rewrite E; left; auto). apply current_in in I as (b & m & Ib & Im & Em & _). eapply N; eauto.
Qed.
Lemma init_ok : forall k, k <= n -> exists sw pend pts,
  fold_res (fun sw c => let* (sw', _) := create_segment ln sw c None None in Ok sw') (mkSweep slab_new [] active_new [] 0) (seq 0 k) = Ok sw /\
  sw_active sw = active_new /\ sw_out sw = [] /\
  P_Inv.core ln k V (2 * k + 4 * (k * List.length V)) (sw_segs sw) (sw_events sw) [] pend pend pts pts /\
  lrs (sw_events sw) pend /\ (forall b m, In b pend -> In m (b_mem b) -> m_done m = false) /\
  List.length (sw_events sw) = 2 * k.
Proof.
  induction k as [|k IH]; intros Lk.
  - eexists _, [], []. split; [reflexivity|]. split; [reflexivity|]. split; [reflexivity|]. split; [|split; [intros b []|split; [intros b m []|reflexivity]]].
    constructor; cbn [sw_segs sw_events flat_map map app filter]; try (intros; lia); try (intros; simpl in *; contradiction); auto.
    + apply srep_new.
    + apply incl_refl.
  - destruct IH as (sw & pend & pts & E & Ea & Eo & Co & LR & Nd & Ln); [lia|].
    rewrite seq_S. rewrite fold_res_app. rewrite E. cbn [bind fold_res plus]. unfold create_segment, segment_new. cbn [bind].
    set (sg := mkSeg (lop_of_line (ln k)) (slab_vacant_key (sw_segs sw)) k true false None false).
    destruct (srep_insert _ _ sg (co_srep _ _ _ _ _ _ _ _ _ _ _ Co)) as (sl' & Es & Sr & _).
    rewrite Es. cbn [bind]. unfold right_event, left_event. cbn [sg sg_geom sg_key]. set (key := slab_vacant_key (sw_segs sw)) in *.
    change (lop_of_line (ln k)) with (geo ln k) in *.
    destruct Co as [A1 A2 A3 A4 A5 A6 A7 A8 A9 A10 A11 A12 A13 A14 A15].
    destruct (geo ln k) as [p|a z] eqn:Gk.
    + eexists _, pend, ((key, k, p) :: pts). split; [reflexivity|]. cbn [push set_events set_segs heap_push sw_active sw_out sw_segs sw_events].
      split; [exact Ea|]. split; [exact Eo|]. split; [constructor|split; [|split; [exact Nd|]]].
      * eapply srep_perm; [|exact Sr]. cbn [map pcell]. apply Permutation_middle.
      * exact A2.
      * cbn [filter isLL ty_eqb ev_ty]. exact A3.
      * cbn [filter isPL ty_eqb ev_ty map evPL]. constructor. exact A4.
      * intros ev [<-|[<-|I]] Ty; [|discriminate Ty|].
        -- exists key, k, p. split; [left; auto|auto].
        -- destruct (A5 ev I Ty) as (k' & c & q & I' & ->). exists k', c, q. split; [right; auto|auto].
      * intros ev [<-|[<-|I]]; [| |auto]; cbn [ev_point]; apply (HV0 k); auto.
      * apply incl_refl.
      * intros k' c q [I|I]; [injection I as <- <- <-; auto|]. destruct (A8 k' c q I). split; auto.
      * intros b m Ib Im. destruct (A9 b m Ib Im). split; auto.
      * intros c a z Lc Gc. assert (c <> k) by congruence. apply A10; [lia|auto].
      * rewrite PTS_S, Gk. cbn [map pin_cp]. rewrite <- A11. apply (Permutation_app_comm [(k, p)]).
      * exact A12.
      * intros x [].
      * intros c p0 q v [].
      * unfold heap_push. cbn [List.length]. rewrite Ln. lia.
      * intros b Ib. right; right. auto.
      * unfold heap_push. cbn [List.length]. rewrite Ln. lia.
    + pose proof (geo_lt _ _ _ Gk) as Laz. destruct (HV1 k a z ltac:(lia) Gk) as [Va Vz].
      eexists _, (newb key a z k :: pend), pts. split; [reflexivity|]. cbn [push set_events set_segs heap_push sw_active sw_out sw_segs sw_events].
      split; [exact Ea|]. split; [exact Eo|]. split; [constructor|split; [|split]].
      * exact Sr.
      * intros b [<-|Ib]; [discriminate|auto].
      * cbn [filter isLL ty_eqb ev_ty map evLL ev_LL]. constructor. exact A3.
      * cbn [filter isPL ty_eqb ev_ty]. exact A4.
      * intros ev [<-|[<-|I]] Ty; [discriminate Ty|discriminate Ty|]. auto.
      * intros ev [<-|[<-|I]]; [| |auto]; cbn [ev_point]; auto.
      * apply incl_refl.
      * intros k' c q I. destruct (A8 k' c q I). split; auto.
      * intros b m [<-|Ib] Im; [|destruct (A9 b m Ib Im); split; auto]. destruct Im as [<-|[]]. cbn [m_c]. split; [lia|]. eauto.
      * intros c a' z' Lc Gc. cbn [ended flat_map app]. change (newb key a z k :: pend) with ([newb key a z k] ++ pend). rewrite current_app.
        destruct (Nat.eq_dec c k) as [->|N].
        -- rewrite (current_none k pend).
           ++ cbn [current flat_map newb b_mem filter m_c b_p b_q]. rewrite Nat.eqb_refl. cbn [map app]. rewrite Gc in Gk. injection Gk as -> ->. apply tile_init; auto.
           ++ intros b m Ib Im. destruct (A9 b m Ib Im). lia.
        -- cbn [current flat_map newb b_mem filter m_c]. destruct (Nat.eqb_spec k c) as [Q|_]; [congruence|]. cbn [map app].
           apply (A10 c a' z'); [lia|auto].
      * rewrite PTS_S, Gk, app_nil_r. exact A11.
      * intros b m [<-|Ib] Im Fm; [|apply (A12 b m Ib Im Fm)]. destruct Im as [<-|[]]. cbn [m_c]. rewrite Gk. reflexivity.
      * intros x [].
      * intros c p0 q v [].
      * unfold heap_push. cbn [List.length]. rewrite Ln. lia.
      * intros b [<-|Ib]; [left; reflexivity|right; right; auto].
      * intros b m [<-|Ib] Im; [|eapply Nd; eauto]. destruct Im as [<-|[]]. reflexivity.
      * unfold heap_push. cbn [List.length]. rewrite Ln. lia.
Qed.

Definition bound : nat := 2 * n + 4 * (n * List.length V).
Lemma start_ok : exists sw, ci_from_iter ln (seq 0 n) = Ok sw /\ sw_out sw = [] /\ rdy bound sw [].
Proof.
  destruct (init_ok n (le_n n)) as (sw & pend & pts & E & Ea & Eo & Co & LR & Nd & _). exists sw. split; [exact E|]. split; [exact Eo|].
  assert (Ba : forall p, base p bound (set_out [] sw) [] [] pend pts pts []).
  { intros p. constructor; cbn [set_out sw_segs sw_events sw_active sw_out app]; auto; try (intros x []; fail).
    - rewrite Ea. apply holds_new.
    - exact I.
    - split; [intros x []|intros u []]. }
  unfold rdy. destruct (peek_point sw) as [p1|] eqn:Ep.
  - left. destruct (peek_in _ _ Ep) as [(ev & Iev & Eev) Mn]. exists p1, [], pend, pts, pts. split; auto.
    split; [rewrite <- Eev; eapply co_evV; eauto|]. constructor; auto.
    + split; [constructor|split; [constructor|exact I]].
    + intros u v [].
  - right. apply peek_none in Ep. split; [exact Ep|]. assert (Q : sw_events (set_out [] sw) = []) by exact Ep.
    pose proof (base_final (l_start (ln 0)) bound (set_out [] sw) [] pend pts pts [] (Ba _)) as F. apply F; [exact LR|exact Q].
Qed.

(** ** The whole run *)
Inductive yields (fuel : nat) : sweep -> list (pt * list crossing) -> sweep -> Prop :=
| yields_nil : forall sw sw', ci_next ln tie fuel sw = Ok (sw', None) -> yields fuel sw [] sw'
| yields_cons : forall sw sw' p ys sw'', ci_next ln tie fuel sw = Ok (sw', Some p) -> yields fuel sw' ys sw'' ->
    yields fuel sw ((p, sw_out sw') :: ys) sw''.
Record ygood (ys : list (pt * list crossing)) : Prop := {
  yg_sorted : StronglySorted lex_lt (map fst ys);
  yg_V : forall p o, In (p, o) ys -> In p V;
  yg_ne : forall p o, In (p, o) ys -> o <> [];
  yg_pt : forall p o x, In (p, o) ys -> In x o -> crpt x = p;
  yg_ovl : forall p o, In (p, o) ys -> ovl_ok o
}.
Lemma run_ok : forall mu sw past fuel, rdy mu sw past -> mu < fuel ->
  exists ys sw', yields fuel sw ys sw' /\ List.length ys <= mu /\ ygood ys /\ (forall p o x, In (p, o) ys -> In x past -> lex_lt (crpt x) p) /\
    final (past ++ List.concat (map snd ys)) /\ sw_events sw' = [] /\ sw_out sw' = [].
Proof.
  induction mu as [mu IH] using lt_wf_ind. intros sw past fuel R Lf.
  destruct (next_ok mu sw past fuel R Lf) as [(sw1 & p1 & mu1 & E & Lm & V1 & Ne & Pt & Ov & Pa & R1)|(E & Ee & F)].
  - destruct (IH mu1 ltac:(lia) sw1 _ fuel R1 ltac:(lia)) as (ys & sw' & Y & Ly & [G1 G2 G3 G4 G5] & Pb & F & E1 & E2).
    exists ((p1, sw_out sw1) :: ys), sw'. split; [econstructor; eauto|]. split; [cbn [List.length]; lia|]. split; [constructor|].
    + cbn [map fst]. constructor; auto. apply Forall_forall. intros q Iq. apply in_map_iff in Iq as ([q' o] & <- & Iq). cbn [fst].
      destruct (sw_out sw1) as [|x l] eqn:Eo; [contradiction|]. rewrite <- (Pt x (or_introl eq_refl)). eapply Pb; [exact Iq|]. apply in_or_app; right; left; auto.
    + intros p o [I|I]; [injection I as <- <-; auto|eauto].
    + intros p o [I|I]; [injection I as <- <-; auto|eauto].
    + intros p o x [I|I]; [injection I as <- <-; auto|eauto].
    + intros p o [I|I]; [injection I as <- <-; auto|eauto].
    + split; [|cbn [map snd List.concat]; rewrite app_assoc; auto].
      intros p o x [I|I] Ix; [injection I as <- <-; auto|]. eapply Pb; eauto. apply in_or_app; auto.
  - exists [], (set_out [] sw). split; [constructor; auto|]. split; [cbn; lia|]. split; [constructor; try (intros; simpl in *; contradiction); constructor|].
    split; [intros p o x []|]. cbn [map List.concat]. rewrite app_nil_r. auto.
Qed.
Lemma loop_mono : forall fuel sw l r, ci_loop ln tie fuel sw l = Ok r -> forall fuel', fuel <= fuel' -> ci_loop ln tie fuel' sw l = Ok r.
Proof.
  induction fuel as [|fuel IH]; intros sw l r E fuel' L.
  - destruct fuel' as [|fuel']; [exact E|]. cbn [ci_loop] in *. destruct (opt_peqb l (peek_point sw) && _); [discriminate E|exact E].
  - destruct fuel' as [|fuel']; [lia|]. cbn [ci_loop] in *. destruct (opt_peqb l (peek_point sw) && _); [|exact E].
    destruct (next_event ln tie sw) as [[sw' l']| |]; cbn [bind] in *; try discriminate E. apply IH; [exact E|lia].
Qed.
Lemma next_mono : forall fuel sw r, ci_next ln tie fuel sw = Ok r -> forall fuel', fuel <= fuel' -> ci_next ln tie fuel' sw = Ok r.
Proof.
  intros fuel sw r E fuel' L. unfold ci_next in *.
  destruct (ci_loop ln tie fuel (set_out [] sw) (peek_point (set_out [] sw))) as [[it1 last]| |] eqn:El; cbn [bind] in E; try discriminate E.
  rewrite (loop_mono _ _ _ _ El fuel' L). exact E.
Qed.
Lemma yields_mono : forall fuel sw ys sw', yields fuel sw ys sw' -> forall fuel', fuel <= fuel' -> yields fuel' sw ys sw'.
Proof.
  intros fuel sw ys sw' Y fuel' L. induction Y as [sw sw' E|sw sw' p ys sw'' E Y IH].
  - constructor. eapply next_mono; eauto.
  - econstructor; [eapply next_mono; eauto|auto].
Qed.
Theorem master : exists sw ys sw', ci_from_iter ln (seq 0 n) = Ok sw /\ sw_out sw = [] /\
  (forall fuel, bound < fuel -> yields fuel sw ys sw') /\ List.length ys <= bound /\ ygood ys /\ final (List.concat (map snd ys)) /\
  sw_events sw' = [] /\ sw_out sw' = [].
Proof.
  destruct start_ok as (sw & E & Eo & R). destruct (run_ok bound sw [] (S bound) R ltac:(lia)) as (ys & sw' & Y & L & G & _ & F & E1 & E2).
  exists sw, ys, sw'. split; [exact E|]. split; [exact Eo|]. split; [|auto]. intros fuel Lf. eapply yields_mono; eauto.
Qed.
End Run.
