(** One event of the sweep. *)
Require Import List String Bool Arith Lia Permutation Sorted.
From Verif Require Import Base Scalar M_Events M_Geo M_LineOrPoint M_Splay M_Slab M_Active M_Sweep.
From Verif Require Import S_Geo P_Geo P_LineOrPoint P_Tilt P_Slab P_Active P_Chain P_Bundle P_Tile P_Heap P_Order P_Inv P_Store.
Import Datatypes.
Import ListNotations.
Local Open Scope nat_scope.

Ltac permb :=
  repeat (rewrite <- !app_assoc); cbn [app];
  repeat first [ apply Permutation_refl | apply perm_skip
               | rewrite <- !app_assoc; cbn [app]; apply Permutation_app_head ].

Section Handle.
Variables (ln : nat -> line) (tie : nat -> nat) (n : nat) (e : Qc) (V : list pt).
Hypothesis HT : tilts e (fun p => In p V).
Hypothesis HV1 : forall c a z, c < n -> geo ln c = Line a z -> In a V /\ In z V.
Hypothesis HV2 : forall c c' a z a' z' r, c < n -> c' < n -> geo ln c = Line a z -> geo ln c' = Line a' z' ->
  on_seg a z r -> on_seg a' z' r -> (forall r', on_seg a z r' -> on_seg a' z' r' -> r' = r) -> In r V.
Notation core := (core ln n V).
Notation good := (good V).
Notation shr := (shr V).
Notation shr0 := (shr0 V).
Notation same_line := (same_line e).
Notation clean := (@clean nat).
Notation Ord := (Ord e V).
Notation tl := (tilt e).
Notation H := (H e).
Notation K := (K e).
Variable p0 : pt.
Hypothesis Vp0 : In p0 V.
Context {ar : arith} {fa : faithful ar ln n}.

(** [x] reports a piece on the line of [u], both starting at [p0]. *)
Definition col (u : bundle) (x : crossing) : Prop := cross (b_p u) (b_q u) (lop_second (cr_line x)) = 0%Qc.
(** Every start reported at [p0] belongs to an active bundle, and the first
    report on the line of a bundle that starts at [p0] is that of its root. *)
Definition rep_ok (act : list bundle) (out : list crossing) : Prop :=
  (forall x, In x out -> cr_left x = true -> exists u, In u act /\ b_p u = p0 /\ col u x) /\
  (forall u, In u act -> b_p u = p0 -> exists l1 y l2, out = l1 ++ y :: l2 /\ cr_left y = true /\ cr_key y = b_key u /\ col u y /\
     forall x, In x l1 -> cr_left x = true -> ~ col u x).
Definition rsame (u u' : bundle) : Prop :=
  b_p u' = b_p u /\ b_key u' = b_key u /\ forall x, cross (b_p u) (b_q u) x = 0%Qc <-> cross (b_p u') (b_q u') x = 0%Qc.
Lemma col_cut : forall p q r x, on_seg p q r -> lex_lt p q -> lex_lt p r -> (cross p q x = 0 <-> cross p r x = 0)%Qc.
Proof.
  intros p q r x O Lq Lr. apply on_seg_cross in O.
  assert (Ex : (cross p r x * (cx q - cx p) = cross p q x * (cx r - cx p))%Qc).
  { transitivity (cross p q x * (cx r - cx p) - cross p q r * (cx x - cx p))%Qc; [unfold cross; ring|rewrite O; ring]. }
  assert (Ey : (cross p r x * (cy q - cy p) = cross p q x * (cy r - cy p))%Qc).
  { transitivity (cross p q x * (cy r - cy p) - cross p q r * (cy x - cy p))%Qc; [unfold cross; ring|rewrite O; ring]. }
  assert (Z : forall a d1 d2 : Qc, (a * d1 = 0 -> a * d2 = 0 -> d1 <> 0 \/ d2 <> 0 -> a = 0)%Qc).
  { intros a d1 d2 E1 E2 D. destruct (Qc_eq_dec a 0%Qc) as [->|N]; auto. exfalso.
    apply Qcmult_integral in E1 as [E1|E1]; [contradiction|]. apply Qcmult_integral in E2 as [E2|E2]; [contradiction|]. tauto. }
  assert (D : forall a b : pt, lex_lt a b -> (cx b - cx a <> 0 \/ cy b - cy a <> 0)%Qc).
  { intros a b [L|[_ L]]; [left|right]; intros E; qcl. }
  split; intros E; rewrite E in Ex, Ey.
  - eapply Z; [| |apply (D p q Lq)]; [rewrite Ex|rewrite Ey]; ring.
  - eapply Z; [| |apply (D p r Lr)]; [rewrite <- Ex|rewrite <- Ey]; ring.
Qed.
Lemma rsame_refl : forall u, rsame u u. Proof. intros u. repeat split; auto. Qed.
Lemma rsame_shr : forall u u', good u -> shr u u' -> rsame u u'.
Proof.
  intros u u' G (E1 & O & L & _ & Ek). split; auto. split; auto. intros x. rewrite E1 in *. apply col_cut; auto. apply G.
Qed.
Lemma rep_same : forall act act' out, Forall2 rsame act act' -> rep_ok act out -> rep_ok act' out.
Proof.
  intros act act' out F [R1 R2]. split.
  - intros x Ix Lx. destruct (R1 x Ix Lx) as (u & Iu & Pu & Cu).
    assert (Q : exists u', In u' act' /\ rsame u u').
    { clear - F Iu. induction F as [|a a' l l' Ra F IH]; [destruct Iu|]. destruct Iu as [<-|Iu]; [exists a'; split; [left; auto|auto]|].
      destruct (IH Iu) as (u' & I & R). exists u'. split; [right; auto|auto]. }
    destruct Q as (u' & Iu' & (Ep & _ & Ec)). exists u'. split; auto. split; [congruence|]. apply Ec. auto.
  - intros u' Iu' Pu'.
    assert (Q : exists u, In u act /\ rsame u u').
    { clear - F Iu'. induction F as [|a a' l l' Ra F IH]; [destruct Iu'|]. destruct Iu' as [<-|Iu]; [exists a; split; [left; auto|auto]|].
      destruct (IH Iu) as (u & I & R). exists u. split; [right; auto|auto]. }
    destruct Q as (u & Iu & (Ep & Ek & Ec)). destruct (R2 u Iu) as (l1 & y & l2 & Eo & Ly & Ky & Cy & Nx); [congruence|].
    exists l1, y, l2. split; auto. split; auto. split; [congruence|]. split; [apply Ec; auto|]. intros x Ix Lx Cx. apply (Nx x Ix Lx). apply Ec. auto.
Qed.
Lemma rep_same1 : forall X Y u u' out, rsame u u' -> rep_ok (X ++ u :: Y) out -> rep_ok (X ++ u' :: Y) out.
Proof.
  intros X Y u u' out R. apply rep_same. assert (Q : forall l, Forall2 rsame l l) by (induction l; constructor; auto using rsame_refl).
  apply Forall2_app; auto.
Qed.
(** More ends, or more starts on lines that are known. *)
Lemma rep_more : forall act out more, (forall x, In x more -> cr_left x = true -> exists u, In u act /\ b_p u = p0 /\ col u x) ->
  rep_ok act out -> rep_ok act (out ++ more).
Proof.
  intros act out more M [R1 R2]. split.
  - intros x Ix. apply in_app_iff in Ix as [Ix|Ix]; auto.
  - intros u Iu Pu. destruct (R2 u Iu Pu) as (l1 & y & l2 & -> & R). exists l1, y, (l2 ++ more). rewrite <- app_assoc. auto.
Qed.
Lemma rep_ends : forall act out p q ms, rep_ok act out -> rep_ok act (out ++ reports (Line p q) false ms).
Proof. intros act out p q ms. apply rep_more. intros x Ix Lx. apply reports_in in Ix as (_ & E & _). congruence. Qed.

Record base (mu : nat) (sw : sweep) (act cur pend : list bundle) (pts ppend : list pin) (past : list crossing) : Prop := {
  ba_core : core mu (sw_segs sw) (sw_events sw) (past ++ sw_out sw) (act ++ cur ++ pend) pend pts ppend;
  ba_act : holds (sw_active sw) (map b_key act);
  ba_done : forall b m, In b act -> In m (b_mem b) -> m_done m = true;
  ba_new : forall b m, In b (cur ++ pend) -> In m (b_mem b) -> m_done m = false;
  ba_start : forall c, Permutation (started c (past ++ sw_out sw)) (map fst (ended c (past ++ sw_out sw) ++ current c act));
  ba_past : forall x, In x past -> lex_lt (crpt x) p0;
  ba_out : forall x, In x (sw_out sw) -> crpt x = p0;
  ba_ovl : ovl_ok (sw_out sw);
  ba_rep : rep_ok act (sw_out sw)
}.
Definition lrs (heap : list event) (bs : list bundle) : Prop := forall b, In b bs -> In (ev_LR (b_q b) b) heap.

Lemma ba_good : forall mu sw act cur pend pts ppend past b, base mu sw act cur pend pts ppend past ->
  In b (act ++ cur ++ pend) -> good b.
Proof. intros. eapply core_good; [eapply ba_core; eauto|auto]. Qed.

(** Replacing an active bundle by a first part. *)
Lemma base_upd_act : forall mu sw X u Y cur pend pts ppend past sl' evs u' nw,
  base mu sw (X ++ u :: Y) cur pend pts ppend past ->
  b_key u' = b_key u -> rsame u u' -> ((forall m, In m (b_mem u) -> m_done m = true) -> forall m, In m (b_mem u') -> m_done m = true) ->
  (forall c, map fst (current c [u']) = map fst (current c [u])) ->
  (forall w m, In w nw -> In m (b_mem w) -> m_done m = false) ->
  core mu sl' (evs ++ sw_events sw) (past ++ sw_out sw) (u' :: nw ++ (X ++ Y) ++ cur ++ pend) (nw ++ pend) pts ppend ->
  base mu (with_segs_events sl' evs sw) (X ++ u' :: Y) cur (nw ++ pend) pts ppend past.
Proof.
  intros mu sw X u Y cur pend pts ppend past sl' evs u' nw Ba Ek Hr Hd Hc Hn Co. destruct Ba as [B1 B2 B3 B4 B5 B6 B7 B8 B9].
  constructor; auto.
  - cbn [with_segs_events sw_segs sw_events sw_out]. eapply core_perm; [|exact Co].
    rewrite <- !app_assoc. cbn [app]. rewrite <- (Permutation_middle X). constructor.
    rewrite (Permutation_app_comm nw). rewrite <- !app_assoc. do 3 apply Permutation_app_head. apply Permutation_app_comm.
  - rewrite map_app in *. cbn [map] in *. rewrite Ek. exact B2.
  - intros b m I Im. apply in_app_iff in I as [I|[<-|I]].
    + apply (B3 b); auto. apply in_or_app; auto.
    + revert m Im. apply Hd. intros m'. apply B3. apply in_or_app; right; left; auto.
    + apply (B3 b); auto. apply in_or_app; right; right; auto.
  - intros b m I Im. apply in_app_iff in I as [I|I]; [apply (B4 b); auto; apply in_or_app; auto|].
    apply in_app_iff in I as [I|I]; [eapply Hn; eauto|apply (B4 b); auto; apply in_or_app; auto].
  - intros c. cbn [with_segs_events sw_out]. rewrite (B5 c), !map_app. apply Permutation_app_head.
    rewrite !current_app, !map_app. apply Permutation_app_head.
    change (u :: Y) with ([u] ++ Y). change (u' :: Y) with ([u'] ++ Y). rewrite !current_app, !map_app, (Hc c). reflexivity.
  - eapply rep_same1; eauto.
Qed.
Lemma base_core_act : forall mu sw X u Y cur pend pts ppend past, base mu sw (X ++ u :: Y) cur pend pts ppend past ->
  core mu (sw_segs sw) (sw_events sw) (past ++ sw_out sw) (u :: (X ++ Y) ++ cur ++ pend) pend pts ppend.
Proof.
  intros. eapply core_perm; [|eapply ba_core; eauto]. rewrite <- !app_assoc. cbn [app]. symmetry. apply Permutation_middle.
Qed.
Lemma base_cut_act : forall mu sw X u Y cur pend pts ppend past r, base mu sw (X ++ u :: Y) cur pend pts ppend past ->
  In r V -> onb u r ->
  exists sl' u' nw evs, adjust_one_segment ln sw (b_key u) (Point r) = Ok (with_segs_events sl' evs sw, None) /\
    cut r u u' nw evs /\ base mu (with_segs_events sl' evs sw) (X ++ u' :: Y) cur (nw ++ pend) pts ppend past.
Proof.
  intros mu sw X u Y cur pend pts ppend past r Ba Vr Or. pose proof (base_core_act _ _ _ _ _ _ _ _ _ _ Ba) as B1.
  destruct (adj_point ln n V sw _ _ _ _ _ _ _ _ B1 Vr Or) as (sl' & u' & nw & evs & A & Cu & Co).
  exists sl', u', nw, evs. split; [exact A|split; [exact Cu|]].
  assert (G : good u) by (eapply core_good; [exact B1|left; auto]).
  eapply base_upd_act; [exact Ba| | | | | |exact Co].
  - destruct (cut_shr V r u u' nw evs G Vr Or Cu) as (_ & _ & _ & _ & E). exact E.
  - apply rsame_shr; auto. eapply cut_shr; eauto.
  - intros Hd. eapply cut_done; eauto.
  - intros c. eapply cut_fst; eauto.
  - intros w m. eapply cut_new_done; eauto.
Qed.
Lemma base_front_act : forall mu sw X u Y cur pend pts ppend past r, base mu sw (X ++ u :: Y) cur pend pts ppend past ->
  In r V -> onb u r -> lex_lt (b_p u) r ->
  exists sl' u' nw evs, adjust_one_segment ln sw (b_key u) (Line (b_p u) r) = Ok (with_segs_events sl' evs sw, Some (b_key u)) /\
    cut r u u' nw evs /\ base mu (with_segs_events sl' evs sw) (X ++ u' :: Y) cur (nw ++ pend) pts ppend past.
Proof.
  intros mu sw X u Y cur pend pts ppend past r Ba Vr Or Lr. pose proof (base_core_act _ _ _ _ _ _ _ _ _ _ Ba) as B1.
  destruct (adj_front ln n V sw _ _ _ _ _ _ _ _ B1 Vr Or Lr) as (sl' & u' & nw & evs & A & Cu & Co).
  exists sl', u', nw, evs. split; [exact A|split; [exact Cu|]].
  assert (G : good u) by (eapply core_good; [exact B1|left; auto]).
  eapply base_upd_act; [exact Ba| | | | | |exact Co].
  - destruct (cut_shr V r u u' nw evs G Vr Or Cu) as (_ & _ & _ & _ & E). exact E.
  - apply rsame_shr; auto. eapply cut_shr; eauto.
  - intros Hd. eapply cut_done; eauto.
  - intros c. eapply cut_fst; eauto.
  - intros w m. eapply cut_new_done; eauto.
Qed.
Lemma base_inner_act : forall mu sw X u Y cur pend pts ppend past r1 r2, base mu sw (X ++ u :: Y) cur pend pts ppend past ->
  In r1 V -> In r2 V -> onb u r1 -> onb u r2 -> lex_lt (b_p u) r1 -> lex_lt r1 r2 ->
  exists sl' mb nws evs evs', adjust_one_segment ln sw (b_key u) (Line r1 r2) = Ok (with_segs_events sl' evs sw, Some (b_key mb)) /\
    b_p mb = r1 /\ b_q mb = r2 /\ b_mem mb <> [] /\
    (forall w, In w nws -> b_p w = r2 /\ In (ev_LR (b_q w) w) evs') /\
    Permutation evs (ev_LR r1 u :: evs') /\
    (forall ev, In ev evs' -> lex_lt r1 (ev_point ev) \/ (ev_point ev = r1 /\ ev_ty ev = LineLeft)) /\
    In (ev_LR r2 mb) evs' /\
    base mu (with_segs_events sl' evs sw) (X ++ trunc r1 u :: Y) cur ((mb :: nws) ++ pend) pts ppend past.
Proof.
  intros mu sw X u Y cur pend pts ppend past r1 r2 Ba V1 V2 O1 O2 L1 L2. pose proof (base_core_act _ _ _ _ _ _ _ _ _ _ Ba) as B1.
  destruct (adj_inner ln n V sw _ _ _ _ _ _ _ _ _ B1 V1 V2 O1 O2 L1 L2) as (sl' & mb & nws & evs & evs' & A & (F1 & F2 & F3 & F4) & Fw & P & Fe & Fm & Co).
  exists sl', mb, nws, evs, evs'. repeat (split; [solve [auto]|]).
  split; [intros w Iw; destruct (Fw w Iw) as (? & ? & ?); auto|]. repeat (split; [solve [auto]|]).
  eapply base_upd_act; [exact Ba|apply trunc_key| | | | |exact Co].
  - split; [reflexivity|]. split; [apply trunc_key|]. intros x. cbn [trunc b_p b_q]. apply col_cut; auto.
    eapply core_good; [exact B1|left; auto].
  - intros Hd m I. apply clear_first_in in I as (m' & I & _ & _ & E & _). rewrite <- E. auto.
  - intros c. rewrite !current_cons. cbn [current flat_map]. rewrite !app_nil_r, !map_map. cbn [fst trunc b_p b_mem]. apply map_const_len. apply clear_first_filter.
  - intros w m [<-|Iw] Im; [destruct (copy_in _ _ _ F3 Im) as (_ & E & _); auto|]. destruct (Fw w Iw) as (_ & D & _). auto.
Qed.
(** Replacing the bundle at hand. *)
Lemma base_core_cur : forall mu sw act b pend pts ppend past, base mu sw act [b] pend pts ppend past ->
  core mu (sw_segs sw) (sw_events sw) (past ++ sw_out sw) (b :: act ++ pend) pend pts ppend.
Proof. intros. eapply core_perm; [|eapply ba_core; eauto]. symmetry. apply Permutation_middle. Qed.
Lemma base_upd_cur : forall mu sw act b pend pts ppend past sl' evs b' nw r,
  base mu sw act [b] pend pts ppend past -> cut r b b' nw evs ->
  core mu sl' (evs ++ sw_events sw) (past ++ sw_out sw) (b' :: nw ++ act ++ pend) (nw ++ pend) pts ppend ->
  base mu (with_segs_events sl' evs sw) act [b'] (nw ++ pend) pts ppend past.
Proof.
  intros mu sw act b pend pts ppend past sl' evs b' nw r Ba Cu Co. destruct Ba as [B1 B2 B3 B4 B5 B6 B7 B8 B9].
  constructor; auto.
  - cbn [with_segs_events sw_segs sw_events sw_out]. eapply core_perm; [|exact Co].
    cbn [app]. rewrite <- (Permutation_middle act). constructor. rewrite !app_assoc. apply Permutation_app_tail. apply Permutation_app_comm.
  - intros x m [<-|I] Im.
    + eapply cut_done; [exact Cu| |exact Im]. intros m'. apply B4. left; auto.
    + cbn [app] in I. apply in_app_iff in I as [I|I]; [eapply cut_new_done; eauto|apply (B4 x); auto; right; auto].
Qed.
Lemma base_cut_cur : forall mu sw act b pend pts ppend past r, base mu sw act [b] pend pts ppend past ->
  In r V -> onb b r ->
  exists sl' b' nw evs, adjust_one_segment ln sw (b_key b) (Point r) = Ok (with_segs_events sl' evs sw, None) /\
    cut r b b' nw evs /\ base mu (with_segs_events sl' evs sw) act [b'] (nw ++ pend) pts ppend past.
Proof.
  intros mu sw act b pend pts ppend past r Ba Vr Or. pose proof (base_core_cur _ _ _ _ _ _ _ _ Ba) as B1.
  destruct (adj_point ln n V sw _ _ _ _ _ _ _ _ B1 Vr Or) as (sl' & b' & nw & evs & A & Cu & Co).
  exists sl', b', nw, evs. split; [exact A|split; [exact Cu|]]. eapply base_upd_cur; eauto.
Qed.
Lemma base_front_cur : forall mu sw act b pend pts ppend past r, base mu sw act [b] pend pts ppend past ->
  In r V -> onb b r -> lex_lt (b_p b) r ->
  exists sl' b' nw evs, adjust_one_segment ln sw (b_key b) (Line (b_p b) r) = Ok (with_segs_events sl' evs sw, Some (b_key b)) /\
    cut r b b' nw evs /\ base mu (with_segs_events sl' evs sw) act [b'] (nw ++ pend) pts ppend past.
Proof.
  intros mu sw act b pend pts ppend past r Ba Vr Or Lr. pose proof (base_core_cur _ _ _ _ _ _ _ _ Ba) as B1.
  destruct (adj_front ln n V sw _ _ _ _ _ _ _ _ B1 Vr Or Lr) as (sl' & b' & nw & evs & A & Cu & Co).
  exists sl', b', nw, evs. split; [exact A|split; [exact Cu|]]. eapply base_upd_cur; eauto.
Qed.

Lemma Forall2_app_single : forall (R : bundle -> bundle -> Prop) X Y u u', Forall2 R X X -> Forall2 R Y Y -> R u u' ->
  Forall2 R (X ++ u :: Y) (X ++ u' :: Y).
Proof. intros. apply Forall2_app; auto. Qed.
Lemma root_contains : forall mu sl heap log allb pend pts ppend b, core mu sl heap log allb pend pts ppend -> In b allb ->
  slab_contains sl (b_key b) = true.
Proof. intros mu sl heap log allb pend pts ppend b Co I. unfold slab_contains. rewrite (root_get _ _ _ _ _ _ _ _ _ _ _ _ Co I). reflexivity. Qed.

(** The end of an active bundle. *)
Lemma handle_LR : forall fuel ph mu sw A a B cur pend pts ppend past W,
  base mu sw (A ++ a :: B) cur pend pts ppend past -> Ord p0 ph (A ++ a :: B) W -> b_q a = p0 ->
  (forall v, In v V -> onb a v -> lex_lt (b_p a) v -> lex_le p0 v) ->
  exists sw' A' B' nw evs, handle_event ln tie (S fuel) sw (mkEvent p0 LineRight (b_key a)) = Ok (sw', true) /\
    base mu sw' (A' ++ B') cur (nw ++ pend) pts ppend past /\
    Forall2 (shr0 p0) A A' /\ Forall2 (shr0 p0) B B' /\
    (forall u v, hd_error (rev A') = Some u -> hd_error B' = Some v -> clean u v) /\
    (forall w, In w nw -> lex_lt p0 (b_p w)) /\
    sw_events sw' = evs ++ sw_events sw /\ (forall ev, In ev evs -> lex_lt p0 (ev_point ev)) /\
    sw_out sw' = sw_out sw ++ reports (b_geom a) false (b_mem a) /\
    (lrs (sw_events sw) (A ++ B) -> lrs (sw_events sw') (A' ++ B' ++ nw)).
Proof.
  intros fuel ph mu sw A a B cur pend pts ppend past W Ba Or Qa Na.
  pose proof (ba_core _ _ _ _ _ _ _ _ Ba) as Co.
  assert (Ia : In a ((A ++ a :: B) ++ cur ++ pend)) by (apply in_or_app; left; apply in_or_app; right; left; auto).
  pose proof (sits_act ln n e V HT ph _ _ _ _ _ _ _ _ _ _ _ _ _ Co Or) as Si.
  pose proof (sfe_LR_root _ _ _ _ _ _ _ _ _ _ _ _ Co Ia) as SF. rewrite Qa in SF. cbn [handle_event]. rewrite SF. cbn [bind].
  rewrite rs_key. pose proof (ba_act _ _ _ _ _ _ _ _ Ba) as Ho. rewrite map_app in Ho. cbn [map] in Ho.
  destruct (prev_key_ok seg_partial_cmp (sw_segs sw) (b_key a) (map b_key A) [b_key a] (map b_key B) _ Ho Si) as (t1 & P1 & H1). rewrite P1. cbn [bind].
  destruct (next_key_ok seg_partial_cmp (sw_segs sw) (b_key a) (map b_key A) [b_key a] (map b_key B) _ H1 Si) as (t2 & P2 & H2). rewrite P2. cbn [bind ev_ty ev_key].
  cbn [set_active sw_active sw_segs].
  destruct (remove_key_ok _ _ _ _ _ _ _ H2 Si (root_contains _ _ _ _ _ _ _ _ _ Co Ia)) as (t3 & P3 & H3). cbn [app] in P3. 
  rewrite P3. cbn [bind].
  (* report *)
  assert (PM : Permutation ((A ++ a :: B) ++ cur ++ pend) (a :: (A ++ B) ++ cur ++ pend)).
  { rewrite <- !app_assoc. cbn [app]. symmetry. apply Permutation_middle. }
  pose proof (core_perm _ _ _ _ _ _ _ _ _ _ _ _ PM Co) as Co1.
  pose proof (co_srep _ _ _ _ _ _ _ _ _ _ _ Co1) as R. cbn [flat_map] in R. rewrite <- app_assoc in R.
  pose proof (co_ne _ _ _ _ _ _ _ _ _ _ _ Co a Ia) as NEa.
  assert (HK : Some (b_key a) = hk (b_mem a)) by (unfold b_key; destruct (b_mem a); [contradiction|reflexivity]).
  rewrite HK.
  assert (FL : List.length (b_mem a) < chain_fuel (sw_segs sw)).
  { unfold chain_fuel. pose proof (srep_length _ _ R) as L. rewrite app_length in L. unfold bcells in L. rewrite cells_length in L. lia. }
  destruct (report_right_ok (b_mem a) (chain_fuel (sw_segs sw)) (set_active t3 (set_active t2 sw)) (b_geom a) false _ FL R) as (sl1 & P4 & R4).
  rewrite P4. cbn [bind].
  set (sw1 := mkSweep sl1 _ _ _ _).
  assert (Ba1 : base mu sw1 (A ++ B) cur pend pts ppend past).
  { assert (Co2 : core mu sl1 (sw_events sw) ((past ++ sw_out sw) ++ reports (b_geom a) false (b_mem a)) ((A ++ B) ++ cur ++ pend) pend pts ppend).
    { eapply core_end; [exact Co1| |exact R4]. intros v Vv Ov L1 L2. rewrite Qa in L2. specialize (Na v Vv Ov L1). lord. }
    destruct Ba as [B1 B2 B3 B4 B5 B6 B7 B8 B9]. constructor; auto.
    - subst sw1. cbn [sw_segs sw_events sw_out set_active]. rewrite app_assoc. exact Co2.
    - subst sw1. cbn [sw_active set_active]. rewrite map_app. exact H3.
    - intros b m I. apply B3. apply in_app_iff in I. apply in_or_app. simpl. tauto.
    - intros c. subst sw1. cbn [sw_out set_active]. rewrite app_assoc, started_app, (ended_app c (past ++ sw_out sw)). unfold b_geom.
      rewrite started_right, ended_right, app_nil_r, (B5 c), !map_app, <- app_assoc. apply Permutation_app_head.
      rewrite !current_app, current_cons, !map_app. rewrite Permutation_app_swap_app. reflexivity.
    - subst sw1. cbn [sw_out set_active]. intros x I. apply in_app_iff in I as [I|I]; [auto|].
      apply reports_in in I as (E1 & E2 & _). unfold crpt, b_geom in *. rewrite E1, E2. auto.
    - subst sw1. cbn [sw_out set_active]. apply ovl_ok_app; auto. apply ovl_ok_reports.
    - subst sw1. cbn [sw_out set_active]. apply rep_ends. destruct B9 as [R1 R2]. split.
      + intros x Ix Lx. destruct (R1 x Ix Lx) as (u & Iu & Pu & Cu). exists u. split; auto.
        apply in_app_iff in Iu as [Iu|[<-|Iu]]; [apply in_or_app; auto| |apply in_or_app; auto].
        exfalso. assert (G : good a) by (eapply core_good; [exact Co|exact Ia]). destruct G as [G _]. rewrite Pu, Qa in G. lord.
      + intros u Iu. apply R2. apply in_app_iff in Iu as [Iu|Iu]; apply in_or_app; simpl; auto. }
  assert (Rng : Forall (inrange V p0 ph) (A ++ a :: B)) by apply Or.
  assert (SA : Forall2 (shr0 p0) A A) by (apply (shr0_refl V p0 ph); apply Forall_app in Rng; tauto).
  assert (SB : Forall2 (shr0 p0) B B) by (apply (shr0_refl V p0 ph); apply Forall_app in Rng as [_ Rng]; inversion Rng; auto).
  assert (Done : (forall u v, hd_error (rev A) = Some u -> hd_error B = Some v -> clean u v) ->
    exists sw' A' B' nw evs, Ok (sw1, true) = Ok (sw', true) /\
    base mu sw' (A' ++ B') cur (nw ++ pend) pts ppend past /\
    Forall2 (shr0 p0) A A' /\ Forall2 (shr0 p0) B B' /\
    (forall u v, hd_error (rev A') = Some u -> hd_error B' = Some v -> clean u v) /\
    (forall w, In w nw -> lex_lt p0 (b_p w)) /\
    sw_events sw' = evs ++ sw_events sw /\ (forall ev, In ev evs -> lex_lt p0 (ev_point ev)) /\
    sw_out sw' = sw_out sw ++ reports (b_geom a) false (b_mem a) /\
    (lrs (sw_events sw) (A ++ B) -> lrs (sw_events sw') (A' ++ B' ++ nw))).
  { intros Hc. exists sw1, A, B, [], []. split; [reflexivity|]. split; [exact Ba1|].
    split; [exact SA|split; [exact SB|split; [exact Hc|]]]. split; [intros w []|]. split; [reflexivity|]. split; [intros w []|].
    split; [reflexivity|]. intros L. rewrite app_nil_r. exact L. }
  rewrite <- map_rev, !hd_error_map.
  destruct (hd_error (rev A)) as [u|] eqn:EA; cbn [option_map]; [|apply Done; discriminate].
  destruct (hd_error B) as [v|] eqn:EB; cbn [option_map]; [|apply Done; discriminate].
  apply hd_rev_split in EA as (X & ->). destruct B as [|v' Y]; [discriminate|]. injection EB as ->.
  pose proof (ba_core _ _ _ _ _ _ _ _ Ba1) as Co2.
  assert (Iu : In u (((X ++ [u]) ++ v :: Y) ++ cur ++ pend)) by (rewrite !in_app_iff; simpl; tauto).
  assert (Iv : In v (((X ++ [u]) ++ v :: Y) ++ cur ++ pend)) by (rewrite !in_app_iff; simpl; tauto).
  rewrite (root_get_unchecked _ _ _ _ _ _ _ _ _ _ _ _ Co2 Iu), (root_get_unchecked _ _ _ _ _ _ _ _ _ _ _ _ Co2 Iv). cbn [bind]. rewrite !rs_geom.
  pose proof (core_good _ _ _ _ _ _ _ _ _ _ _ _ Co2 Iu) as Gu. pose proof (core_good _ _ _ _ _ _ _ _ _ _ _ _ Co2 Iv) as Gv.
  destruct (inter_bundles V u v Gu Gv) as (o & Eo & Io). rewrite f_line, Eo by (eapply core_piece; eauto). cbn [bind].
  assert (Ru : inrange V p0 ph u) by (rewrite Forall_forall in Rng; apply Rng; rewrite !in_app_iff; simpl; tauto).
  assert (Rv : inrange V p0 ph v) by (rewrite Forall_forall in Rng; apply Rng; rewrite !in_app_iff; simpl; tauto).
  assert (Pk : pair_ok e p0 ph u v).
  { destruct Or as (_ & O & _). rewrite <- app_assoc in O. cbn [app] in O. change (u :: a :: v :: Y) with (u :: [a] ++ v :: Y) in O. apply FOP_in in O. exact O. }
  assert (NS : ~ same_line u v) by (apply blw_not_same; apply Pk).
  destruct o as [[r|r1 r2]|].
  - destruct Io as [Vr0 Io]. destruct (proj1 (Io r) eq_refl) as [Ou Ov].
    assert (Vr : In r V) by (apply (cross_V ln n e V HT HV1 HV2 _ _ _ _ _ _ _ _ u v r Co2); auto).
    pose proof (meet_cases e V HT p0 Vp0 ph u v r Ru Rv Pk Ou Ov Vr) as MC.
    assert (Ba1' : base mu sw1 (X ++ u :: v :: Y) cur pend pts ppend past) by (rewrite <- app_assoc in Ba1; exact Ba1).
    destruct (base_cut_act _ _ _ _ _ _ _ _ _ _ _ Ba1' Vr Ou) as (sl2 & u' & nw1 & ev1 & Q1 & Cu & Ba2). rewrite Q1. cbn [bind].
    assert (Ba2' : base mu (with_segs_events sl2 ev1 sw1) ((X ++ [u']) ++ v :: Y) cur (nw1 ++ pend) pts ppend past) by (rewrite <- app_assoc; exact Ba2).
    destruct (base_cut_act _ _ _ _ _ _ _ _ _ _ _ Ba2' Vr Ov) as (sl3 & v' & nw2 & ev2 & Q2 & Cv & Ba3). rewrite Q2. cbn [bind check].
    assert (QU : forall z z' nwz evz, cut r z z' nwz evz -> inrange V p0 ph z -> (r = b_p z \/ r = b_q z \/ lex_lt p0 r) ->
       lex_le p0 (b_q z') /\ (forall ev, In ev evz -> lex_lt p0 (ev_point ev)) /\ (forall w, In w nwz -> lex_lt p0 (b_p w))).
    { intros z z' nwz evz Cz (Gz & Qz & Pz) Hr. split; [|split].
      - destruct (cut_q _ _ _ _ _ Cz) as [[_ ->]|E]; [auto|]. rewrite E. destruct Cz as [[E1|E1] -> _ _|nb L1 L2 F _ _ _].
        + rewrite E, E1 in *. destruct Gz as (Gz & _). exfalso. lord.
        + rewrite E1; auto.
        + destruct Hr as [Hr|[Hr|Hr]]; [subst; exfalso; lord|subst; exfalso; lord|lord].
      - intros ev Iev. destruct (cut_evs _ _ _ _ _ _ Cz Iev) as [L|(E & L1 & L2 & _)].
        + destruct Cz as [_ _ _ ->|nb L1 L2 _ _ _ _]; [destruct Iev|]. destruct Hr as [Hr|[Hr|Hr]]; [subst; exfalso; lord|subst; exfalso; lord|lord].
        + rewrite E. destruct Hr as [Hr|[Hr|Hr]]; [subst; exfalso; lord|subst; exfalso; lord|auto].
      - intros w Iw. destruct (cut_new _ _ _ _ _ _ Cz Iw) as (-> & _ & L1 & L2 & _).
        destruct Hr as [Hr|[Hr|Hr]]; [subst; exfalso; lord|subst; exfalso; lord|auto]. }
    destruct (QU u u' nw1 ev1 Cu Ru) as (U1 & U2 & U3); [tauto|]. destruct (QU v v' nw2 ev2 Cv Rv) as (W1 & W2 & W3); [tauto|].
    pose proof (cut_shr V r u u' nw1 ev1 Gu Vr Ou Cu) as Su. pose proof (cut_shr V r v v' nw2 ev2 Gv Vr Ov Cv) as Sv.
    eexists _, (X ++ [u']), (v' :: Y), (nw2 ++ nw1), (ev2 ++ ev1). split; [reflexivity|].
    split; [rewrite <- (app_assoc nw2); exact Ba3|].
    apply Forall2_app_inv_l in SA as (X1 & X2 & SA1 & SA2 & E).
    assert (SX : Forall2 (shr0 p0) X X) by (apply (shr0_refl V p0 ph); rewrite !Forall_app in Rng; tauto).
    assert (SY : Forall2 (shr0 p0) Y Y) by (apply (shr0_refl V p0 ph); rewrite Forall_app in Rng; destruct Rng as [_ Rng]; inversion Rng as [|? ? _ Rng']; inversion Rng'; auto).
    split; [apply Forall2_app; [exact SX|constructor; [split; auto|constructor]]|].
    split; [constructor; [split; auto|exact SY]|].
    split.
    { intros x y Ex Ey. rewrite rev_app_distr in Ex. cbn [rev app hd_error] in Ex, Ey. injection Ex as <-. injection Ey as <-.
      apply (inter_point_clean e V HT u v r); auto; [split; auto|].
      destruct MC as [[M1 M2]|M].
      - left. destruct (cut_q _ _ _ _ _ Cu) as [[_ ->]|E1], (cut_q _ _ _ _ _ Cv) as [[_ ->]|E2]; auto;
          exfalso; [destruct Sv as (S1 & _ & S3 & _)|destruct Su as (S1 & _ & S3 & _)|destruct Su as (S1 & _ & S3 & _)];
          rewrite S1 in S3; [rewrite E2, M2 in S3|rewrite E1, M1 in S3|rewrite E1, M1 in S3]; lord.
      - right. assert (NU : r <> b_p u /\ r <> b_p v).
        { destruct M as [[M1 M2]|M].
          - split; [rewrite M1; destruct Gu as (Gu & _)|rewrite M2; destruct Gv as (Gv & _)]; apply lex_lt_neq in Gu || apply lex_lt_neq in Gv; congruence.
          - assert (TU : lex_le (b_p u) p0 /\ lex_le (b_p v) p0).
            { destruct Ru as (_ & _ & Ru), Rv as (_ & _ & Rv). destruct ph; split; lord. }
            destruct TU. split; intro; subst r; lord. }
        destruct NU as [NU1 NU2]. destruct (cut_q _ _ _ _ _ Cu) as [[? _]|E1]; [contradiction|]. destruct (cut_q _ _ _ _ _ Cv) as [[? _]|E2]; [contradiction|]. auto. }
    split. { intros w Iw. apply in_app_iff in Iw as [Iw|Iw]; auto. }
    split. { cbn [with_segs_events sw_events]. rewrite <- app_assoc. reflexivity. }
    split. { intros ev Iev. apply in_app_iff in Iev as [Iev|Iev]; auto. }
    split. { reflexivity. }
    intros L. cbn [with_segs_events sw_events sw1].
    intros w Iw. apply in_app_iff in Iw as [Iw|Iw].
    + apply in_or_app; right. apply in_app_iff in Iw as [Iw|[<-|[]]].
      * apply in_or_app; right. apply L. rewrite !in_app_iff. auto.
      * eapply cut_lr; [exact Cu|]. apply L. rewrite !in_app_iff. simpl; auto.
    + cbn [app] in Iw. destruct Iw as [<-|Iw].
      * eapply cut_lr; [exact Cv|]. apply in_or_app; right. apply L. rewrite !in_app_iff; simpl; auto.
      * apply in_app_iff in Iw as [Iw|Iw].
        -- apply in_or_app; right. apply in_or_app; right. apply L. rewrite !in_app_iff; simpl; auto.
        -- apply in_app_iff in Iw as [Iw|Iw]; [apply in_or_app; left; eapply cut_new; eauto|].
           apply in_or_app; right. apply in_or_app; left. eapply cut_new; eauto.
  - exfalso. apply NS. eapply inter_line_same; eauto.
  - apply Done. intros x y Ex Ey.
injection Ex as <-. injection Ey as <-.
    apply inter_none_clean; auto.
Qed.

(** ** The phase of starts *)
Definition hb (heap : list event) : Prop :=
  forall ev, In ev heap -> lex_lt p0 (ev_point ev) \/ (ev_point ev = p0 /\ 2 <= ty_rank (ev_ty ev)).
Definition Nok (act : list bundle) : Prop :=
  forall u v, In u act -> In v V -> onb u v -> lex_lt (b_p u) v -> lex_le p0 v.
Record lst (mu : nat) (sw : sweep) (act cur pend : list bundle) (pts ppend : list pin) (past : list crossing) : Prop := {
  ls_base : base mu sw act cur pend pts ppend past;
  ls_ord : Ord p0 PL act (cur ++ pend);
  ls_lr : lrs (sw_events sw) (act ++ cur ++ pend);
  ls_hb : hb (sw_events sw);
  ls_N : Nok act
}.
Lemma ls_q : forall mu sw act cur pend pts ppend past b, lst mu sw act cur pend pts ppend past -> In b (act ++ cur ++ pend) -> lex_lt p0 (b_q b).
Proof.
  intros mu sw act cur pend pts ppend past b L I. destruct (ls_hb _ _ _ _ _ _ _ _ L _ (ls_lr _ _ _ _ _ _ _ _ L b I)) as [Q|[_ Q]]; [exact Q|].
  cbn [ev_LR ev_ty ty_rank] in Q. lia.
Qed.
Lemma Nok_shr : forall act act', (forall u, In u act -> good u) -> Forall2 (shr0 p0) act act' -> Nok act -> Nok act'.
Proof.
  intros act act' G F Nk u v I Vv Ov L. induction F as [|x x' act act' [Sx _] F IH]; [destruct I|]. destruct I as [<-|I].
  - apply (Nk x v); auto; [left; auto|eapply (shr_onb e V HT); [|exact Sx|exact Ov]; apply G; left; auto|]. destruct Sx as (<- & _). exact L.
  - apply IH; auto; [intros; apply G; right; auto|]. intros u0 v0 I0. apply Nk. right; auto.
Qed.
Lemma Nok_sub : forall act act', incl act' act -> Nok act -> Nok act'.
Proof. intros act act' I Nk u v Iu. apply Nk. auto. Qed.

(** A bundle that was just cut at [p0] ends here. *)
Lemma nested_end : forall fuel mu sw X u Y b pend pts ppend past heap m1 m2,
  base mu sw (X ++ u :: Y) [b] pend pts ppend past -> Ord p0 PL (X ++ u :: Y) (b :: pend) -> b_q u = p0 -> Nok (X ++ u :: Y) ->
  Permutation (sw_events sw) (ev_LR p0 u :: heap) -> hb heap -> lrs heap ((X ++ Y) ++ [b] ++ pend) ->
  exists sw' mu' X' Y' nw,
    (let* (ev, sw1') := expect (pop tie sw) m1 in
     let* (sw1'', done) := handle_event ln tie (S fuel) sw1' ev in
     let* _ := check done m2 in Ok sw1'') = Ok sw' /\
    mu = S mu' /\ lst mu' sw' (X' ++ Y') [b] (nw ++ pend) pts ppend past /\
    Forall2 (shr0 p0) X X' /\ Forall2 (shr0 p0) Y Y' /\
    sw_out sw' = sw_out sw ++ reports (b_geom u) false (b_mem u).
Proof.
  intros fuel mu sw X u Y b pend pts ppend past heap m1 m2 Ba Or Qu Nk PH Hb Hl.
  assert (NE : sw_events sw <> []) by (intro E; rewrite E in PH; apply Permutation_nil in PH; discriminate).
  destruct (heap_pop_ok (tie (sw_clock sw)) _ NE) as (ev & h' & EP & P & Mn).
  unfold pop. rewrite EP. cbn [expect bind].
  assert (Ev : ev = ev_LR p0 u).
  { assert (I : In ev (ev_LR p0 u :: heap)) by (eapply Permutation_in; [exact PH|eapply Permutation_in; [symmetry; exact P|left; auto]]).
    destruct I as [<-|I]; auto. exfalso.
    assert (Q : ev_le ev (ev_LR p0 u)) by (apply Mn; eapply Permutation_in; [symmetry; exact PH|left; auto]).
    destruct (Hb _ I) as [L|[E L]]; destruct Q as [Q|[Q1 Q2]]; cbn [ev_LR ev_point ev_ty ty_rank] in *; try lia.
    - lord.
    - rewrite Q1 in L. lord.
    - rewrite E in Q. lord. }
  subst ev.
  assert (PH' : Permutation h' heap) by (apply (Permutation_cons_inv (a := ev_LR p0 u)); rewrite <- P; exact PH).
  set (sw1 := mkSweep _ h' _ _ _).
  assert (Ba1 : exists mu', mu = S mu' /\ base mu' sw1 (X ++ u :: Y) [b] pend pts ppend past).
  { destruct Ba as [B1 B2 B3 B4 B5 B6 B7 B8 B9]. apply (core_heap _ _ _ _ _ _ _ _ _ _ _ _ P) in B1.
    apply core_drop in B1 as (mu' & E & B1); [|reflexivity|reflexivity]. exists mu'. split; auto. constructor; auto. }
  destruct Ba1 as (mu' & Emu & Ba1).
  destruct (handle_LR fuel PL mu' sw1 X u Y [b] pend pts ppend past (b :: pend) Ba1 Or Qu) as (sw2 & X' & Y' & nw & evs & E2 & Ba2 & SX & SY & Sm & Nw & Ev2 & Ve & Ou & Lr).
  { intros v Vv Ov Lv. apply (Nk u v); auto. apply in_or_app; right; left; auto. }
  unfold ev_LR in E2 |- *. rewrite E2. cbn [bind check].
  exists sw2, mu', X', Y', nw. split; [reflexivity|]. split; [exact Emu|].
  split; [|split; [exact SX|split; [exact SY|exact Ou]]].
  assert (Ru : inrange V p0 PL u) by (destruct Or as (R & _); rewrite Forall_forall in R; apply R; apply in_or_app; right; left; auto).
  assert (G : forall x, In x (X ++ u :: Y) -> good x) by (intros x Ix; destruct Or as (R & _); rewrite Forall_forall in R; apply R; auto).
  constructor.
  - exact Ba2.
  - apply ord_remove with (a := u).
    + eapply (ord_shr e V HT p0 Vp0 PL (X ++ u :: Y)); [| |exact Or].
      * apply Forall2_app; auto. constructor; auto. split; [apply shr_refl; apply Ru|apply Ru].
      * apply pend_le_incl. intros w [<-|Iw]; [left; auto|]. right. cbn [app]. apply in_or_app; auto.
    + intros x y Ex Ey. left. auto.
  - rewrite Ev2. intros x Ix. apply in_app_iff in Ix as [Ix|[<-|Ix]].
    + rewrite <- Ev2. apply Lr; [|rewrite app_assoc; apply in_or_app; auto].
      intros z Iz. eapply Permutation_in; [symmetry; exact PH'|]. apply Hl. apply in_or_app; auto.
    + apply in_or_app; right. eapply Permutation_in; [symmetry; exact PH'|]. apply Hl. apply in_or_app; right; left; auto.
    + cbn [app] in Ix. apply in_app_iff in Ix as [Ix|Ix].
      * rewrite <- Ev2. apply Lr; [|rewrite app_assoc; apply in_or_app; auto].
        intros z Iz. eapply Permutation_in; [symmetry; exact PH'|]. apply Hl. apply in_or_app; auto.
      * apply in_or_app; right. eapply Permutation_in; [symmetry; exact PH'|]. apply Hl. apply in_or_app; right; right; auto.
  - rewrite Ev2. intros ev I. apply in_app_iff in I as [I|I]; [left; auto|]. apply Hb. eapply Permutation_in; [exact PH'|exact I].
  - apply (Nok_shr (X ++ Y)); [intros x Ix; apply G; apply in_app_iff in Ix; apply in_or_app; simpl; tauto|apply Forall2_app; auto|].
    eapply Nok_sub; [|exact Nk]. intros x Ix. apply in_app_iff in Ix. apply in_or_app. simpl. tauto.
Qed.

(** ** Overlaps *)
Lemma cells_tail : forall (ms1 : list (mem nat)) m1 g ov (k : option nat), exists R, forall ms2, hk ms2 = k ->
  Permutation (cells g ov (m1 :: ms1 ++ ms2)) (cells g true ms2 ++ R).
Proof.
  induction ms1 as [|m ms1 IH]; intros m1 g ov k.
  - exists [(m_key m1, mkSeg g (m_key m1) (m_c m1) (m_first m1) (m_done m1) k ov)]. intros ms2 E. cbn [cells app]. rewrite E. apply Permutation_cons_append.
  - destruct (IH m g true k) as (R & HR). exists ((m_key m1, mkSeg g (m_key m1) (m_c m1) (m_first m1) (m_done m1) (Some (m_key m)) ov) :: R).
    intros ms2 E. specialize (HR ms2 E). change ((m1 :: (m :: ms1) ++ ms2)) with (m1 :: (m :: ms1 ++ ms2)).
    cbn [cells]. cbn [cells] in HR. rewrite HR. cbn [hk hd_error option_map]. apply Permutation_middle.
Qed.
Lemma reports_done : forall g l (ms : list (mem nat)), reports g l (map set_done ms) = reports g l ms.
Proof.
  intros g l. induction ms as [|m ms IH]; [reflexivity|]. cbn [map reports]. rewrite IH. cbn [set_done m_c m_first m_key].
  f_equal. destruct ms; reflexivity.
Qed.
Lemma same_mem_refl : forall ms : list (mem nat), Forall2 same_mem ms ms.
Proof. induction ms; constructor; auto. repeat split. Qed.
Lemma same_mem_done : forall ms : list (mem nat), Forall2 same_mem ms (map set_done ms).
Proof. induction ms; constructor; auto. repeat split. Qed.
Definition joined (u b : bundle) : bundle := mkB (b_p u) (b_q u) (b_mem u ++ map set_done (b_mem b)).

Lemma base_join : forall mu sw X u Y b pend pts ppend past, base mu sw (X ++ u :: Y) [b] pend pts ppend past ->
  b_p u = p0 -> b_p b = p0 -> b_q u = b_q b ->
  exists sl' sw'', chain_overlap sw (b_key u) (b_key b) = Ok (set_segs sl' sw) /\
    (exists s, slab_get_unchecked sl' (b_key u) = Ok s /\ sg_done s = true) /\
    (exists s, slab_get_unchecked sl' (b_key b) = Ok s) /\
    report_left (chain_fuel sl') (set_segs sl' sw) (Some (b_key b)) LineLeft = Ok sw'' /\
    base mu sw'' (X ++ joined u b :: Y) [] pend pts ppend past /\
    sw_events sw'' = sw_events sw /\ sw_out sw'' = sw_out sw ++ reports (b_geom b) true (b_mem b).
Proof.
  intros mu sw X u Y b pend pts ppend past Ba Pu Pb Eq.
  assert (P : Permutation ((X ++ u :: Y) ++ [b] ++ pend) (u :: b :: (X ++ Y) ++ pend)).
  { rewrite <- !app_assoc. cbn [app]. rewrite <- (Permutation_middle X). constructor.
    rewrite !app_assoc. rewrite <- Permutation_middle. reflexivity. }
  pose proof (core_perm _ _ _ _ _ _ _ _ _ _ _ _ P (ba_core _ _ _ _ _ _ _ _ Ba)) as Co.
  pose proof (co_srep _ _ _ _ _ _ _ _ _ _ _ Co) as R. cbn [flat_map] in R. rewrite <- !app_assoc in R.
  pose proof (co_ne _ _ _ _ _ _ _ _ _ _ _ Co u (or_introl eq_refl)) as Nu.
  pose proof (co_ne _ _ _ _ _ _ _ _ _ _ _ Co b (or_intror (or_introl eq_refl))) as Nb.
  assert (Eg : b_geom u = b_geom b) by (unfold b_geom; congruence).
  destruct (chain_bundles sw u b _ Nu Nb Eg R) as (sl' & E1 & R1).
  assert (Epq : b_p u = b_p b) by congruence.
  assert (R1' : srep sl' (bcells (merged u b) ++ flat_map bcells ((X ++ Y) ++ pend) ++ map pcell pts)).
  { rewrite <- app_assoc. exact R1. }
  pose proof (core_merge _ _ _ _ _ _ _ _ _ _ _ _ _ _ Co Epq Eq R1') as Co2.
  assert (Dn : forall m, In m (b_mem u) -> m_done m = true).
  { intros m. apply (ba_done _ _ _ _ _ _ _ _ Ba). apply in_or_app; right; left; auto. }
  exists sl'.
  destruct (b_mem u) as [|m1 ms1] eqn:Em; [contradiction|].
  destruct (cells_tail ms1 m1 (b_geom u) false (hk (b_mem b))) as (RR & HRR).
  assert (BC : bcells (merged u b) = cells (b_geom u) false (m1 :: ms1 ++ b_mem b)).
  { unfold bcells, merged, b_geom. cbn [b_p b_q b_mem]. rewrite Em. reflexivity. }
  pose proof (HRR (b_mem b) eq_refl) as PR1. rewrite <- BC in PR1.
  assert (R2 : srep (sw_segs (set_segs sl' sw)) (cells (b_geom u) true (b_mem b) ++ RR ++ flat_map bcells ((X ++ Y) ++ pend) ++ map pcell pts)).
  { cbn [set_segs sw_segs]. eapply srep_perm; [|exact R1']. rewrite PR1, !app_assoc. reflexivity. }
  assert (FL : List.length (b_mem b) < chain_fuel sl').
  { unfold chain_fuel. pose proof (srep_length _ _ R2) as L. rewrite app_length, cells_length in L. cbn [set_segs sw_segs] in L. lia. }
  destruct (report_left_ok (b_mem b) (chain_fuel sl') (set_segs sl' sw) (b_geom u) true _ FL R2) as (sl3 & E3 & R3).
  assert (HK : Some (b_key b) = hk (b_mem b)) by (unfold b_key; destruct (b_mem b); [contradiction|reflexivity]).
  exists (mkSweep sl3 (sw_events sw) (sw_active sw) (sw_out sw ++ reports (b_geom b) true (b_mem b)) (sw_clock sw)).
  split; [exact E1|]. split.
  { exists (rs (merged u b)). split.
    - pose proof (root_get_unchecked _ _ _ _ _ _ _ _ _ _ _ _ Co2 (or_introl eq_refl)) as RG.
      unfold merged at 1, b_key at 1 in RG. cbn [b_mem] in RG. rewrite Em in RG. cbn [app] in RG. unfold b_key. rewrite Em. exact RG.
    - unfold rs, merged. cbn [b_mem]. rewrite Em. cbn [app sg_done]. apply Dn. left; auto. }
  split.
  { destruct (b_mem b) as [|mb msb] eqn:Emb; [contradiction|]. exists (mkSeg (b_geom u) (m_key mb) (m_c mb) (m_first mb) (m_done mb) (hk msb) true).
    apply slab_get_unchecked_ok. unfold b_key. rewrite Emb. apply (srep_get _ _ _ _ R2). left. reflexivity. }
  split. { rewrite HK, E3. cbn [set_segs sw_events sw_active sw_out sw_clock]. rewrite Eg. reflexivity. }
  split; [|split; reflexivity].
  (* the new state *)
  assert (Co3 : core mu sl3 (sw_events sw) ((past ++ sw_out sw) ++ reports (b_geom b) true (b_mem b)) (joined u b :: (X ++ Y) ++ pend) pend pts ppend).
  { unfold joined. eapply core_redone.
    - rewrite <- Eg. apply (core_left _ _ _ _ _ _ _ (merged u b) (b_mem b) _ _ _ _ Co2 (or_introl eq_refl)).
      intros m Im. cbn [merged b_mem]. apply in_or_app; auto.
    - apply Forall2_app; [apply same_mem_refl|apply same_mem_done].
    - eapply srep_perm; [|exact R3]. unfold bcells at 2, b_geom at 2. cbn [b_p b_q b_mem]. rewrite Em.
      cbn [app]. rewrite (HRR (map set_done (b_mem b)) (hk_done _)), !app_assoc. reflexivity. }
  destruct Ba as [B1 B2 B3 B4 B5 B6 B7 B8 B9]. constructor; auto.
  - cbn [sw_segs sw_events sw_out]. rewrite app_assoc. eapply core_perm; [|exact Co3].
    rewrite <- !app_assoc. cbn [app]. apply Permutation_middle.
  - cbn [sw_active]. rewrite map_app in *. cbn [map] in *. unfold joined, b_key at 2. cbn [b_mem]. rewrite Em. unfold b_key at 2 in B2. rewrite Em in B2. exact B2.
  - intros x m I Im. apply in_app_iff in I as [I|[<-|I]].
    + apply (B3 x); auto. apply in_or_app; auto.
    + cbn [joined b_mem] in Im. apply in_app_iff in Im as [Im|Im]; [rewrite Em in Im; auto|]. apply in_map_iff in Im as (m' & <- & _). reflexivity.
    + apply (B3 x); auto. apply in_or_app; right; right; auto.
  - intros x m I. apply B4. cbn [app] in *. right; auto.
  - intros c. cbn [sw_out]. rewrite app_assoc, started_app, (ended_app c (past ++ sw_out sw)). unfold b_geom.
    rewrite started_left, ended_left, app_nil_r, (B5 c), !map_app, <- app_assoc. apply Permutation_app_head.
    rewrite !current_app, !current_cons, !map_app. cbn [joined b_p b_q b_mem]. rewrite filter_app, map_app, map_app, !map_map. cbn [fst].
    rewrite <- !app_assoc. apply Permutation_app_head. apply Permutation_app_head. rewrite Permutation_app_comm. apply Permutation_app_tail.
    rewrite Pu, Pb. rewrite (map_const_len p0 _ (filter (fun m => m_c m =? c) (map set_done (b_mem b)))); [reflexivity|].
    symmetry. apply same_filter. apply same_mem_done.
  - cbn [sw_out]. intros x I. apply in_app_iff in I as [I|I]; [auto|].
    apply reports_in in I as (E1' & E2' & _). unfold crpt, b_geom in *. rewrite E1', E2'. auto.
  - cbn [sw_out]. apply ovl_ok_app; auto. apply ovl_ok_reports.
  - cbn [sw_out]. apply rep_more.
    + intros x Ix _. apply reports_in in Ix as (E1' & _). exists (joined u b). split; [apply in_or_app; right; left; auto|]. split; [exact Pu|].
      unfold col. rewrite E1'. cbn [joined b_p b_q b_geom lop_second]. rewrite Eq. unfold cross. ring.
    + eapply rep_same1; [|exact B9]. split; [reflexivity|]. split; [|intros x; reflexivity].
      unfold joined, b_key. cbn [b_mem]. rewrite Em. reflexivity.
Qed.

Lemma base_chain : forall mu sw act b P1 mb P2 pts ppend past, base mu sw act [b] (P1 ++ mb :: P2) pts ppend past ->
  b_p mb = b_p b -> b_q mb = b_q b ->
  exists sl', chain_overlap sw (b_key mb) (b_key b) = Ok (set_segs sl' sw) /\
    (exists s, slab_get_unchecked sl' (b_key mb) = Ok s /\ sg_done s = false) /\
    base mu (set_segs sl' sw) act [] (P1 ++ merged mb b :: P2) pts ppend past.
Proof.
  intros mu sw act b P1 mb P2 pts ppend past Ba Ep Eq.
  assert (P : Permutation (act ++ [b] ++ P1 ++ mb :: P2) (mb :: b :: act ++ P1 ++ P2)).
  { cbn [app]. rewrite <- (Permutation_middle act). rewrite perm_swap. constructor. rewrite !app_assoc. symmetry. apply Permutation_middle. }
  pose proof (core_perm _ _ _ _ _ _ _ _ _ _ _ _ P (ba_core _ _ _ _ _ _ _ _ Ba)) as Co.
  pose proof (co_srep _ _ _ _ _ _ _ _ _ _ _ Co) as R. cbn [flat_map] in R. rewrite <- !app_assoc in R.
  pose proof (co_ne _ _ _ _ _ _ _ _ _ _ _ Co mb (or_introl eq_refl)) as Nm.
  pose proof (co_ne _ _ _ _ _ _ _ _ _ _ _ Co b (or_intror (or_introl eq_refl))) as Nb.
  assert (Eg : b_geom mb = b_geom b) by (unfold b_geom; congruence).
  destruct (chain_bundles sw mb b _ Nm Nb Eg R) as (sl' & E1 & R1).
  pose proof (core_merge _ _ _ _ _ _ _ _ _ _ _ _ _ _ Co Ep Eq R1) as Co2.
  assert (Ek : b_key (merged mb b) = b_key mb) by (unfold b_key, merged; cbn [b_mem]; destruct (b_mem mb); [contradiction|reflexivity]).
  assert (Dn : forall m, In m (b_mem (merged mb b)) -> m_done m = false).
  { intros m Im. cbn [merged b_mem] in Im. apply in_app_iff in Im as [Im|Im].
    - apply (ba_new _ _ _ _ _ _ _ _ Ba mb); auto. rewrite !in_app_iff; simpl; auto.
    - apply (ba_new _ _ _ _ _ _ _ _ Ba b); auto. left; auto. }
  exists sl'. split; [exact E1|]. split.
  { exists (rs (merged mb b)). split; [rewrite <- Ek; apply (root_get_unchecked _ _ _ _ _ _ _ _ _ _ _ _ Co2 (or_introl eq_refl))|].
    apply rs_done; auto. eapply co_ne; [exact Co2|left; auto]. }
  destruct Ba as [B1 B2 B3 B4 B5 B6 B7 B8 B9]. constructor; auto.
  - cbn [set_segs sw_segs sw_events sw_out].
    assert (Co3 : core mu sl' (sw_events sw) (past ++ sw_out sw) (merged mb b :: act ++ P1 ++ P2) (P1 ++ merged mb b :: P2) pts ppend).
    { eapply core_pend; [|exact Co2]. rewrite !map_app. cbn [map]. unfold evLL at 2 5, ev_LL. rewrite Ek. reflexivity. }
    eapply core_perm; [|exact Co3]. cbn [app]. rewrite !app_assoc. apply Permutation_middle.
  - intros x m I Im. cbn [app] in I. apply in_app_iff in I as [I|[<-|I]].
    + apply (B4 x); auto. rewrite !in_app_iff; auto.
    + auto.
    + apply (B4 x); auto. rewrite !in_app_iff; simpl; auto.
Qed.

(** ** One round of the neighbours' loop *)
Inductive rout (mu : nat) (X : list bundle) (u : bundle) (Y : list bundle) (b : bundle) (pend : list bundle)
  (pts ppend : list pin) (past : list crossing) : sweep * segment nat * flow -> Prop :=
| rk_keep : forall sw' u' b' nw, lst mu sw' (X ++ u' :: Y) [b'] (nw ++ pend) pts ppend past ->
    shr0 p0 u u' -> shr b b' -> clean u' b' -> ~ same_line u b -> (H u (tl p0) = cy p0 -> b_p u = p0) ->
    rout mu X u Y b pend pts ppend past (sw', rs b', Continue)
| rk_hit : forall sw' mu' X' Y' nw w, mu' <= mu -> lst mu' sw' (X' ++ Y') [b] (nw ++ pend) pts ppend past ->
    Forall2 (shr0 p0) X X' -> Forall2 (shr0 p0) Y Y' -> H u (tl p0) = cy p0 -> lex_lt (b_p u) p0 -> ~ same_line u b ->
    In w (nw ++ pend) -> b_p w = p0 -> same_line u w ->
    rout mu X u Y b pend pts ppend past (sw', rs b, Continue)
| rk_break : forall sw' sw'' s u'' nw,
    report_left (chain_fuel (sw_segs sw')) sw' (Some (b_key b)) LineLeft = Ok sw'' ->
    lst mu sw'' (X ++ u'' :: Y) [] (nw ++ pend) pts ppend past -> b_p u'' = p0 -> sw_out sw'' <> [] ->
    rout mu X u Y b pend pts ppend past (sw', s, Break)
| rk_ret : forall sw' s mu' X' Y' pend', mu' <= mu -> lst mu' sw' (X' ++ Y') [] pend' pts ppend past ->
    Forall2 (shr0 p0) X X' -> Forall2 (shr0 p0) Y Y' -> H u (tl p0) = cy p0 -> lex_lt (b_p u) p0 -> sw_out sw' <> [] ->
    rout mu X u Y b pend pts ppend past (sw', s, Return).

Lemma reports_ne : forall (out : list (M_Sweep.crossing nat)) g l (ms : list (mem nat)), ms <> [] -> out ++ reports g l ms <> [].
Proof. intros out g l [|m ms] N E; [contradiction|]. apply app_eq_nil in E as [_ E]. discriminate. Qed.


Lemma cut_after : forall r z z' nwz evz, cut r z z' nwz evz -> r = b_p z \/ lex_lt p0 r ->
  (forall ev, In ev evz -> lex_lt p0 (ev_point ev)) /\ (forall w, In w nwz -> lex_lt p0 (b_p w)).
Proof.
  intros r z z' nwz evz Cz Hr. split.
  - intros ev Iev. destruct (cut_evs _ _ _ _ _ _ Cz Iev) as [L|(E & L1 & L2 & _)].
    + destruct Cz as [_ _ _ ->|nb L1 L2 _ _ _ _]; [destruct Iev|]. destruct Hr as [Hr|Hr]; [subst; exfalso; lord|lord].
    + rewrite E. destruct Hr as [Hr|Hr]; [subst; exfalso; lord|auto].
  - intros w Iw. destruct (cut_new _ _ _ _ _ _ Cz Iw) as (-> & _ & L1 & L2 & _).
    destruct Hr as [Hr|Hr]; [subst; exfalso; lord|auto].
Qed.
Lemma shr_pend : forall (b b' : bundle) (nw pend : list bundle), good b -> shr b b' -> pend_le e (b :: pend) (b' :: nw ++ pend).
Proof.
  intros b b' nw pend G Sb w [<-|Iw].
  - exists b'. split; [left; auto|split; [apply Sb|apply (shr_same e V HT); auto]].
  - exists w. split; [right; apply in_or_app; auto|split; [auto|apply same_line_refl]].
Qed.

Lemma round_ok : forall fuel mu sw X u Y b pend pts ppend past,
  lst mu sw (X ++ u :: Y) [b] pend pts ppend past -> b_p b = p0 ->
  exists o, ll_round ln tie (handle_event ln tie (S fuel)) (evLL b) sw (rs b) (b_key u) = Ok o /\
    rout mu X u Y b pend pts ppend past o.
Proof.
  intros fuel mu sw X u Y b pend pts ppend past Ls Pb.
  pose proof (ls_base _ _ _ _ _ _ _ _ Ls) as Ba. pose proof (ba_core _ _ _ _ _ _ _ _ Ba) as Co.
  pose proof (ls_ord _ _ _ _ _ _ _ _ Ls) as Or. cbn [app] in Or.
  assert (Iu : In u ((X ++ u :: Y) ++ [b] ++ pend)) by (rewrite !in_app_iff; simpl; auto).
  assert (Ib : In b ((X ++ u :: Y) ++ [b] ++ pend)) by (rewrite !in_app_iff; simpl; auto).
  pose proof (core_good _ _ _ _ _ _ _ _ _ _ _ _ Co Iu) as Gu. pose proof (core_good _ _ _ _ _ _ _ _ _ _ _ _ Co Ib) as Gb.
  assert (Ru : inrange V p0 PL u) by (destruct Or as (R & _); rewrite Forall_forall in R; apply R; apply in_or_app; right; left; auto).
  assert (Pu : lex_le (b_p u) p0) by apply Ru.
  pose proof (ls_q _ _ _ _ _ _ _ _ u Ls Iu) as Qu. pose proof (ls_q _ _ _ _ _ _ _ _ b Ls Ib) as Qb.
  assert (Rg : Forall (inrange V p0 PL) (X ++ u :: Y)) by apply Or.
  assert (SX : Forall2 (shr0 p0) X X) by (apply (shr0_refl V p0 PL); apply Forall_app in Rg; tauto).
  assert (SY : Forall2 (shr0 p0) Y Y) by (apply (shr0_refl V p0 PL); apply Forall_app in Rg as [_ Rg]; inversion Rg; auto).
  assert (Ga : forall x, In x (X ++ u :: Y) -> good x) by (intros x Ix; rewrite Forall_forall in Rg; apply Rg; auto).
  unfold ll_round. rewrite (root_get _ _ _ _ _ _ _ _ _ _ _ _ Co Iu). cbn [expect bind]. rewrite !rs_geom.
  destruct (inter_bundles V b u Gb Gu) as (o & Eo & Io). rewrite f_line, Eo by (eapply core_piece; eauto). cbn [bind].
  assert (NS : (forall r1 r2, o <> Some (Line r1 r2)) -> ~ same_line u b).
  { intros No SL. destruct (same_overlap e V HT p0 b u o) as (r1 & r2 & E); auto; [apply same_line_sym; auto|rewrite Pb; apply lex_le_refl|].
    eapply No; eauto. }
  assert (On : H u (tl p0) = cy p0 -> onb u p0 /\ onb b p0).
  { intros E. split; [apply (onb_of e V HT); auto; apply lex_lt_le; auto|]. rewrite <- Pb. apply onb_p. }
  destruct o as [[r|r1 r2]|].
  - (* a point *)
    destruct Io as [Vr0 Io]. destruct (proj1 (Io r) eq_refl) as [Ob Ou].
    assert (NSL : ~ same_line u b) by (apply NS; discriminate).
    assert (Vr : In r V) by (apply (cross_V ln n e V HT HV1 HV2 _ _ _ _ _ _ _ _ u b r Co); auto).
    destruct (onb_between V _ _ Gb Ob) as [Lr _]. rewrite Pb in Lr.
    destruct (base_cut_act _ _ _ _ _ _ _ _ _ _ _ Ba Vr Ou) as (sl1 & u' & nw1 & ev1 & E1 & Cu & Ba1). rewrite E1. cbn [bind].
    pose proof (cut_shr V r u u' nw1 ev1 Gu Vr Ou Cu) as Su.
    assert (Eku : b_key u' = b_key u) by apply Su. assert (Epu : b_p u' = b_p u) by apply Su.
    assert (RG1 : slab_get_unchecked (sw_segs (with_segs_events sl1 ev1 sw)) (b_key u) = Ok (rs u')).
    { rewrite <- Eku. eapply root_get_unchecked; [eapply ba_core; exact Ba1|]. rewrite !in_app_iff; simpl; auto. }
    rewrite RG1. cbn [bind]. rewrite !rs_geom. unfold b_geom. cbn [lop_first]. rewrite Epu, Pb.
    destruct (pt_dec r p0) as [Er|Er].
    + subst r. destruct (pt_dec (b_p u) p0) as [Eu|Eu].
      * (* both start here *)
        rewrite Eu. destruct (peqb_spec p0 p0) as [_|]; [|contradiction]. cbn [negb andb bind].
        destruct (base_cut_cur _ _ _ _ _ _ _ _ _ Ba1 Vr Ob) as (sl2 & b' & nw2 & ev2 & E2 & Cb & Ba2).
        unfold evLL, ev_LL. cbn [ev_key]. rewrite E2. cbn [bind].
        pose proof (cut_shr V p0 b b' nw2 ev2 Gb Vr Ob Cb) as Sb. assert (Ekb : b_key b' = b_key b) by apply Sb.
        assert (RG2 : slab_get_unchecked (sw_segs (with_segs_events sl2 ev2 (with_segs_events sl1 ev1 sw))) (b_key b) = Ok (rs b')).
        { rewrite <- Ekb. eapply root_get_unchecked; [eapply ba_core; exact Ba2|]. rewrite !in_app_iff; simpl; auto. }
        rewrite RG2. cbn [bind check Bool.eqb].
        assert (Hu1 : u' = u /\ nw1 = [] /\ ev1 = []).
        { destruct Cu as [_ -> -> ->|nb L1 L2 _ _ _ _]; auto. rewrite Eu in L1. exfalso. lord. }
        assert (Hb1 : b' = b /\ nw2 = [] /\ ev2 = []).
        { destruct Cb as [_ -> -> ->|nb L1 L2 _ _ _ _]; auto. rewrite Pb in L1. exfalso. lord. }
        destruct Hu1 as (-> & -> & ->). destruct Hb1 as (-> & -> & ->).
        eexists. split; [reflexivity|].
        apply rk_keep with (u' := u) (nw := []); auto.
        -- destruct Ls as [L1 L2 L3 L4 L5]. constructor; auto.
        -- split; [apply shr_refl; auto|apply lex_lt_le; auto].
        -- apply clean_sym. intros x Ox Oy. assert (x = p0) by (apply Io; split; auto). subst x. left. auto.
      * (* it passes through: split, and the first part ends *)
        assert (L1 : lex_lt (b_p u) p0) by (apply lex_le_neq; auto).
        destruct (peqb_spec p0 (b_p u)) as [Q|_]; [exfalso; apply Eu; auto|]. destruct (peqb_spec p0 p0) as [_|]; [|contradiction]. cbn [negb andb].
        destruct Cu as [[Q|Q] _ _ _|nb _ _ (F1 & F2 & F3 & F4) -> -> ->]; [exfalso; apply Eu; auto|exfalso; rewrite <- Q in Qu; lord|].
        assert (Cu : cut p0 u (trunc p0 u) [nb] [ev_LR (b_q u) nb; ev_LL p0 nb; ev_LR p0 u]) by (eapply cut_at; eauto; repeat split; auto).
        destruct (cut_same e V HT p0 u _ _ _ nb Gu Vp0 Ou Cu (or_introl eq_refl)) as [Gn SLn].
        assert (Ord1 : Ord p0 PL (X ++ trunc p0 u :: Y) (b :: [nb] ++ pend)).
        { eapply (ord_shr e V HT p0 Vp0 PL); [| |exact Or].
          - apply Forall2_app; auto. constructor; auto. split; [exact Su|apply lex_le_refl].
          - apply pend_le_incl. intros w [<-|Iw]; [left; auto|right; right; auto]. }
        destruct (nested_end fuel mu _ X (trunc p0 u) Y b ([nb] ++ pend) pts ppend past ([ev_LR (b_q u) nb; ev_LL p0 nb] ++ sw_events sw)
                    "sweep.rs:455 unwrap on None" "sweep.rs:457 special right-end event handling failed" Ba1 Ord1 eq_refl)
          as (sw2 & mu' & X' & Y' & nw & E2 & Emu & Ls2 & FX & FY & Out2).
        { apply (Nok_shr (X ++ u :: Y)); auto; [|apply (ls_N _ _ _ _ _ _ _ _ Ls)]. apply Forall2_app; auto. constructor; auto. split; [exact Su|apply lex_le_refl]. }
        { cbn [with_segs_events sw_events]. symmetry. unfold ev_LR. rewrite trunc_key. apply (Permutation_middle [_; _] (sw_events sw)). }
        { intros ev I. cbn [app] in I. destruct I as [<-|[<-|I]]; [left; exact Qu|right; cbn; auto|]. apply (ls_hb _ _ _ _ _ _ _ _ Ls); auto. }
        { intros x I. pose proof (ls_lr _ _ _ _ _ _ _ _ Ls) as LR. rewrite !in_app_iff in I. cbn [In] in I.
          assert (Q : x = nb \/ In x ((X ++ u :: Y) ++ [b] ++ pend)) by (rewrite !in_app_iff; simpl; intuition auto).
          destruct Q as [->|Q]; [left; rewrite F2; reflexivity|right; right; apply LR; auto]. }
        rewrite E2. cbn [bind].
        destruct (base_cut_cur _ _ _ _ _ _ _ _ _ (ls_base _ _ _ _ _ _ _ _ Ls2) Vr Ob) as (sl3 & b' & nw2 & ev2 & E3 & Cb & Ba3).
        unfold evLL, ev_LL. cbn [ev_key]. rewrite E3. cbn [bind].
        assert (Hb1 : b' = b /\ nw2 = [] /\ ev2 = []).
        { destruct Cb as [_ -> -> ->|nb' L1' L2 _ _ _ _]; auto. rewrite Pb in L1'. exfalso. lord. }
        destruct Hb1 as (-> & -> & ->).
        assert (RG2 : slab_get_unchecked (sw_segs (with_segs_events sl3 [] sw2)) (b_key b) = Ok (rs b)).
        { eapply root_get_unchecked; [eapply ba_core; exact Ba3|]. rewrite !in_app_iff; simpl; auto. }
        rewrite RG2. cbn [bind check Bool.eqb]. eexists. split; [reflexivity|].
        apply rk_hit with (mu' := mu') (X' := X') (Y' := Y') (nw := nw ++ [nb]) (w := nb); auto; try lia.
        -- destruct Ls2 as [M1 M2 M3 M4 M5]. rewrite <- app_assoc. constructor; auto.
        -- apply (onb_H e V HT); auto.
        -- rewrite !in_app_iff; simpl; auto.
    + (* they meet later *)
      assert (Lr' : lex_lt p0 r) by (apply lex_le_neq; auto).
      destruct (peqb_spec r p0) as [Q|_]; [contradiction|]. rewrite andb_false_r. cbn [bind].
      destruct (base_cut_cur _ _ _ _ _ _ _ _ _ Ba1 Vr Ob) as (sl2 & b' & nw2 & ev2 & E2 & Cb & Ba2).
      unfold evLL, ev_LL. cbn [ev_key]. rewrite E2. cbn [bind].
      pose proof (cut_shr V r b b' nw2 ev2 Gb Vr Ob Cb) as Sb. assert (Ekb : b_key b' = b_key b) by apply Sb.
      assert (RG2 : slab_get_unchecked (sw_segs (with_segs_events sl2 ev2 (with_segs_events sl1 ev1 sw))) (b_key b) = Ok (rs b')).
      { rewrite <- Ekb. eapply root_get_unchecked; [eapply ba_core; exact Ba2|]. rewrite !in_app_iff; simpl; auto. }
      rewrite RG2. cbn [bind check Bool.eqb]. eexists. split; [reflexivity|].
      destruct (cut_after _ _ _ _ _ Cu (or_intror Lr')) as [U1 U2]. destruct (cut_after _ _ _ _ _ Cb (or_intror Lr')) as [W1 W2].
      assert (Qu' : b_q u' = r) by (destruct (cut_q _ _ _ _ _ Cu) as [[Q _]|Q]; [exfalso; subst r; lord|auto]).
      assert (Qb' : b_q b' = r) by (destruct (cut_q _ _ _ _ _ Cb) as [[Q _]|Q]; [exfalso; rewrite Q, Pb in Lr'; lord|auto]).
      assert (Su0 : shr0 p0 u u') by (split; [exact Su|rewrite Qu'; apply lex_lt_le; auto]).
      assert (FA : Forall2 (shr0 p0) (X ++ u :: Y) (X ++ u' :: Y)) by (apply Forall2_app; auto).
      apply rk_keep with (u' := u') (nw := nw2 ++ nw1); auto.
      * constructor.
        -- rewrite <- app_assoc. exact Ba2.
        -- eapply (ord_shr e V HT p0 Vp0 PL); [exact FA| |exact Or]. apply (shr_pend b b' (nw2 ++ nw1) pend); auto.
        -- cbn [with_segs_events sw_events]. pose proof (ls_lr _ _ _ _ _ _ _ _ Ls) as LR.
           intros x Ix. rewrite !in_app_iff in Ix. cbn [In] in Ix.
           assert (Old : In x X \/ In x Y \/ In x pend -> In (ev_LR (b_q x) x) (ev2 ++ ev1 ++ sw_events sw)).
           { intros I. apply in_or_app; right; apply in_or_app; right. apply LR. rewrite !in_app_iff; simpl; tauto. }
           destruct Ix as [[Ix|[<-|Ix]]|[[<-|[]]|[[Ix|Ix]|Ix]]]; try (apply Old; tauto).
           ++ apply in_or_app; right. eapply cut_lr; [exact Cu|]. apply LR; auto.
           ++ eapply cut_lr; [exact Cb|]. apply in_or_app; right. apply LR; auto.
           ++ apply in_or_app; left. eapply cut_new; eauto.
           ++ apply in_or_app; right; apply in_or_app; left. eapply cut_new; eauto.
        -- cbn [with_segs_events sw_events]. intros ev I. apply in_app_iff in I as [I|I]; [left; auto|]. apply in_app_iff in I as [I|I]; [left; auto|].
           apply (ls_hb _ _ _ _ _ _ _ _ Ls); auto.
        -- apply (Nok_shr (X ++ u :: Y)); auto. apply (ls_N _ _ _ _ _ _ _ _ Ls).
      * apply clean_sym. apply (inter_point_clean e V HT b u r); auto. split; auto.
      * intros E. exfalso. destruct (On E) as [O1 O2]. apply Er. symmetry. apply Io. auto.
  - (* an overlap *)
    destruct (inter_line_same e V HT b u r1 r2 Gb Gu Io) as [SL L12].
    destruct (overlap_ends e V HT b u r1 r2 Gb Gu Io) as [En1 En2].
    assert (R1 : r1 = p0).
    { destruct En1 as [[-> _]|[-> Q]]; auto. rewrite Pb in Q. lord. }
    subst r1.
    destruct Io as [Io1 Io2]. destruct (proj1 (Io2 p0) (on_seg_start _ _)) as [Ob1 Ou1]. destruct (proj1 (Io2 r2) (on_seg_end _ _)) as [Ob2 Ou2].
    assert (V2 : In r2 V) by (destruct En2 as [[-> _]|[-> _]]; [apply Gb|apply Gu]).
    destruct (pt_dec (b_p u) p0) as [Eu|Eu].
    + (* it started here as well *)
      assert (L2u : lex_lt (b_p u) r2) by (rewrite Eu; auto). assert (L2b : lex_lt (b_p b) r2) by (rewrite Pb; auto).
      destruct (base_front_act _ _ _ _ _ _ _ _ _ _ _ Ba V2 Ou2 L2u) as (sl1 & u' & nw1 & ev1 & E1 & Cu & Ba1).
      rewrite Eu in E1. rewrite E1. cbn [bind].
      pose proof (cut_shr V r2 u u' nw1 ev1 Gu V2 Ou2 Cu) as Su.
      assert (Eku : b_key u' = b_key u) by apply Su. assert (Epu : b_p u' = b_p u) by apply Su.
      assert (RG1 : slab_get_unchecked (sw_segs (with_segs_events sl1 ev1 sw)) (b_key u) = Ok (rs u')).
      { rewrite <- Eku. eapply root_get_unchecked; [eapply ba_core; exact Ba1|]. rewrite !in_app_iff; simpl; auto. }
      rewrite RG1. cbn [bind]. rewrite !rs_geom. unfold b_geom. cbn [lop_first]. rewrite Epu, Eu.
      destruct (peqb_spec p0 p0) as [_|]; [|contradiction]. cbn [negb andb bind].
      destruct (base_front_cur _ _ _ _ _ _ _ _ _ Ba1 V2 Ob2 L2b) as (sl2 & b' & nw2 & ev2 & E2 & Cb & Ba2).
      rewrite Pb in E2. unfold evLL, ev_LL. cbn [ev_key]. rewrite E2. cbn [bind].
      pose proof (cut_shr V r2 b b' nw2 ev2 Gb V2 Ob2 Cb) as Sb. assert (Ekb : b_key b' = b_key b) by apply Sb.
      assert (RG2 : slab_get_unchecked (sw_segs (with_segs_events sl2 ev2 (with_segs_events sl1 ev1 sw))) (b_key b) = Ok (rs b')).
      { rewrite <- Ekb. eapply root_get_unchecked; [eapply ba_core; exact Ba2|]. rewrite !in_app_iff; simpl; auto. }
      rewrite RG2. cbn [bind check Bool.eqb expect].
      assert (Qu' : b_q u' = r2) by (destruct (cut_q _ _ _ _ _ Cu) as [[Q _]|Q]; [exfalso; rewrite Q in L2u; lord|auto]).
      assert (Qb' : b_q b' = r2) by (destruct (cut_q _ _ _ _ _ Cb) as [[Q _]|Q]; [exfalso; rewrite Q in L2b; lord|auto]).
      assert (Epb : b_p b' = p0) by (destruct Sb as (-> & _); exact Pb).
      destruct (base_join _ _ _ _ _ _ _ _ _ _ Ba2 (eq_trans Epu Eu) Epb (eq_trans Qu' (eq_sym Qb'))) as (sl3 & sw4 & E3 & (s1 & E4 & D4) & _ & E5 & Ba4 & Ev4 & Ou4).
      rewrite Eku, Ekb in E3. rewrite E3. cbn [bind]. rewrite Nat.eqb_refl. rewrite Eku in E4. cbn [set_segs sw_segs]. rewrite E4. cbn [bind]. rewrite D4.
      eexists. split; [reflexivity|].
      assert (Sj : shr0 p0 u (joined u' b')).
      { split; [split; [|split; [|split; [|split]]]|]; cbn [joined b_p b_q].
        - exact Epu.
        - rewrite Qu'. exact Ou2.
        - rewrite Epu, Qu'. exact L2u.
        - rewrite Qu'. exact V2.
        - rewrite <- Eku. unfold b_key, joined. cbn [b_mem]. destruct (b_mem u') eqn:Em; [|reflexivity]. exfalso.
          eapply co_ne; [eapply ba_core; exact Ba1| |exact Em]. rewrite !in_app_iff; simpl; auto.
        - rewrite Qu'. apply lex_lt_le; auto. }
      assert (FA : Forall2 (shr0 p0) (X ++ u :: Y) (X ++ joined u' b' :: Y)) by (apply Forall2_app; auto).
      destruct (cut_after _ _ _ _ _ Cu (or_intror L12)) as [U1 U2]. destruct (cut_after _ _ _ _ _ Cb (or_intror L12)) as [W1 W2].
      apply rk_break with (sw'' := sw4) (u'' := joined u' b') (nw := nw2 ++ nw1).
      * cbn [set_segs sw_segs]. rewrite <- Ekb. exact E5.
      * constructor.
        -- rewrite <- app_assoc. exact Ba4.
        -- cbn [app]. apply (ord_drop e V p0) with (x := joined u' b') (b := b).
           ++ eapply (ord_shr e V HT p0 Vp0 PL); [exact FA| |exact Or]. apply pend_le_incl.
              intros w [<-|Iw]; [left; auto|right; apply in_or_app; auto].
           ++ rewrite in_app_iff; simpl; auto.
           ++ apply same_line_trans with (v := u); [|apply same_line_sym; auto]. apply same_line_sym. apply (shr_same e V HT); auto. apply Sj.
        -- rewrite Ev4. cbn [with_segs_events sw_events]. pose proof (ls_lr _ _ _ _ _ _ _ _ Ls) as LR.
           intros x Ix. rewrite !in_app_iff in Ix. cbn [In] in Ix.
           assert (Old : In x X \/ In x Y \/ In x pend -> In (ev_LR (b_q x) x) (ev2 ++ ev1 ++ sw_events sw)).
           { intros I. apply in_or_app; right; apply in_or_app; right. apply LR. rewrite !in_app_iff; simpl; tauto. }
           destruct Ix as [[Ix|[<-|Ix]]|[[]|[[Ix|Ix]|Ix]]]; try (apply Old; tauto).
           ++ apply in_or_app; right. assert (Ej : ev_LR (b_q (joined u' b')) (joined u' b') = ev_LR (b_q u') u').
              { unfold ev_LR. f_equal. destruct Sj as [(_ & _ & _ & _ & Q) _]. rewrite Q. auto. }
              rewrite Ej. eapply cut_lr; [exact Cu|]. apply LR; auto.
           ++ apply in_or_app; left. eapply cut_new; eauto.
           ++ apply in_or_app; right; apply in_or_app; left. eapply cut_new; eauto.
        -- rewrite Ev4. cbn [with_segs_events sw_events]. intros ev I. apply in_app_iff in I as [I|I]; [left; auto|]. apply in_app_iff in I as [I|I]; [left; auto|].
           apply (ls_hb _ _ _ _ _ _ _ _ Ls); auto.
        -- apply (Nok_shr (X ++ u :: Y)); auto. apply (ls_N _ _ _ _ _ _ _ _ Ls).
      * cbn [joined b_p]. congruence.
      * rewrite Ou4. apply reports_ne. eapply co_ne; [eapply ba_core; exact Ba2|]. rewrite !in_app_iff; simpl; auto.
    + (* it started before: the overlapping part becomes a pending bundle *)
      assert (L1 : lex_lt (b_p u) p0) by (apply lex_le_neq; auto).
      assert (L2b : lex_lt (b_p b) r2) by (rewrite Pb; auto).
      destruct (base_inner_act _ _ _ _ _ _ _ _ _ _ _ _ Ba Vp0 V2 Ou1 Ou2 L1 L12)
        as (sl1 & mb & nws & evs & evs' & E1 & M1 & M2 & M3 & Mw & PE & Me & Ml & Ba1).
      rewrite E1. cbn [bind].
      assert (Su : shr u (trunc p0 u)).
      { split; [reflexivity|]. split; [exact Ou1|]. split; [exact L1|]. split; [exact Vp0|apply trunc_key]. }
      assert (RG1 : slab_get_unchecked (sw_segs (with_segs_events sl1 evs sw)) (b_key u) = Ok (rs (trunc p0 u))).
      { rewrite <- (trunc_key p0 u). eapply root_get_unchecked; [eapply ba_core; exact Ba1|]. rewrite !in_app_iff; simpl; auto. }
      rewrite RG1. cbn [bind]. rewrite !rs_geom. unfold b_geom. cbn [lop_first trunc b_p b_q]. rewrite Pb.
      destruct (peqb_spec p0 (b_p u)) as [Q|_]; [exfalso; apply Eu; auto|]. destruct (peqb_spec p0 p0) as [_|]; [|contradiction]. cbn [negb andb].
      assert (FA : Forall2 (shr0 p0) (X ++ u :: Y) (X ++ trunc p0 u :: Y)).
      { apply Forall2_app; auto. constructor; auto. split; [exact Su|apply lex_le_refl]. }
      assert (Ord1 : Ord p0 PL (X ++ trunc p0 u :: Y) (b :: (mb :: nws) ++ pend)).
      { eapply (ord_shr e V HT p0 Vp0 PL); [exact FA| |exact Or].
        apply pend_le_incl. intros w [<-|Iw]; [left; auto|right; right; apply in_or_app; auto]. }
      destruct (nested_end fuel mu _ X (trunc p0 u) Y b ((mb :: nws) ++ pend) pts ppend past (evs' ++ sw_events sw)
                  "sweep.rs:455 unwrap on None" "sweep.rs:457 special right-end event handling failed" Ba1 Ord1 eq_refl)
        as (sw2 & mu' & X' & Y' & nw & E2 & Emu & Ls2 & FX & FY & Out2).
      { apply (Nok_shr (X ++ u :: Y)); auto. apply (ls_N _ _ _ _ _ _ _ _ Ls). }
      { cbn [with_segs_events sw_events app]. unfold ev_LR. rewrite trunc_key. rewrite PE. reflexivity. }
      { intros ev I. apply in_app_iff in I as [I|I]; [|apply (ls_hb _ _ _ _ _ _ _ _ Ls); auto].
        destruct (Me ev I) as [Q|[Q1 Q2]]; [left; auto|right; split; auto]. rewrite Q2. cbn. auto. }
      { intros x I. pose proof (ls_lr _ _ _ _ _ _ _ _ Ls) as LR. rewrite !in_app_iff in I. cbn [In] in I.
        assert (Q : x = mb \/ In x nws \/ In x ((X ++ u :: Y) ++ [b] ++ pend)) by (rewrite !in_app_iff; simpl; intuition auto).
        destruct Q as [->|[Q|Q]]; [apply in_or_app; left; rewrite M2; exact Ml|apply in_or_app; left; apply Mw; auto|apply in_or_app; right; apply LR; auto]. }
      rewrite E2. cbn [bind].
      destruct (base_front_cur _ _ _ _ _ _ _ _ _ (ls_base _ _ _ _ _ _ _ _ Ls2) V2 Ob2 L2b) as (sl3 & b' & nw2 & ev2 & E3 & Cb & Ba3).
      rewrite Pb in E3. unfold evLL, ev_LL. cbn [ev_key]. rewrite E3. cbn [bind].
      pose proof (cut_shr V r2 b b' nw2 ev2 Gb V2 Ob2 Cb) as Sb. assert (Ekb : b_key b' = b_key b) by apply Sb.
      assert (RG2 : slab_get_unchecked (sw_segs (with_segs_events sl3 ev2 sw2)) (b_key b) = Ok (rs b')).
      { rewrite <- Ekb. eapply root_get_unchecked; [eapply ba_core; exact Ba3|]. rewrite !in_app_iff; simpl; auto. }
      rewrite RG2. cbn [bind check Bool.eqb expect].
      assert (Qb' : b_q b' = r2) by (destruct (cut_q _ _ _ _ _ Cb) as [[Q _]|Q]; [exfalso; rewrite Q in L2b; lord|auto]).
      assert (Epb : b_p b' = p0) by (destruct Sb as (-> & _); exact Pb).
      assert (Ba3' : base mu' (with_segs_events sl3 ev2 sw2) (X' ++ Y') [b'] ((nw2 ++ nw) ++ mb :: nws ++ pend) pts ppend past).
      { rewrite <- app_assoc. exact Ba3. }
      destruct (base_chain _ _ _ _ _ _ _ _ _ _ Ba3' (eq_trans M1 (eq_sym Epb)) (eq_trans M2 (eq_sym Qb'))) as (sl4 & E4 & (s1 & E5 & D5) & Ba4).
      rewrite Ekb in E4. rewrite E4. cbn [bind]. rewrite Nat.eqb_refl. cbn [set_segs sw_segs]. rewrite E5. cbn [bind]. rewrite D5.
      eexists. split; [reflexivity|].
      assert (Gmb : good mb) by (split; [rewrite M1, M2; auto|rewrite M1, M2; auto]).
      assert (Gm : good (merged mb b')) by (split; [|split]; cbn [merged b_p b_q]; apply Gmb).
      assert (Ekm : b_key (merged mb b') = b_key mb) by (unfold b_key, merged; cbn [b_mem]; destruct (b_mem mb); [contradiction|reflexivity]).
      assert (SLm : same_line mb (merged mb b')).
      { apply (sub_same e V HT); auto; [apply (onb_p mb)|apply (onb_q mb)]. }
      assert (SLb : same_line b (merged mb b')).
      { apply (sub_same e V HT); auto; cbn [merged b_p b_q]; [rewrite M1; auto|rewrite M2; auto]. }
      destruct (cut_after _ _ _ _ _ Cb (or_intror L12)) as [W1 W2].
      apply rk_ret with (mu' := mu') (X' := X') (Y' := Y') (pend' := (nw2 ++ nw) ++ merged mb b' :: nws ++ pend); auto; try lia.
      * constructor.
        -- exact Ba4.
        -- cbn [app]. eapply (ord_shr e V HT p0 Vp0 PL); [| |exact (ls_ord _ _ _ _ _ _ _ _ Ls2)].
           ++ apply (shr0_refl V p0 PL). apply (ls_ord _ _ _ _ _ _ _ _ Ls2).
           ++ intros w Iw. cbn [app] in Iw. destruct Iw as [<-|Iw].
              ** exists (merged mb b'). split; [rewrite !in_app_iff; simpl; auto|]. split; [cbn [merged b_p]; congruence|exact SLb].
              ** apply in_app_iff in Iw as [Iw|[<-|Iw]].
                 --- exists w. split; [rewrite !in_app_iff; simpl; auto|split; [auto|apply same_line_refl]].
                 --- exists (merged mb b'). split; [rewrite !in_app_iff; simpl; auto|]. split; [reflexivity|exact SLm].
                 --- exists w. split; [apply in_or_app; right; right; exact Iw|split; [auto|apply same_line_refl]].
        -- cbn [set_segs with_segs_events sw_events]. pose proof (ls_lr _ _ _ _ _ _ _ _ Ls2) as LR.
           intros x Ix. rewrite !in_app_iff in Ix. cbn [In] in Ix.
           assert (Old : In x X' \/ In x Y' \/ In x nw \/ In x nws \/ In x pend -> In (ev_LR (b_q x) x) (ev2 ++ sw_events sw2)).
           { intros I. apply in_or_app; right. apply LR. rewrite !in_app_iff; cbn [In]; tauto. }
           destruct Ix as [Ix|[[]|[[Ix|Ix]|[<-|Ix]]]]; try (apply Old; tauto).
           ++ apply in_or_app; left. eapply cut_new; eauto.
           ++ apply in_or_app; right. unfold ev_LR. rewrite Ekm. cbn [merged b_q]. apply (LR mb). rewrite !in_app_iff; cbn [In]; tauto.
           ++ apply Old. rewrite in_app_iff in Ix. tauto.
        -- cbn [set_segs with_segs_events sw_events]. intros ev I. apply in_app_iff in I as [I|I]; [left; auto|].
           apply (ls_hb _ _ _ _ _ _ _ _ Ls2); auto.
        -- apply (ls_N _ _ _ _ _ _ _ _ Ls2).
      * apply (onb_H e V HT); auto.
      * cbn [set_segs with_segs_events sw_out]. rewrite Out2. apply reports_ne. eapply co_ne; [eapply ba_core; exact Ba1|]. rewrite !in_app_iff; simpl; auto.
  - (* apart *)
    eexists. split; [reflexivity|].
    apply rk_keep with (u' := u) (nw := []); auto.
    + split; [apply shr_refl; auto|apply lex_lt_le; auto].
    + apply shr_refl; auto.
    + apply clean_sym. apply inter_none_clean. exact Io.
    + apply NS. discriminate.
    + intros E. exfalso. destruct (On E) as [O1 O2]. apply (Io p0). auto.
Qed.
End Handle.
