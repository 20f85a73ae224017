(** Looking things up during the sweep. *)
Require Import List String Bool Arith Lia Permutation Sorted.
From Verif Require Import Base Scalar M_Events M_Geo M_LineOrPoint M_Splay M_Slab M_Active M_Sweep.
From Verif Require Import S_Geo P_Geo P_LineOrPoint P_Tilt P_Slab P_Active P_Chain P_Bundle P_Tile P_Heap P_Order P_Inv.
Import Datatypes.
Import ListNotations.
Local Open Scope nat_scope.

(** The stored root of a bundle. *)
Definition rs (b : bundle) : segment nat :=
  match b_mem b with
  | m :: ms => mkSeg (b_geom b) (m_key m) (m_c m) (m_first m) (m_done m) (hk ms) false
  | [] => mkSeg (b_geom b) 0 0 false false None false
  end.
Lemma rs_geom : forall b, sg_geom (rs b) = b_geom b.
Proof. intros [p q [|m ms]]; reflexivity. Qed.
Lemma rs_key : forall b, sg_key (rs b) = b_key b.
Proof. intros [p q [|m ms]]; reflexivity. Qed.
Lemma rs_ovl : forall b, sg_is_ovl (rs b) = false.
Proof. intros [p q [|m ms]]; reflexivity. Qed.
Lemma rs_done : forall b d, b_mem b <> [] -> (forall m, In m (b_mem b) -> m_done m = d) -> sg_done (rs b) = d.
Proof. intros [p q [|m ms]] d N D; [contradiction|]. apply D. left; auto. Qed.

Section Store.
Variables (ln : nat -> line) (n : nat) (e : Qc) (V : list pt).
Hypothesis HT : tilts e (fun p => In p V).
Hypothesis HV1 : forall c a z, c < n -> geo ln c = Line a z -> In a V /\ In z V.
Hypothesis HV2 : forall c c' a z a' z' r, c < n -> c' < n -> geo ln c = Line a z -> geo ln c' = Line a' z' ->
  on_seg a z r -> on_seg a' z' r -> (forall r', on_seg a z r' -> on_seg a' z' r' -> r' = r) -> In r V.
Notation core := (core ln n V).
Notation good := (good V).
Notation shr := (shr V).
Notation same_line := (same_line e).
Notation clean := (@clean nat).
Notation Ord := (Ord e V).
Notation tl := (tilt e).

Lemma root_get : forall mu sl heap log allb pend pts ppend b, core mu sl heap log allb pend pts ppend -> In b allb ->
  slab_get sl (b_key b) = Some (rs b).
Proof.
  intros mu sl heap log allb pend pts ppend b Co Ib.
  pose proof (co_ne _ _ _ _ _ _ _ _ _ _ _ Co b Ib) as N. apply (srep_get _ _ _ _ (co_srep _ _ _ _ _ _ _ _ _ _ _ Co)).
  apply in_or_app. left. apply in_flat_map. exists b. split; auto. unfold bcells, b_key, rs.
  destruct (b_mem b) as [|m ms]; [contradiction|]. left; reflexivity.
Qed.
Lemma root_get_unchecked : forall mu sl heap log allb pend pts ppend b, core mu sl heap log allb pend pts ppend -> In b allb ->
  slab_get_unchecked sl (b_key b) = Ok (rs b).
Proof. intros. apply slab_get_unchecked_ok. eapply root_get; eauto. Qed.
Lemma pt_get : forall mu sl heap log allb pend pts ppend k c p, core mu sl heap log allb pend pts ppend -> In (k, c, p) pts ->
  slab_get sl k = Some (mkSeg (Point p) k c true false None false).
Proof.
  intros mu sl heap log allb pend pts ppend k c p Co I. apply (srep_get _ _ _ _ (co_srep _ _ _ _ _ _ _ _ _ _ _ Co)).
  apply in_or_app. right. apply in_map_iff. exists (k, c, p). auto.
Qed.
Lemma key_in_cells : forall (b : bundle), b_mem b <> [] -> In (b_key b) (map fst (bcells b)).
Proof. intros [p q [|m ms]] N; [contradiction|]. left; reflexivity. Qed.
Lemma NoDup_app_l : forall {X} (l l' : list X), NoDup (l ++ l') -> NoDup l.
Proof.
  intros X. induction l as [|x l IH]; intros l' N; [constructor|]. inversion N as [|? ? N1 N2]; subst. constructor; eauto.
  intro I. apply N1. apply in_or_app; auto.
Qed.
Lemma keys_NoDup : forall mu sl heap log allb pend pts ppend, core mu sl heap log allb pend pts ppend -> NoDup (map b_key allb).
Proof.
  intros mu sl heap log allb pend pts ppend Co. destruct (co_srep _ _ _ _ _ _ _ _ _ _ _ Co) as (_ & N & _).
  pose proof (co_ne _ _ _ _ _ _ _ _ _ _ _ Co) as NE. clear Co. rewrite map_app in N. apply NoDup_app_l in N.
  induction allb as [|b bs IH]; [constructor|]. cbn [flat_map map] in *. rewrite map_app in N. constructor.
  - intro I. apply in_map_iff in I as (b' & E & I).
    assert (X : In (b_key b) (map fst (bcells b))) by (apply key_in_cells; apply NE; left; auto).
    assert (Y : In (b_key b) (map fst (flat_map bcells bs))).
    { rewrite <- E. apply in_map_iff. pose proof (key_in_cells b' (NE b' (or_intror I))) as Z. apply in_map_iff in Z as (cl & E1 & I1).
      exists cl. split; auto. apply in_flat_map. eauto. }
    clear - N X Y. induction (map fst (bcells b)) as [|x l IH]; [destruct X|]. inversion N as [|? ? N1 N2]; subst.
    destruct X as [->|X]; [apply N1; apply in_or_app; auto|auto].
  - apply IH.
    + apply NoDup_app_r in N. auto.
    + intros; apply NE; right; auto.
Qed.
Lemma cells_root : forall ms g ov k s, In (k, s) (cells g ov ms : list (nat * segment nat)) -> sg_is_ovl s = false ->
  ov = false /\ exists m ms', ms = m :: ms' /\ k = m_key m /\ s = mkSeg g (m_key m) (m_c m) (m_first m) (m_done m) (hk ms') false.
Proof.
  assert (T : forall ms g k s, In (k, s) (cells g true ms : list (nat * segment nat)) -> sg_is_ovl s = true).
  { induction ms as [|m ms IH]; intros g k s I; [destruct I|]. destruct I as [I|I]; [injection I as <- <-; reflexivity|eauto]. }
  intros [|m ms] g ov k s I E; [destruct I|]. destruct I as [I|I].
  - injection I as <- <-. cbn [sg_is_ovl] in E. subst ov. split; auto. exists m, ms. auto.
  - apply T in I. congruence.
Qed.
Lemma key_root : forall mu sl heap log allb pend pts ppend k s, core mu sl heap log allb pend pts ppend ->
  slab_get sl k = Some s -> sg_is_ovl s = false ->
  (exists b, In b allb /\ k = b_key b /\ s = rs b) \/ (exists x, In x pts /\ pcell x = (k, s)).
Proof.
  intros mu sl heap log allb pend pts ppend k s Co G E. destruct (co_srep _ _ _ _ _ _ _ _ _ _ _ Co) as (_ & _ & R).
  apply R in G. apply in_app_iff in G as [G|G].
  - left. apply in_flat_map in G as (b & Ib & G). exists b. split; auto. unfold bcells in G.
    destruct (cells_root _ _ _ _ _ G E) as (_ & m & ms & E1 & E2 & E3). unfold b_key, rs. rewrite E1. auto.
  - right. apply in_map_iff in G as (x & E1 & I). eauto.
Qed.

(** ** Events *)
Lemma sfe_LR : forall mu sl heap log allb pend pts ppend p k, core mu sl heap log allb pend pts ppend ->
  segment_for_event sl (mkEvent p LineRight k) = Ok None \/
  exists b, In b allb /\ b_key b = k /\ b_q b = p /\ segment_for_event sl (mkEvent p LineRight k) = Ok (Some (rs b)).
Proof.
  intros mu sl heap log allb pend pts ppend p k Co. unfold segment_for_event. cbn [ev_key ev_ty ev_point].
  destruct (slab_get sl k) as [s|] eqn:G; [|auto]. destruct (sg_is_ovl s) eqn:E; [auto|].
  destruct (key_root _ _ _ _ _ _ _ _ _ _ Co G E) as [(b & Ib & Ek & ->)|(x & Ix & Ec)].
  - rewrite rs_geom. unfold b_geom. destruct (peqb_spec (b_q b) p) as [Q|Q]; [|auto]. right. exists b. auto.
  - destruct x as [[k' c] p']. injection Ec as <- <-. cbn [sg_geom]. auto.
Qed.
Lemma sfe_LR_root : forall mu sl heap log allb pend pts ppend b, core mu sl heap log allb pend pts ppend -> In b allb ->
  segment_for_event sl (mkEvent (b_q b) LineRight (b_key b)) = Ok (Some (rs b)).
Proof.
  intros mu sl heap log allb pend pts ppend b Co Ib. unfold segment_for_event. cbn [ev_key ev_ty ev_point].
  rewrite (root_get _ _ _ _ _ _ _ _ _ Co Ib), rs_ovl, rs_geom. unfold b_geom. destruct (peqb_spec (b_q b) (b_q b)); [auto|contradiction].
Qed.
Lemma sfe_LL : forall mu sl heap log allb pend pts ppend b, core mu sl heap log allb pend pts ppend -> In b allb ->
  segment_for_event sl (evLL b) = Ok (Some (rs b)).
Proof.
  intros mu sl heap log allb pend pts ppend b Co Ib. unfold segment_for_event, evLL, ev_LL. cbn [ev_key ev_ty ev_point].
  rewrite (root_get _ _ _ _ _ _ _ _ _ Co Ib). cbn [expect bind]. rewrite rs_geom. unfold b_geom.
  destruct (peqb_spec (b_p b) (b_p b)); [reflexivity|contradiction].
Qed.
Lemma sfe_P : forall mu sl heap log allb pend pts ppend k c p ty, core mu sl heap log allb pend pts ppend -> In (k, c, p) pts ->
  ty = PointLeft \/ ty = PointRight ->
  segment_for_event sl (mkEvent p ty k) = Ok (Some (mkSeg (Point p) k c true false None false)).
Proof.
  intros mu sl heap log allb pend pts ppend k c p ty Co I [->| ->]; unfold segment_for_event; cbn [ev_key ev_ty ev_point];
  rewrite (pt_get _ _ _ _ _ _ _ _ _ _ _ Co I); cbn [expect bind sg_geom]; (destruct (peqb_spec p p); [reflexivity|contradiction]).
Qed.

(** ** Comparisons *)
Lemma cmp_bundles : forall mu sl heap log allb pend pts ppend u v, core mu sl heap log allb pend pts ppend -> In u allb -> In v allb ->
  active_cmp seg_partial_cmp sl (b_key u) (b_key v) = Ok (ord_then (K e (later e u v) u v) (Nat.compare (b_key u) (b_key v))).
Proof.
  intros mu sl heap log allb pend pts ppend u v Co Iu Iv. unfold active_cmp.
  rewrite (root_get_unchecked _ _ _ _ _ _ _ _ _ Co Iu), (root_get_unchecked _ _ _ _ _ _ _ _ _ Co Iv). cbn [bind].
  unfold seg_partial_cmp. rewrite !rs_geom, !rs_key.
  rewrite (cmp_K e V HT u v) by (eapply core_good; eauto). reflexivity.
Qed.
Lemma cmp_point : forall mu sl heap log allb pend pts ppend k c p v, core mu sl heap log allb pend pts ppend -> In (k, c, p) pts -> In v allb ->
  In p V -> lex_le (b_p v) p -> lex_le p (b_q v) ->
  active_cmp seg_partial_cmp sl k (b_key v) = Ok (if qltb (H e v (tl p)) (cy p) then Gt else Lt).
Proof.
  intros mu sl heap log allb pend pts ppend k c p v Co Ip Iv Vp L1 L2. unfold active_cmp.
  pose proof (core_good _ _ _ _ _ _ _ _ _ _ _ _ Co Iv) as G.
  rewrite (slab_get_unchecked_ok _ _ _ (pt_get _ _ _ _ _ _ _ _ _ _ _ Co Ip)), (root_get_unchecked _ _ _ _ _ _ _ _ _ Co Iv). cbn [bind].
  unfold seg_partial_cmp. rewrite rs_geom. cbn [sg_geom lop_partial_cmp b_geom]. unfold cmp_line_point.
  destruct (pltb_spec (b_q v) p) as [Q|Q]; [exfalso; lord|]. destruct (pltb_spec p (b_p v)) as [Q'|Q']; [exfalso; lord|]. cbn [orb].
  pose proof (cross_hgt e (b_p v) (b_q v) p (good_tl e V HT v G)) as CH. fold (H e v (tl p)) in CH.
  pose proof (good_tl e V HT v G) as T.
  destruct (orient2d_spec (b_p v) (b_q v) p) as [O|O|O]; cbn [orientation_as_ordering ord_then option_map CompOpp expect]; f_equal.
  - rewrite CH in O. destruct (qltb (H e v (tl p)) (cy p)) eqn:E; [reflexivity|]. exfalso.
    assert (N : ~ (H e v (tl p) < cy p)%Qc) by (intro X; apply qltb_iff in X; congruence). apply N. clear - O T. qc.
  - rewrite CH in O. destruct (qltb (H e v (tl p)) (cy p)) eqn:E; [|reflexivity]. exfalso. apply qltb_iff in E. clear - O T E. qc.
  - rewrite CH in O. destruct (qltb (H e v (tl p)) (cy p)) eqn:E; [|reflexivity]. exfalso. apply qltb_iff in E. clear - O T E. qc.
Qed.
Lemma key_neq : forall mu sl heap log allb pend pts ppend l1 b l2 x, core mu sl heap log allb pend pts ppend ->
  allb = l1 ++ b :: l2 -> In x (l1 ++ l2) -> b_key x <> b_key b.
Proof.
  intros mu sl heap log allb pend pts ppend l1 b l2 x Co -> I. pose proof (keys_NoDup _ _ _ _ _ _ _ _ Co) as N.
  rewrite map_app in N. cbn [map] in N. apply NoDup_remove_2 in N. intro E. apply N. rewrite <- E, <- map_app. apply in_map. auto.
Qed.

Lemma sits_act : forall ph mu sl heap log A a B rest pend pts ppend p0 W,
  core mu sl heap log ((A ++ a :: B) ++ rest) pend pts ppend -> Ord p0 ph (A ++ a :: B) W ->
  sits seg_partial_cmp sl (b_key a) (map b_key A) [b_key a] (map b_key B).
Proof.
  intros ph mu sl heap log A a B rest pend pts ppend p0 W Co (_ & O & _). apply FOP_app in O as (_ & O & OA).
  inversion O as [|? ? OB _]; subst. rewrite Forall_forall in OB.
  assert (I : forall x, In x (A ++ a :: B) -> In x ((A ++ a :: B) ++ rest)) by (intros; apply in_or_app; auto).
  assert (Ia : In a ((A ++ a :: B) ++ rest)) by (apply I; apply in_or_app; right; left; auto).
  split; [|split; [|split]].
  - intros k Hk. apply in_map_iff in Hk as (x & <- & Hx). rewrite (cmp_bundles _ _ _ _ _ _ _ _ _ _ Co Ia) by (apply I; apply in_or_app; auto).
    destruct (OA x a Hx (or_introl eq_refl)) as [[Q _] _]. rewrite (later_sym e a x), (K_opp e _ x a), Q. reflexivity.
  - intros k [<-|[]]. rewrite (cmp_bundles _ _ _ _ _ _ _ _ _ _ Co Ia Ia).
    rewrite (proj2 (K_eq_same e (later e a a) a a) (same_line_refl e a)). cbn [ord_then]. rewrite Nat.compare_refl. reflexivity.
  - intros k Hk. apply in_map_iff in Hk as (x & <- & Hx). rewrite (cmp_bundles _ _ _ _ _ _ _ _ _ _ Co Ia) by (apply I; apply in_or_app; right; right; auto).
    destruct (OB x Hx) as [[Q _] _]. rewrite Q. reflexivity.
  - simpl. lia.
Qed.
Lemma later_p0 : forall p0 (x b : bundle), good x -> good b -> b_p b = p0 -> lex_le (b_p x) p0 -> later e x b = tl p0.
Proof.
  intros p0 x b Gx Gb Eb L. destruct (later_cases e V x b Gx Gb) as [[E Q]|[E Q]]; rewrite E.
  - f_equal. rewrite Eb in Q. lord.
  - rewrite Eb. auto.
Qed.
Lemma sits_new : forall mu sl heap log A B rest b pend pts ppend p0,
  core mu sl heap log ((A ++ B) ++ rest) pend pts ppend -> In b rest -> b_p b = p0 ->
  (forall x, In x (A ++ B) -> lex_le (b_p x) p0) ->
  (forall x, In x A -> low e p0 b x) -> (forall x, In x B -> high e p0 b x) ->
  sits seg_partial_cmp sl (b_key b) (map b_key A) [] (map b_key B).
Proof.
  intros mu sl heap log A B rest b pend pts ppend p0 Co Ib Eb LE HA HB.
  assert (I : forall x, In x (A ++ B) -> In x ((A ++ B) ++ rest)) by (intros; apply in_or_app; auto).
  assert (Ib' : In b ((A ++ B) ++ rest)) by (apply in_or_app; auto).
  assert (G : forall x, In x ((A ++ B) ++ rest) -> good x) by (intros; eapply core_good; eauto).
  split; [|split; [|split]].
  - intros k Hk. apply in_map_iff in Hk as (x & <- & Hx). assert (Ix : In x (A ++ B)) by (apply in_or_app; auto).
    rewrite (cmp_bundles _ _ _ _ _ _ _ _ _ _ Co Ib') by auto. rewrite (later_sym e b x), (later_p0 p0 x b), (K_opp e _ x b) by auto.
    destruct (HA x Hx) as [Q|[Q L]]; rewrite Q; cbn [CompOpp ord_then]; [reflexivity|]. apply Nat.compare_gt_iff in L. rewrite L. reflexivity.
  - intros k [].
  - intros k Hk. apply in_map_iff in Hk as (x & <- & Hx). assert (Ix : In x (A ++ B)) by (apply in_or_app; auto).
    rewrite (cmp_bundles _ _ _ _ _ _ _ _ _ _ Co Ib') by auto. rewrite (later_sym e b x), (later_p0 p0 x b) by auto.
    destruct (HB x Hx) as [Q|[Q L]]; rewrite Q; cbn [CompOpp ord_then]; [reflexivity|]. apply Nat.compare_lt_iff in L. rewrite L. reflexivity.
  - simpl. lia.
Qed.
Lemma sits_pt : forall mu sl heap log A B rest k c pend pts ppend p0,
  core mu sl heap log ((A ++ B) ++ rest) pend pts ppend -> In (k, c, p0) pts -> In p0 V ->
  (forall x, In x (A ++ B) -> lex_le (b_p x) p0 /\ lex_le p0 (b_q x)) ->
  (forall x, In x A -> (H e x (tl p0) < cy p0)%Qc) -> (forall x, In x B -> (cy p0 <= H e x (tl p0))%Qc) ->
  sits seg_partial_cmp sl k (map b_key A) [] (map b_key B).
Proof.
  intros mu sl heap log A B rest k c pend pts ppend p0 Co Ip Vp LE HA HB.
  assert (I : forall x, In x (A ++ B) -> In x ((A ++ B) ++ rest)) by (intros; apply in_or_app; auto).
  split; [|split; [|split]].
  - intros k' Hk. apply in_map_iff in Hk as (x & <- & Hx). assert (Ix : In x (A ++ B)) by (apply in_or_app; auto).
    destruct (LE x Ix) as [La Lb]. rewrite (cmp_point _ _ _ _ _ _ _ _ _ _ _ _ Co Ip) by auto. rewrite (proj2 (qltb_iff _ _) (HA x Hx)). reflexivity.
  - intros k' [].
  - intros k' Hk. apply in_map_iff in Hk as (x & <- & Hx). assert (Ix : In x (A ++ B)) by (apply in_or_app; auto).
    destruct (LE x Ix) as [La Lb]. rewrite (cmp_point _ _ _ _ _ _ _ _ _ _ _ _ Co Ip) by auto.
    destruct (qltb (H e x (tl p0)) (cy p0)) eqn:E; [|reflexivity]. exfalso. apply qltb_iff in E. pose proof (HB x Hx). qcl.
  - simpl. lia.
Qed.

(** ** Crossing points are critical *)
Lemma cross_V : forall mu sl heap log allb pend pts ppend u v r, core mu sl heap log allb pend pts ppend -> In u allb -> In v allb ->
  ~ same_line u v -> onb u r -> onb v r -> In r V.
Proof.
  intros mu sl heap log allb pend pts ppend u v r Co Iu Iv NS Ou Ov.
  assert (W : forall b, In b allb -> exists c a z, c < n /\ geo ln c = Line a z /\ on_seg a z (b_p b) /\ on_seg a z (b_q b) /\ lex_lt a z).
  { intros b Ib. pose proof (co_ne _ _ _ _ _ _ _ _ _ _ _ Co b Ib) as N. destruct (b_mem b) as [|m ms] eqn:E; [contradiction|].
    destruct (core_bundle _ _ _ _ _ _ _ _ _ _ _ b m Co Ib) as (a & z & G & L & Lb & _ & _ & A & B & L1 & L2); [rewrite E; left; auto|].
    exists (m_c m), a, z. repeat split; auto. lord. }
  destruct (W u Iu) as (c & a & z & Lc & Gc & Up & Uq & La). destruct (W v Iv) as (c' & a' & z' & Lc' & Gc' & Vp & Vq & La').
  pose proof (core_good _ _ _ _ _ _ _ _ _ _ _ _ Co Iu) as Gu. pose proof (core_good _ _ _ _ _ _ _ _ _ _ _ _ Co Iv) as Gv.
  destruct (HV1 c a z Lc Gc) as [Va Vz]. destruct (HV1 c' a' z' Lc' Gc') as [Va' Vz'].
  set (U := mkB a z (@nil (mem nat))). set (Z := mkB a' z' (@nil (mem nat))).
  assert (GU : good U) by (split; [|split]; auto). assert (GZ : good Z) by (split; [|split]; auto).
  assert (OU : onb U r) by (apply (on_seg_convex _ _ _ _ _ Up Uq Ou)). assert (OZ : onb Z r) by (apply (on_seg_convex _ _ _ _ _ Vp Vq Ov)).
  apply (HV2 c c' a z a' z' r Lc Lc' Gc Gc' OU OZ).
  intros r' O1 O2. destruct (lex_total r' r) as [[L|L]|L]; auto; exfalso; apply NS.
  - assert (SL : same_line U Z) by (apply (two_common e V HT U Z r' r); auto; eapply (onb_tl_lt e V HT U); eauto).
    eapply same_line_trans; [apply same_line_sym; apply (sub_same e V HT U u GU Gu Up Uq)|].
    eapply same_line_trans; [exact SL|]. apply (sub_same e V HT Z v GZ Gv Vp Vq).
  - assert (SL : same_line U Z) by (apply (two_common e V HT U Z r r'); auto; eapply (onb_tl_lt e V HT U); eauto).
    eapply same_line_trans; [apply same_line_sym; apply (sub_same e V HT U u GU Gu Up Uq)|].
    eapply same_line_trans; [exact SL|]. apply (sub_same e V HT Z v GZ Gv Vp Vq).
Qed.

(** ** Cutting a bundle at a point *)
Inductive cut (r : pt) (u u' : bundle) (nw : list bundle) (evs : list event) : Prop :=
| cut_none : r = b_p u \/ r = b_q u -> u' = u -> nw = [] -> evs = [] -> cut r u u' nw evs
| cut_at : forall nb, lex_lt (b_p u) r -> lex_lt r (b_q u) -> fresh_part u r (b_q u) nb -> u' = trunc r u -> nw = [nb] ->
    evs = [ev_LR (b_q u) nb; ev_LL r nb; ev_LR r u] -> cut r u u' nw evs.
Definition with_segs_events (sl : slab (segment nat)) (evs : list event) (sw : sweep) : sweep :=
  mkSweep sl (evs ++ sw_events sw) (sw_active sw) (sw_out sw) (sw_clock sw).

Lemma adj_point : forall (sw : sweep) mu log u rest pend pts ppend r,
  core mu (sw_segs sw) (sw_events sw) log (u :: rest) pend pts ppend -> In r V -> onb u r ->
  exists sl' u' nw evs, adjust_one_segment ln sw (b_key u) (Point r) = Ok (with_segs_events sl' evs sw, None) /\
    cut r u u' nw evs /\
    core mu sl' (evs ++ sw_events sw) log (u' :: nw ++ rest) (nw ++ pend) pts ppend.
Proof.
  intros sw mu log u rest pend pts ppend r Co Vr Or.
  pose proof (core_good _ _ _ _ _ _ _ _ _ _ _ _ Co (or_introl eq_refl)) as G.
  pose proof (co_ne _ _ _ _ _ _ _ _ _ _ _ Co u (or_introl eq_refl)) as N.
  pose proof (co_srep _ _ _ _ _ _ _ _ _ _ _ Co) as R. cbn [flat_map] in R. rewrite <- app_assoc in R.
  destruct (onb_between V _ _ G Or) as [L1 L2].
  destruct (pt_dec r (b_p u)) as [E|E]; [|destruct (pt_dec r (b_q u)) as [E'|E']].
  - destruct (adjust_point_end ln sw u r _ N (proj1 G) (or_introl E) R) as (sl' & A & R').
    exists sl', u, [], []. split; [|split; [apply cut_none; auto|]].
    + rewrite A. reflexivity.
    + cbn [app]. destruct Co. constructor; auto. cbn [flat_map]. rewrite <- app_assoc. exact R'.
  - destruct (adjust_point_end ln sw u r _ N (proj1 G) (or_intror E') R) as (sl' & A & R').
    exists sl', u, [], []. split; [|split; [apply cut_none; auto|]].
    + rewrite A. reflexivity.
    + cbn [app]. destruct Co. constructor; auto. cbn [flat_map]. rewrite <- app_assoc. exact R'.
  - assert (Q1 : lex_lt (b_p u) r) by (apply lex_le_neq; auto). assert (Q2 : lex_lt r (b_q u)) by (apply lex_le_neq; auto).
    destruct (adjust_point_split ln sw u r _ N Q1 Q2 R) as (sl' & nb & A & F & R').
    exists sl', (trunc r u), [nb], [ev_LR (b_q u) nb; ev_LL r nb; ev_LR r u]. split; [|split].
    + rewrite A. reflexivity.
    + eapply cut_at; eauto.
    + cbn [app]. eapply core_split; [exact Co|exact F|auto|exact Or|auto|auto|exact R'].
Qed.

(** Cutting off the front of a bundle as an overlap. *)
Lemma adj_front : forall (sw : sweep) mu log u rest pend pts ppend r,
  core mu (sw_segs sw) (sw_events sw) log (u :: rest) pend pts ppend -> In r V -> onb u r -> lex_lt (b_p u) r ->
  exists sl' u' nw evs, adjust_one_segment ln sw (b_key u) (Line (b_p u) r) = Ok (with_segs_events sl' evs sw, Some (b_key u)) /\
    cut r u u' nw evs /\
    core mu sl' (evs ++ sw_events sw) log (u' :: nw ++ rest) (nw ++ pend) pts ppend.
Proof.
  intros sw mu log u rest pend pts ppend r Co Vr Or Q1.
  pose proof (core_good _ _ _ _ _ _ _ _ _ _ _ _ Co (or_introl eq_refl)) as G.
  pose proof (co_ne _ _ _ _ _ _ _ _ _ _ _ Co u (or_introl eq_refl)) as N.
  pose proof (co_srep _ _ _ _ _ _ _ _ _ _ _ Co) as R. cbn [flat_map] in R. rewrite <- app_assoc in R.
  destruct (onb_between V _ _ G Or) as [L1 L2].
  destruct (pt_dec r (b_q u)) as [E'|E'].
  - destruct (adjust_line_all ln sw u _ N (proj1 G) R) as (sl' & A & R'). unfold b_geom in A. rewrite <- E' in A.
    exists sl', u, [], []. split; [|split; [apply cut_none; auto|]].
    + rewrite A. reflexivity.
    + cbn [app]. destruct Co. constructor; auto. cbn [flat_map]. rewrite <- app_assoc. exact R'.
  - assert (Q2 : lex_lt r (b_q u)) by (apply lex_le_neq; auto).
    destruct (adjust_line_front ln sw u r _ N Q1 Q2 R) as (sl' & nb & A & F & R').
    exists sl', (trunc r u), [nb], [ev_LR (b_q u) nb; ev_LL r nb; ev_LR r u]. split; [|split].
    + rewrite A. reflexivity.
    + eapply cut_at; eauto.
    + cbn [app]. eapply core_split; [exact Co|exact F|auto|exact Or|auto|auto|exact R'].
Qed.
(** An overlap that begins inside a bundle. *)
Lemma adj_inner : forall (sw : sweep) mu log u rest pend pts ppend r1 r2,
  core mu (sw_segs sw) (sw_events sw) log (u :: rest) pend pts ppend -> In r1 V -> In r2 V -> onb u r1 -> onb u r2 ->
  lex_lt (b_p u) r1 -> lex_lt r1 r2 ->
  exists sl' mb nws evs evs', adjust_one_segment ln sw (b_key u) (Line r1 r2) = Ok (with_segs_events sl' evs sw, Some (b_key mb)) /\
    fresh_part u r1 r2 mb /\
    (forall w, In w nws -> b_p w = r2 /\ (forall m, In m (b_mem w) -> m_done m = false) /\ In (ev_LR (b_q w) w) evs') /\
    Permutation evs (ev_LR r1 u :: evs') /\
    (forall ev, In ev evs' -> lex_lt r1 (ev_point ev) \/ (ev_point ev = r1 /\ ev_ty ev = LineLeft)) /\
    In (ev_LR r2 mb) evs' /\
    core mu sl' (evs ++ sw_events sw) log (trunc r1 u :: mb :: nws ++ rest) (mb :: nws ++ pend) pts ppend.
Proof.
  intros sw mu log u rest pend pts ppend r1 r2 Co V1 V2 O1 O2 Q1 Q2.
  pose proof (core_good _ _ _ _ _ _ _ _ _ _ _ _ Co (or_introl eq_refl)) as G.
  pose proof (co_ne _ _ _ _ _ _ _ _ _ _ _ Co u (or_introl eq_refl)) as N.
  pose proof (co_srep _ _ _ _ _ _ _ _ _ _ _ Co) as R. cbn [flat_map] in R. rewrite <- app_assoc in R.
  destruct (onb_between V _ _ G O2) as [_ L2].
  destruct (pt_dec r2 (b_q u)) as [E'|E'].
  - assert (Q3 : lex_lt r1 (b_q u)) by (rewrite <- E'; auto).
    destruct (adjust_line_back ln sw u r1 _ N Q1 Q3 R) as (sl' & nb & A & F & R').
    rewrite <- E' in A.
    exists sl', nb, [], [ev_LR (b_q u) nb; ev_LL r1 nb; ev_LR r1 u], [ev_LR (b_q u) nb; ev_LL r1 nb].
    split; [rewrite A, E'; reflexivity|]. split; [rewrite E'; exact F|]. split; [intros w []|].
    split; [symmetry; apply (Permutation_cons_append [ev_LR (b_q u) nb; ev_LL r1 nb])|].
    split; [intros ev [<-|[<-|[]]]; [left; auto|right; auto]|]. split; [left; rewrite E'; reflexivity|].
    cbn [app]. eapply core_split; [exact Co|exact F|auto|exact O1|auto|auto|exact R'].
  - assert (Q3 : lex_lt r2 (b_q u)) by (apply lex_le_neq; auto).
    destruct (adjust_line_middle ln sw u r1 r2 _ N Q1 Q2 Q3 R) as (sl' & nb & mb & A & F & M & R').
    exists sl', mb, [nb], [ev_LR r2 mb; ev_LL r1 mb; ev_LR (b_q u) nb; ev_LL r2 nb; ev_LR r1 u], [ev_LR r2 mb; ev_LL r1 mb; ev_LR (b_q u) nb; ev_LL r2 nb].
    split; [rewrite A; reflexivity|]. split; [exact M|].
    split.
    { intros w [<-|[]]. destruct F as (F1 & F2 & F3 & F4). split; [auto|split].
      - intros m Im. destruct (copy_in _ _ _ F3 Im) as (_ & E & _). auto.
      - right; right; left. rewrite F2. reflexivity. }
    split; [symmetry; apply (Permutation_cons_append [ev_LR r2 mb; ev_LL r1 mb; ev_LR (b_q u) nb; ev_LL r2 nb])|].
    split; [intros ev [<-|[<-|[<-|[<-|[]]]]]; cbn [ev_LR ev_LL ev_point ev_ty]; auto; left; lord|]. split; [left; reflexivity|].
    cbn [app]. eapply core_split2; [exact Co|exact F|exact M|auto|auto|exact O1|exact O2|auto|auto|auto|exact R'].
Qed.

(** What a cut does. *)
Lemma cut_shr : forall r u u' nw evs, good u -> In r V -> onb u r -> cut r u u' nw evs -> shr u u'.
Proof.
  intros r u u' nw evs G Vr O [E1 -> _ _|nb L1 L2 F -> _ _]; [apply shr_refl; auto|].
  split; [reflexivity|]. split; [exact O|]. split; [exact L1|]. split; [exact Vr|]. apply trunc_key.
Qed.
Lemma cut_q : forall r u u' nw evs, cut r u u' nw evs -> r = b_p u /\ u' = u \/ b_q u' = r.
Proof. intros r u u' nw evs [[E1|E1] -> _ _|nb L1 L2 F -> _ _]; auto. Qed.
Lemma cut_fst : forall r u u' nw evs c, cut r u u' nw evs -> map fst (current c [u']) = map fst (current c [u]).
Proof.
  intros r u u' nw evs c [E1 -> _ _|nb L1 L2 F -> _ _]; [reflexivity|]. rewrite !current_cons. cbn [current flat_map].
  rewrite !app_nil_r, !map_map. cbn [fst trunc b_p b_mem]. apply map_const_len. apply clear_first_filter.
Qed.
Lemma cut_done : forall r u u' nw evs d, cut r u u' nw evs -> (forall m, In m (b_mem u) -> m_done m = d) -> forall m, In m (b_mem u') -> m_done m = d.
Proof.
  intros r u u' nw evs d [E1 -> _ _|nb L1 L2 F -> _ _] D m I; auto. apply clear_first_in in I as (m' & I & _ & _ & E & _). rewrite <- E. auto.
Qed.
Lemma cut_new_done : forall r u u' nw evs w m, cut r u u' nw evs -> In w nw -> In m (b_mem w) -> m_done m = false.
Proof.
  intros r u u' nw evs w m [E1 _ -> _|nb L1 L2 (F1 & F2 & F3 & F4) _ -> _] Iw Im; [destruct Iw|]. destruct Iw as [<-|[]].
  destruct (copy_in _ _ _ F3 Im) as (_ & E & _). auto.
Qed.
Lemma cut_new : forall r u u' nw evs w, cut r u u' nw evs -> In w nw ->
  b_p w = r /\ b_q w = b_q u /\ lex_lt (b_p u) r /\ lex_lt r (b_q u) /\ b_mem w <> [] /\ In (ev_LR (b_q w) w) evs.
Proof.
  intros r u u' nw evs w [E1 _ -> _|nb L1 L2 (F1 & F2 & F3 & F4) _ -> ->] Iw; [destruct Iw|]. destruct Iw as [<-|[]].
  repeat split; auto. left. rewrite F2. reflexivity.
Qed.
Lemma cut_lr : forall r u u' nw evs heap, cut r u u' nw evs -> In (ev_LR (b_q u) u) heap -> In (ev_LR (b_q u') u') (evs ++ heap).
Proof.
  intros r u u' nw evs heap [E1 -> _ ->|nb L1 L2 F -> _ ->] I; [exact I|]. cbn [app]. right; right; left. unfold ev_LR. rewrite trunc_key. reflexivity.
Qed.
Lemma cut_evs : forall r u u' nw evs ev, cut r u u' nw evs -> In ev evs ->
  lex_lt r (ev_point ev) \/ (ev_point ev = r /\ lex_lt (b_p u) r /\ lex_lt r (b_q u) /\ (ev_ty ev = LineLeft \/ ev = ev_LR r u)).
Proof.
  intros r u u' nw evs ev [E1 _ _ ->|nb L1 L2 F _ _ ->] I; [destruct I|].
  destruct I as [<-|[<-|[<-|[]]]]; cbn [ev_LR ev_LL ev_point ev_ty]; auto; right; repeat split; auto.
Qed.
Lemma cut_same : forall r u u' nw evs w, good u -> In r V -> onb u r -> cut r u u' nw evs -> In w nw -> good w /\ same_line u w.
Proof.
  intros r u u' nw evs w G Vr O Cu Iw. destruct (cut_new _ _ _ _ _ _ Cu Iw) as (E1 & E2 & L1 & L2 & _).
  assert (Gw : good w). { split; [rewrite E1, E2; auto|rewrite E1, E2; split; auto; apply G]. }
  split; auto. apply (sub_same e V HT); auto; [rewrite E1; auto|rewrite E2; apply onb_q].
Qed.
End Store.
