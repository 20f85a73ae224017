(** One point of the sweep. *)
Require Import List String Bool Arith Lia Permutation Sorted.
From Verif Require Import Base Scalar M_Events M_Geo M_LineOrPoint M_Splay M_Slab M_Active M_Sweep M_Crossings.
From Verif Require Import S_Geo P_Geo P_LineOrPoint P_Tilt P_Slab P_Active P_Chain P_Bundle P_Tile P_Heap P_Order P_Inv P_Store P_Handle P_LL.
Import Datatypes.
Import ListNotations.
Local Open Scope nat_scope.

Section Step.
Variables (ln : nat -> line) (tie : nat -> nat) (n : nat) (e : Qc) (V : list pt).
Hypothesis HT : tilts e (fun p => In p V).
Hypothesis HV1 : forall c a z, c < n -> geo ln c = Line a z -> In a V /\ In z V.
Hypothesis HV2 : forall c c' a z a' z' r, c < n -> c' < n -> geo ln c = Line a z -> geo ln c' = Line a' z' ->
  on_seg a z r -> on_seg a' z' r -> (forall r', on_seg a z r' -> on_seg a' z' r' -> r' = r) -> In r V.
Variable p0 : pt.
Hypothesis Vp0 : In p0 V.
Context {ar : arith} {fa : faithful ar ln n}.
Notation core := (core ln n V).
Notation good := (good V).
Notation shr := (shr V).
Notation shr0 := (shr0 V).
Notation same_line := (same_line e).
Notation clean := (@clean nat).
Notation Ord := (Ord e V).
Notation tl := (tilt e).
Notation H := (H e).
Notation K := (K e).
Notation base := (base ln n V p0).
Notation lst := (lst ln n e V p0).
Notation nopass := (nopass e p0).
Notation Nok := (Nok V p0).
Notation l0 := (tl p0).

(** The phase of ends. *)
Record rst (mu : nat) (sw : sweep) (act pend : list bundle) (pts ppend : list pin) (past : list crossing) : Prop := {
  rt_base : base mu sw act [] pend pts ppend past;
  rt_ord : Ord p0 PR act [];
  rt_lr : lrs (sw_events sw) (act ++ pend);
  rt_hb : forall ev, In ev (sw_events sw) -> lex_le p0 (ev_point ev);
  rt_N : Nok act
}.
Definition stt mu sw act pend pts ppend past : Prop :=
  (rst mu sw act pend pts ppend past \/ lst mu sw act [] pend pts ppend past) /\ (sw_out sw <> [] -> nopass act).

Lemma LL_in : forall mu sl heap log allb pend pts ppend b, core mu sl heap log allb pend pts ppend -> In b pend -> In (evLL b) heap.
Proof.
  intros mu sl heap log allb pend pts ppend b Co Ib. assert (I : In (evLL b) (filter isLL heap)).
  { eapply Permutation_in; [symmetry; eapply co_ll; exact Co|]. apply in_map. auto. }
  apply filter_In in I. tauto.
Qed.
Lemma PL_in : forall mu sl heap log allb pend pts ppend x, core mu sl heap log allb pend pts ppend -> In x ppend -> In (evPL x) heap.
Proof.
  intros mu sl heap log allb pend pts ppend x Co Ib. assert (I : In (evPL x) (filter isPL heap)).
  { eapply Permutation_in; [symmetry; eapply co_pl; exact Co|]. apply in_map. auto. }
  apply filter_In in I. tauto.
Qed.

(** The end of a segment. *)
Lemma step_LR : forall fuel mu sw act pend pts ppend past k,
  base mu sw act [] pend pts ppend past -> Ord p0 PR act [] -> lrs (mkEvent p0 LineRight k :: sw_events sw) (act ++ pend) ->
  (forall ev, In ev (sw_events sw) -> lex_le p0 (ev_point ev)) -> Nok act ->
  (sw_out sw <> [] -> nopass act) ->
  exists sw' act' pend' bo, handle_event ln tie (S fuel) sw (mkEvent p0 LineRight k) = Ok (sw', bo) /\
    rst mu sw' act' pend' pts ppend past /\ (sw_out sw' <> [] -> nopass act').
Proof.
  intros fuel mu sw act pend pts ppend past k Ba Or LR HB HN NP. pose proof (ba_core _ _ _ _ _ _ _ _ _ _ _ _ Ba) as Co.
  cbn [app] in Co.
  destruct (sfe_LR ln n V _ _ _ _ _ _ _ _ p0 k Co) as [E|(a & Ia & Ek & Eq & _)].
  - exists sw, act, pend, false. cbn [handle_event]. rewrite E. cbn [bind].
    split; [reflexivity|]. split; [|exact NP]. constructor; auto. intros x Ix. destruct (LR x Ix) as [Q|Q]; [|exact Q]. exfalso.
    cbn [ev_LR] in Q. injection Q as E1 E2. subst k. assert (Ex : b_q x = p0) by auto. rewrite <- Ex in E at 1.
    rewrite (sfe_LR_root ln n V _ _ _ _ _ _ _ _ x Co) in E; [discriminate E|exact Ix].
  - assert (Ia' : In a act).
    { apply in_app_iff in Ia as [Ia|Ia]; auto. exfalso. pose proof (LL_in _ _ _ _ _ _ _ _ a Co Ia) as I.
      pose proof (HB _ I) as L. cbn [evLL ev_LL ev_point] in L.
      assert (G : good a) by (eapply core_good; [exact Co|apply in_or_app; auto]). destruct G as (G & _). rewrite Eq in G. lord. }
    apply in_split in Ia' as (A & B & ->). subst k.
    destruct (handle_LR ln tie n e V HT HV1 HV2 p0 Vp0 fuel PR mu sw A a B [] pend pts ppend past [] Ba Or Eq)
      as (sw2 & A' & B' & nw & evs & E2 & Ba2 & SA & SB & Sm & Nw & Ev2 & Ve & Ou & Lr).
    { intros v Vv Ov Lv. apply (HN a v); auto. apply in_or_app; right; left; auto. }
    exists sw2, (A' ++ B'), (nw ++ pend), true. split; [exact E2|].
    assert (Ra : inrange V p0 PR a) by (destruct Or as (Q & _); rewrite Forall_forall in Q; apply Q; apply in_or_app; right; left; auto).
    assert (G : forall x, In x (A ++ a :: B) -> good x) by (intros x Ix; destruct Or as (Q & _); rewrite Forall_forall in Q; apply Q; auto).
    split; [constructor|].
    + exact Ba2.
    + apply ord_remove with (a := a).
      * eapply (ord_shr e V HT p0 Vp0 PR (A ++ a :: B)); [|apply pend_le_refl|exact Or].
        apply Forall2_app; auto. constructor; auto. split; [apply shr_refl; apply Ra|apply Ra].
      * intros x y Ex Ey. left. auto.
    + assert (LR' : forall x, In x (A ++ B) \/ In x pend -> In (ev_LR (b_q x) x) (sw_events sw)).
      { intros x Ix. destruct (LR x) as [Q|Q]; [rewrite !in_app_iff in *; simpl; tauto| |exact Q]. exfalso. cbn [ev_LR] in Q. injection Q as _ Q.
        revert Q. apply not_eq_sym. eapply (key_neq ln n V) with (l1 := A) (l2 := B ++ pend); [exact Co|rewrite <- app_assoc; reflexivity|].
        rewrite !in_app_iff in *. tauto. }
      intros x Ix. apply in_app_iff in Ix as [Ix|Ix].
      * apply Lr; [|rewrite app_assoc; apply in_or_app; auto].
        intros z Iz. apply LR'. auto.
      * apply in_app_iff in Ix as [Ix|Ix].
        -- apply Lr; [|rewrite app_assoc; apply in_or_app; auto].
           intros z Iz. apply LR'. auto.
        -- rewrite Ev2. apply in_or_app; right. apply LR'. auto.
    + rewrite Ev2. intros ev I. apply in_app_iff in I as [I|I]; [apply lex_lt_le; auto|]. apply HB; auto.
    + apply (Nok_shr e V HT p0 (A ++ B)); [intros x Ix; apply G; apply in_app_iff in Ix; apply in_or_app; simpl; tauto|apply Forall2_app; auto|].
      eapply Nok_sub; [|exact HN]. intros x Ix. apply in_app_iff in Ix. apply in_or_app. simpl. tauto.
    + intros _ x' Ix' Px Qx E. assert (Ha : H a l0 = cy p0) by (apply (onb_H e V HT); [apply Ra|]; rewrite <- Eq; apply onb_q).
      assert (Q : exists x, (In x A \/ In x B) /\ shr x x').
      { apply in_app_iff in Ix' as [I|I]; [destruct (F2_in_r _ _ _ _ SA I) as (x & ? & [? _])|destruct (F2_in_r _ _ _ _ SB I) as (x & ? & [? _])]; eauto. }
      destruct Q as (x & Ix & Sx). assert (Gx : good x) by (apply G; apply in_or_app; simpl; tauto).
      rewrite <- (proj2 (shr_same e V HT _ _ Gx Sx)) in E. pose proof (shr_q V _ _ Gx Sx) as L.
      assert (Q : b_q x = p0).
      { destruct Or as (_ & O & _). destruct Ix as [Ix|Ix].
        - apply FOP_app in O as (_ & _ & O). destruct (O x a Ix (or_introl eq_refl)) as [_ [_ Q]]. apply Q. congruence.
        - apply FOP_app in O as (_ & O & _). inversion O as [|? ? F _]; subst. rewrite Forall_forall in F. destruct (F x Ix) as [_ [_ Q]]. apply Q. congruence. }
      rewrite Q in L. lord.
Qed.

(** Looking a point up. *)
Lemma pt_look : forall ph mu sw act cur pend pts ppend past k c W,
  base mu sw act cur pend pts ppend past -> Ord p0 ph act W -> In (k, c, p0) pts ->
  exists A B t1 t2, act = A ++ B /\ (forall x, In x A -> (H x l0 < cy p0)%Qc) /\ (forall x, In x B -> (cy p0 <= H x l0)%Qc) /\
    prev_key seg_partial_cmp (sw_active sw) k (sw_segs sw) = Ok (t1, hd_error (rev (map b_key A))) /\
    next_key seg_partial_cmp t1 k (sw_segs sw) = Ok (t2, hd_error (map b_key B)) /\
    holds t2 (map b_key act).
Proof.
  intros ph mu sw act cur pend pts ppend past k c W Ba Or Ip. pose proof (ba_core _ _ _ _ _ _ _ _ _ _ _ _ Ba) as Co.
  destruct (place_pt e p0 act (cy p0) (ord_H _ _ _ _ _ _ Or)) as (A & B & -> & HA & HB).
  assert (Si : sits seg_partial_cmp (sw_segs sw) k (map b_key A) [] (map b_key B)).
  { eapply (sits_pt ln n e V HT); [exact Co|exact Ip|exact Vp0| |exact HA|exact HB].
    intros x Ix. destruct Or as (R & _). rewrite Forall_forall in R. destruct (R x Ix) as (_ & Q & P). split; auto. destruct ph; [apply lex_lt_le|]; auto. }
  pose proof (ba_act _ _ _ _ _ _ _ _ _ _ _ _ Ba) as Ho. rewrite map_app in Ho.
  destruct (prev_key_ok seg_partial_cmp (sw_segs sw) k (map b_key A) [] (map b_key B) _ Ho Si) as (t1 & P1 & H1).
  destruct (next_key_ok seg_partial_cmp (sw_segs sw) k (map b_key A) [] (map b_key B) _ H1 Si) as (t2 & P2 & H2).
  exists A, B, t1, t2. cbn [app] in H2. rewrite <- map_app in H2. repeat (split; [solve [auto]|]). exact H2.
Qed.

Lemma step_PR : forall fuel mu sw act pend pts ppend past k c, stt mu sw act pend pts ppend past -> In (k, c, p0) pts ->
  exists sw', handle_event ln tie (S fuel) sw (mkEvent p0 PointRight k) = Ok (sw', true) /\ stt mu sw' act pend pts ppend past.
Proof.
  intros fuel mu sw act pend pts ppend past k c [S NP] Ip.
  assert (X : exists ph W, base mu sw act [] pend pts ppend past /\ Ord p0 ph act W).
  { destruct S as [R|L]; [exists PR, []; split; apply R|exists PL, ([] ++ pend); split; apply L]. }
  destruct X as (ph & W & Ba & Or). pose proof (ba_core _ _ _ _ _ _ _ _ _ _ _ _ Ba) as Co.
  destruct (pt_look ph _ _ _ _ _ _ _ _ _ _ _ Ba Or Ip) as (A & B & t1 & t2 & EA & HA & HB & P1 & P2 & H2).
  cbn [handle_event]. rewrite (sfe_P ln n V _ _ _ _ _ _ _ _ k c p0 PointRight Co Ip (or_intror eq_refl)). cbn [bind sg_key]. rewrite P1. cbn [bind]. rewrite P2. cbn [bind ev_ty].
  exists (set_active t2 sw). split; [reflexivity|]. split; [|exact NP]. destruct S as [R|L].
  - left. destruct R as [[B1 B2 B3 B4 B5 B6 B7 B8 B9] R2 R3 R4 R5]. constructor; auto. constructor; auto.
  - right. apply lst_active; auto.
Qed.

(** A point. *)
Lemma inter_pt_bundle : forall (u : bundle), good u ->
  exists o, meet (Point p0) (b_geom u) = Ok o /\ (o = None /\ ~ onb u p0 \/ o = Some (Point p0) /\ onb u p0).
Proof.
  intros u G. assert (Vp : valid (Point p0)) by exact I. assert (Vu : valid (b_geom u)) by (apply (good_valid V); auto).
  destruct (intersect_line_ordered_exact (Point p0) (b_geom u) Vp Vu) as [E _].
  pose proof (intersect_line_exact (Point p0) (b_geom u) Vp Vu) as X. rewrite f_point, E by auto.
  destruct (intersect_line (Point p0) (b_geom u)) as [o|s|]; [|discriminate X|contradiction].
  exists o. split; auto. destruct X as [_ X]. destruct o as [[r|r1 r2]|].
  - destruct X as [_ X]. destruct (proj1 (X r) eq_refl) as [X1 X2]. cbn [pts] in X1. subst r. right. auto.
  - exfalso. destruct X as [X0 X]. destruct (proj1 (X r1) (on_seg_start _ _)) as [X1 _]. destruct (proj1 (X r2) (on_seg_end _ _)) as [X2 _].
    cbn [pts] in X1, X2. subst. cbn [valid] in X0. lord.
  - left. split; auto. intro O. apply (X p0). split; [reflexivity|exact O].
Qed.
Lemma pl_none : forall mu sl heap log allb pend pts ppend (sw : sweep) sgm u,
  core mu sl heap log allb pend pts ppend -> sw_segs sw = sl -> sg_geom sgm = Point p0 -> In u allb -> ~ onb u p0 ->
  pl_round ln sgm sw (b_key u) = Ok sw.
Proof.
  intros mu sl heap log allb pend pts ppend sw sgm u Co <- Eg Iu NO.
  assert (Gu : good u) by (eapply core_good; eauto). unfold pl_round.
  rewrite (root_get ln n V _ _ _ _ _ _ _ _ u Co Iu). cbn [expect bind]. rewrite rs_geom, Eg.
  destruct (inter_pt_bundle u Gu) as (o & E & [[-> _]|[_ X]]); [|contradiction]. rewrite E. reflexivity.
Qed.
Lemma step_PL : forall fuel mu (sw : sweep) act pend pts ppend past x clk heap,
  rst mu sw act pend pts ppend past -> Permutation (sw_events sw) (evPL x :: heap) -> snd (pin_cp x) = p0 ->
  exists sw' mu' act' pend' ppend',
    handle_event ln tie (S fuel) (mkSweep (sw_segs sw) heap (sw_active sw) (sw_out sw) clk) (evPL x) = Ok (sw', true) /\ S mu' <= mu /\
    rst mu' sw' act' pend' pts ppend' past /\ nopass act'.
Proof.
  intros fuel mu sw act pend pts ppend past x clk heap R PE Ex. pose proof (rt_base _ _ _ _ _ _ _ R) as Ba.
  pose proof (core_heap _ _ _ _ _ _ _ _ _ _ _ _ PE (ba_core _ _ _ _ _ _ _ _ _ _ _ _ Ba)) as Co.
  pose proof (rt_ord _ _ _ _ _ _ _ R) as Or.
  assert (Q : isPL (evPL x) = true) by (destruct x as [[? ?] ?]; reflexivity).
  destruct (core_takePL _ _ _ _ _ _ _ _ _ _ _ _ Q Co) as (mu' & x2 & ppend' & Emu & Pp & Ee & Ip2 & Core).
  clear Q. destruct x as [[k c] q]. cbn [pin_cp snd] in Ex. subst q. destruct x2 as [[k2 c2] q]. cbn [evPL] in Ee. injection Ee as <- <-.
  cbn [pin_cp fst snd] in Core. change (evPL (k, c, p0)) with (evPL (k, c2, p0)) in *. clear c. rename c2 into c.
  set (rep := mkCrossing c (Point p0) true false false k). specialize (Core true k). fold rep in Core.
  set (sw1 := mkSweep (sw_segs sw) heap (sw_active sw) (sw_out sw) clk).
  set (swX := set_out (sw_out sw ++ [rep]) sw1).
  assert (BX : base mu' swX act [] pend pts ppend' past).
  { destruct Ba as [B1 B2 B3 B4 B5 B6 B7 B8 B9]. constructor; cbn [swX sw1 set_out sw_segs sw_events sw_active sw_out]; auto.
    - rewrite app_assoc. exact Core.
    - intros c'. rewrite app_assoc, started_app, ended_app. cbn [started ended flat_map rep cr_cross cr_left cr_line].
      destruct (c =? c'); cbn [andb negb app]; rewrite !app_nil_r; apply B5.
    - intros y Iy. apply in_app_iff in Iy as [Iy|[<-|[]]]; [auto|reflexivity].
    - apply ovl_ok_app; auto. cbn [ovl_ok rep cr_overlap]. split; auto. discriminate.
    - apply rep_more; auto. intros y [<-|[]]. discriminate. }
  destruct (pt_look PR _ _ _ _ _ _ _ _ _ _ _ BX Or Ip2) as (A & B & t1 & t2 & -> & HA & HB & P1 & P2 & H2).
  cbn [swX sw1 set_out sw_segs sw_active] in P1, P2.
  set (swX2 := set_active t2 swX).
  assert (BX2 : base mu' swX2 (A ++ B) [] pend pts ppend' past) by (destruct BX; constructor; auto).
  assert (G : forall x, In x (A ++ B) -> good x /\ lex_lt (b_p x) p0 /\ lex_le p0 (b_q x)).
  { intros y Iy. destruct Or as (Q & _). rewrite Forall_forall in Q. destruct (Q y Iy) as (? & ? & ?). auto. }
  assert (InA : forall y, In y (A ++ B) -> In y ((A ++ B) ++ [] ++ pend)) by (intros; apply in_or_app; auto).
  assert (LRS : lrs heap ((A ++ B) ++ pend)).
  { intros y Iy. pose proof (rt_lr _ _ _ _ _ _ _ R y Iy) as I. eapply Permutation_in in I; [|exact PE]. destruct I as [I|I]; [discriminate I|exact I]. }
  assert (HBB : forall ev, In ev heap -> lex_le p0 (ev_point ev)).
  { intros ev I. apply (rt_hb _ _ _ _ _ _ _ R). eapply Permutation_in; [symmetry; exact PE|right; auto]. }
  remember (S fuel) as f1. cbn [evPL]. subst f1. cbn [handle_event sw_segs sw_active sw_out sw1].
  rewrite (sfe_P ln n V _ _ _ _ _ _ _ _ k c p0 PointLeft Core Ip2 (or_introl eq_refl)). cbn [bind sg_key]. rewrite P1. cbn [bind]. rewrite P2. cbn [bind ev_ty].
  match goal with |- context [pl_round ln ?s] => set (sgm := s) end.
  set (sw2 := set_active t2 sw1).
  change (set_active t2 {| sw_segs := sw_segs sw; sw_events := heap; sw_active := sw_active sw; sw_out := sw_out sw; sw_clock := clk |}) with sw2.
  assert (F1 : fold_res (pl_round ln sgm) sw2 (opt_list (hd_error (rev (map b_key A)))) = Ok sw2).
  { destruct (hd_error (rev (map b_key A))) as [ak|] eqn:EA; [|reflexivity]. cbn [opt_list fold_res].
    apply hd_rev_in in EA. apply in_map_iff in EA as (a & <- & Ia).
    rewrite (pl_none _ _ _ _ _ _ _ _ sw2 sgm a Core eq_refl eq_refl); [reflexivity|apply InA; apply in_or_app; auto|].
    intro O. apply (onb_H e V HT) in O; [|apply G; apply in_or_app; auto]. pose proof (HA a Ia) as L. rewrite O in L. exact (Qclt_not_eq _ _ L eq_refl). }
  assert (FR : forall l, fold_res (pl_round ln sgm) sw2 (opt_list (hd_error (rev (map b_key A))) ++ l) = fold_res (pl_round ln sgm) sw2 l).
  { intros l. revert F1. destruct (hd_error (rev (map b_key A))) as [ak|]; [|reflexivity]. cbn [opt_list fold_res app].
    destruct (pl_round ln sgm sw2 ak); cbn [bind]; intros F1; try discriminate F1. injection F1 as ->. reflexivity. }
  rewrite FR. clear F1 FR.
  assert (HU : forall u B', B = u :: B' -> forall y, In y B -> H y l0 = cy p0 -> H u l0 = cy p0 /\ (In y B' -> b_q y = p0)).
  { intros u B' -> y Iy Ey. destruct Iy as [<-|Iy].
    - split; auto. intros Iy. destruct Or as (_ & O & _). apply FOP_app in O as (_ & O & _). inversion O as [|? ? F _]; subst. rewrite Forall_forall in F.
      destruct (F u Iy) as [_ [_ Q]]. apply Q. auto.
    - destruct Or as (_ & O & _). apply FOP_app in O as (_ & O & _). inversion O as [|? ? F _]; subst. rewrite Forall_forall in F.
      destruct (F y Iy) as [_ [L Q]]. pose proof (HB u (or_introl eq_refl)) as L2.
      assert (E : H u l0 = cy p0) by (apply Qcle_antisym; [rewrite <- Ey|]; auto). split; auto. intros _. apply Q. congruence. }
  assert (Miss : (forall u B', B = u :: B' -> ~ onb u p0) ->
     exists sw', rst mu' sw' (A ++ B) pend pts ppend' past /\ nopass (A ++ B) /\ sw' = cb sgm PointLeft sw2).
  { intros NO. exists swX2. split; [|split; [|reflexivity]].
    - constructor; auto. exact (rt_N _ _ _ _ _ _ _ R).
    - intros y Iy Py Qy Ey. apply in_app_iff in Iy as [Iy|Iy]; [pose proof (HA y Iy) as L; rewrite Ey in L; exact (Qclt_not_eq _ _ L eq_refl)|].
      destruct B as [|u B']; [destruct Iy|]. destruct (HU u B' eq_refl y Iy Ey) as [Eu _].
      apply (NO u B' eq_refl). destruct (G u) as (G1 & G2 & G3); [apply in_or_app; right; left; auto|]. apply (onb_of e V HT); auto. apply lex_lt_le; auto. }
  destruct B as [|u B].
  { destruct Miss as (sw' & R' & NP & ->); [discriminate|]. cbn [map hd_error opt_list fold_res bind].
    eexists _, mu', _, _, _. split; [reflexivity|]. split; [lia|]. split; [exact R'|exact NP]. }
  cbn [map hd_error opt_list fold_res].
  destruct (G u) as (Gu & Pu & Qu); [apply in_or_app; right; left; auto|].
  destruct (inter_pt_bundle u Gu) as (o & Eo & [[-> NO]|[-> On]]).
  { rewrite (pl_none _ _ _ _ _ _ _ _ sw2 sgm u Core eq_refl eq_refl); [|apply InA; apply in_or_app; right; left; auto|exact NO]. cbn [bind].
    destruct Miss as (sw' & R' & NP & ->); [intros u0 B0 E0; injection E0 as <- <-; exact NO|].
    eexists _, mu', _, _, _. split; [reflexivity|]. split; [lia|]. split; [exact R'|exact NP]. }
  clear Miss. unfold pl_round at 1. cbn [sw2 set_active sw_segs sw1].
  rewrite (root_get ln n V _ _ _ _ _ _ _ _ u Core) by (apply InA; apply in_or_app; right; left; auto). cbn [expect bind]. rewrite rs_geom.
  change (sg_geom sgm) with (Point p0). rewrite Eo. cbn [bind].
  pose proof (base_core_act ln n V p0 _ _ _ _ _ _ _ _ _ _ BX2) as CB.
  destruct (adj_point ln n V sw2 mu' _ u _ _ _ _ _ CB Vp0 On) as (sl' & u' & nw & evs & Ea & Cu & Co').
  change {| sw_segs := sw_segs sw; sw_events := heap; sw_active := t2; sw_out := sw_out sw; sw_clock := clk |} with sw2.
  rewrite Ea. cbn [bind check].
  assert (B3 : base mu' (with_segs_events sl' evs swX2) (A ++ u' :: B) [] (nw ++ pend) pts ppend' past).
  { eapply (base_upd_act ln n V p0); [exact BX2| | | | | |exact Co'].
    - destruct (cut_shr V p0 u u' nw evs Gu Vp0 On Cu) as (_ & _ & _ & _ & E). exact E.
    - apply (rsame_shr tie n V u u' Gu). eapply cut_shr; eauto.
    - intros Hd. eapply cut_done; eauto.
    - intros c0. eapply cut_fst; eauto.
    - intros w m. eapply cut_new_done; eauto. }
  assert (Sh : shr u u') by (eapply cut_shr; eauto).
  assert (Qu' : b_q u' = p0) by (destruct (cut_q _ _ _ _ _ Cu) as [[E _]|E]; auto; exfalso; rewrite <- E in Pu; lord).
  assert (F2 : Forall2 (shr0 p0) (A ++ u :: B) (A ++ u' :: B)).
  { destruct Or as (Q & _). apply Forall2_app; [|constructor].
    - apply (shr0_refl V p0 PR). apply Forall_app in Q. tauto.
    - split; auto. rewrite Qu'. apply lex_le_refl.
    - apply (shr0_refl V p0 PR). apply Forall_app in Q as [_ Q]. inversion Q; auto. }
  exists (with_segs_events sl' evs swX2), mu', (A ++ u' :: B), (nw ++ pend), ppend'. split; [reflexivity|]. split; [lia|]. split; [constructor|].
  - exact B3.
  - eapply (ord_shr e V HT p0 Vp0 PR); [exact F2|apply pend_le_refl|exact Or].
  - cbn [with_segs_events sw_events swX2 swX set_active set_out sw1]. intros y Iy. apply in_app_iff in Iy as [Iy|Iy]; [|apply in_app_iff in Iy as [Iy|Iy]].
    + apply in_app_iff in Iy as [Iy|[<-|Iy]].
      * apply in_or_app; right. apply LRS. rewrite !in_app_iff; auto.
      * eapply cut_lr; [exact Cu|]. apply LRS. rewrite !in_app_iff; simpl; auto.
      * apply in_or_app; right. apply LRS. rewrite !in_app_iff; simpl; auto.
    + apply in_or_app; left. eapply cut_new; eauto.
    + apply in_or_app; right. apply LRS. rewrite !in_app_iff; auto.
  - cbn [with_segs_events sw_events swX2 swX set_active set_out sw1]. intros ev I. apply in_app_iff in I as [I|I]; [|auto].
    destruct (cut_evs _ _ _ _ _ _ Cu I) as [L|[E _]]; [apply lex_lt_le; auto|rewrite E; apply lex_le_refl].
  - eapply (Nok_shr e V HT p0); [|exact F2|exact (rt_N _ _ _ _ _ _ _ R)]. intros y Iy. apply G; auto.
  - intros y Iy Py Qy Ey. apply in_app_iff in Iy as [Iy|[<-|Iy]].
    + pose proof (HA y Iy) as L; rewrite Ey in L; exact (Qclt_not_eq _ _ L eq_refl).
    + rewrite Qu' in Qy. lord.
    + destruct (HU u B eq_refl y (or_intror Iy) Ey) as [_ Q]. rewrite (Q Iy) in Qy. lord.
Qed.

Lemma stt_hb : forall mu sw act pend pts ppend past ev, stt mu sw act pend pts ppend past -> In ev (sw_events sw) -> lex_le p0 (ev_point ev).
Proof.
  intros mu sw act pend pts ppend past ev [[R|L] _] I; [apply (rt_hb _ _ _ _ _ _ _ R); auto|].
  destruct (ls_hb _ _ _ _ _ _ _ _ _ _ _ _ _ L ev I) as [Q|[Q _]]; [apply lex_lt_le; auto|rewrite Q; apply lex_le_refl].
Qed.
Lemma stt_base : forall mu sw act pend pts ppend past, stt mu sw act pend pts ppend past -> base mu sw act [] pend pts ppend past.
Proof. intros mu sw act pend pts ppend past [[R|L] _]; [apply R|apply L]. Qed.
Lemma base_pop : forall mu (sw : sweep) act cur pend pts ppend past ev heap clk, base mu sw act cur pend pts ppend past ->
  Permutation (sw_events sw) (ev :: heap) -> isLL ev = false -> isPL ev = false ->
  exists mu', mu = S mu' /\ base mu' (mkSweep (sw_segs sw) heap (sw_active sw) (sw_out sw) clk) act cur pend pts ppend past.
Proof.
  intros mu sw act cur pend pts ppend past ev heap clk Ba PE N1 N2.
  pose proof (core_heap _ _ _ _ _ _ _ _ _ _ _ _ PE (ba_core _ _ _ _ _ _ _ _ _ _ _ _ Ba)) as Co.
  destruct (core_drop _ _ _ _ _ _ _ _ _ _ _ _ N1 N2 Co) as (mu' & -> & Co'). exists mu'. split; auto.
  destruct Ba as [B1 B2 B3 B4 B5 B6 B7 B8 B9]. constructor; auto.
Qed.

(** One event. *)
Lemma step : forall mu sw act pend pts ppend past, stt mu sw act pend pts ppend past ->
  (exists ev, In ev (sw_events sw) /\ ev_point ev = p0) ->
  exists sw' mu' act' pend' ppend', next_event ln tie sw = Ok (sw', Some p0) /\ S mu' <= mu /\
    stt mu' sw' act' pend' pts ppend' past.
Proof.
  intros mu sw act pend pts ppend past S0 (ev0 & I0 & E0). pose proof (stt_base _ _ _ _ _ _ _ S0) as Ba.
  assert (NE : sw_events sw <> []) by (intro Q; rewrite Q in I0; destruct I0).
  destruct (heap_pop_ok (tie (sw_clock sw)) (sw_events sw) NE) as (ev & heap & Ep & PE & Min).
  assert (Iev : In ev (sw_events sw)) by (eapply Permutation_in; [symmetry; exact PE|left; auto]).
  assert (Epv : ev_point ev = p0).
  { pose proof (stt_hb _ _ _ _ _ _ _ ev S0 Iev) as L. destruct (Min ev0 I0) as [L2|[L2 _]]; [rewrite E0 in L2; lord|congruence]. }
  unfold next_event, pop. rewrite Ep. rewrite Epv. unfold handle_fuel. cbn [sw_events].
  set (clk := S (sw_clock sw)).
  assert (Sub : forall x, In x heap -> In x (sw_events sw)) by (intros x Ix; eapply Permutation_in; [symmetry; exact PE|right; auto]).
  assert (NRL : forall x, In x (act ++ pend) -> ev_ty ev <> LineRight -> In (ev_LR (b_q x) x) (sw_events sw) -> In (ev_LR (b_q x) x) heap).
  { intros x _ N I. eapply Permutation_in in I; [|exact PE]. destruct I as [I|I]; [|exact I]. rewrite I in N. cbn [ev_LR ev_ty] in N. contradiction. }
  destruct ev as [pv ty k]. cbn [ev_point ev_ty] in *. subst pv. change (2 + List.length heap) with (S (S (List.length heap))).
  destruct ty.
  - (* PointLeft *)
    destruct S0 as [[R|L] NP].
    2:{ exfalso. destruct (ls_hb _ _ _ _ _ _ _ _ _ _ _ _ _ L _ Iev) as [Q|[_ Q]]; [cbn [ev_point] in Q; lord|cbn [ev_ty ty_rank] in Q; lia]. }
    assert (I : In (mkEvent p0 PointLeft k) (map evPL ppend)).
    { eapply Permutation_in; [eapply co_pl; eapply ba_core; exact Ba|]. apply filter_In. split; auto. }
    apply in_map_iff in I as (x & Ex & Ix). rewrite <- Ex in PE |- *.
    assert (Px : snd (pin_cp x) = p0) by (destruct x as [[? ?] ?]; cbn [evPL] in Ex; injection Ex as -> ->; reflexivity).
    destruct (step_PL (S (List.length heap)) _ _ _ _ _ _ _ x clk heap R PE Px) as (sw' & mu' & act' & pend' & ppend' & E & Lm & R' & N').
    exists sw', mu', act', pend', ppend'. fold clk. rewrite E. cbn [bind]. split; [reflexivity|]. split; [exact Lm|]. split; auto.
  - (* LineRight *)
    destruct S0 as [[R|L] NP].
    2:{ exfalso. destruct (ls_hb _ _ _ _ _ _ _ _ _ _ _ _ _ L _ Iev) as [Q|[_ Q]]; [cbn [ev_point] in Q; lord|cbn [ev_ty ty_rank] in Q; lia]. }
    destruct (base_pop _ _ _ _ _ _ _ _ _ _ clk Ba PE eq_refl eq_refl) as (mu' & -> & Ba').
    destruct (step_LR (S (List.length heap)) mu' _ _ _ _ _ _ k Ba' (rt_ord _ _ _ _ _ _ _ R)) as (sw' & act' & pend' & bo & E & R' & N').
    + cbn [sw_events]. intros x Ix. eapply Permutation_in; [exact PE|]. apply (rt_lr _ _ _ _ _ _ _ R); auto.
    + cbn [sw_events]. intros; apply (rt_hb _ _ _ _ _ _ _ R); auto.
    + apply (rt_N _ _ _ _ _ _ _ R).
    + exact NP.
    + exists sw', mu', act', pend', ppend. fold clk. rewrite E. cbn [bind]. split; [reflexivity|]. split; [lia|]. split; auto.
  - (* LineLeft *)
    assert (HB : hb p0 heap).
    { intros x Ix. pose proof (Min x (Sub x Ix)) as [Q|[Q1 Q2]]; cbn [ev_point ev_ty ty_rank] in *; auto. }
    pose proof (core_heap _ _ _ _ _ _ _ _ _ _ _ _ PE (ba_core _ _ _ _ _ _ _ _ _ _ _ _ Ba)) as Co.
    assert (IsL : isLL (mkEvent p0 LineLeft k) = true) by reflexivity.
    destruct (core_takeLL _ _ _ _ _ _ _ _ _ _ _ _ IsL Co) as (mu' & b & pend' & -> & Pp & Eb & Co').
    assert (Pb : b_p b = p0) by (cbn [evLL ev_LL] in Eb; injection Eb as Eb _; auto).
    assert (LR : lrs (sw_events sw) (act ++ pend)).
    { destruct S0 as [[R|L] _]; [apply R|]. intros x Ix. apply (ls_lr _ _ _ _ _ _ _ _ _ _ _ _ _ L). exact Ix. }
    assert (LR' : lrs heap (act ++ [b] ++ pend')).
    { intros x Ix. assert (Ix' : In x (act ++ pend)).
      { apply in_app_iff in Ix as [Ix|Ix]; apply in_or_app; auto. right. eapply Permutation_in; [symmetry; exact Pp|exact Ix]. }
      apply NRL; auto. discriminate. }
    assert (Bb : base mu' (mkSweep (sw_segs sw) heap (sw_active sw) (sw_out sw) clk) act [b] pend' pts ppend past).
    { destruct Ba as [B1 B2 B3 B4 B5 B6 B7 B8 B9]. constructor; auto; cbn [sw_segs sw_events sw_out sw_active].
      - eapply core_perm; [|exact Co']. apply Permutation_app_head. exact Pp.
      - intros x m Ix. apply B4. eapply Permutation_in; [symmetry; exact Pp|exact Ix]. }
    assert (L : lst mu' (mkSweep (sw_segs sw) heap (sw_active sw) (sw_out sw) clk) act [b] pend' pts ppend past).
    { constructor; auto.
      - destruct S0 as [[R|L] _].
        + apply (ord_R_to_L e V); [apply R|]. intros u Iu.
          destruct (HB (ev_LR (b_q u) u)) as [Q|[_ Q]]; [apply LR'; apply in_or_app; auto|exact Q|cbn [ev_LR ev_ty ty_rank] in Q; lia].
        + eapply (ord_shr e V HT p0 Vp0); [| |exact (ls_ord _ _ _ _ _ _ _ _ _ _ _ _ _ L)].
          * eapply (shr0_refl V p0 PL). exact (proj1 (ls_ord _ _ _ _ _ _ _ _ _ _ _ _ _ L)).
          * apply pend_le_incl. intros w Iw. eapply Permutation_in; [exact Pp|exact Iw].
      - destruct S0 as [[R|L] _]; [apply R|apply L]. }
    rewrite Eb. destruct (handle_LL ln tie n e V HT HV1 HV2 p0 Vp0 (List.length heap) _ _ _ _ _ _ _ _ L Pb) as (sw' & mu2 & act2 & pend2 & E & Lm & L2 & N2 & _).
    exists sw', mu2, act2, pend2, ppend. fold clk. rewrite E. cbn [bind]. split; [reflexivity|]. split; [lia|]. split; auto.
  - (* PointRight *)
    destruct (base_pop _ _ _ _ _ _ _ _ _ _ clk Ba PE eq_refl eq_refl) as (mu' & -> & Ba').
    destruct (co_pr _ _ _ _ _ _ _ _ _ _ _ (ba_core _ _ _ _ _ _ _ _ _ _ _ _ Ba) _ Iev eq_refl) as (k' & c & q & Ip & Ek).
    injection Ek as <- <-.
    assert (S1 : stt mu' (mkSweep (sw_segs sw) heap (sw_active sw) (sw_out sw) clk) act pend pts ppend past).
    { destruct S0 as [[R|L] NP].
      - split; [left|exact NP]. destruct R as [R1 R2 R3 R4 R5]. constructor; auto. intros x Ix. apply NRL; auto. discriminate.
      - split; [right|exact NP]. destruct L as [L1 L2 L3 L4 L5]. constructor; auto.
        + intros x Ix. apply NRL; auto. discriminate.
        + intros x Ix. apply L4. apply Sub. auto. }
    destruct (step_PR (S (List.length heap)) _ _ _ _ _ _ _ _ _ S1 Ip) as (sw' & E & S2).
    exists sw', mu', act, pend, ppend. fold clk. rewrite E. cbn [bind]. split; [reflexivity|]. split; [lia|]. exact S2.
Qed.

Lemma peek_in : forall (sw : sweep) p, peek_point sw = Some p -> (exists ev, In ev (sw_events sw) /\ ev_point ev = p) /\ forall ev, In ev (sw_events sw) -> lex_le p (ev_point ev).
Proof.
  intros sw p E. unfold peek_point in E. destruct (sw_events sw) as [|ev h] eqn:Eh; [discriminate E|].
  destruct (heap_peek_ok (ev :: h)) as (m & Em & Im & Min); [discriminate|]. rewrite Em in E. cbn [option_map] in E. injection E as <-.
  split; [eauto|]. intros x Ix. destruct (Min x Ix) as [Q|[Q _]]; [apply lex_lt_le; auto|rewrite Q; apply lex_le_refl].
Qed.
Lemma peek_none : forall (sw : sweep), peek_point sw = None -> sw_events sw = [].
Proof.
  intros sw E. unfold peek_point in E. destruct (sw_events sw) as [|ev h] eqn:Eh; [reflexivity|].
  destruct (heap_peek_ok (ev :: h)) as (m & Em & Im & Min); [discriminate|]. rewrite Em in E. discriminate E.
Qed.

(** All events of a point. *)
Lemma loop : forall mu fuel sw act pend pts ppend past, stt mu sw act pend pts ppend past -> mu < fuel ->
  exists sw' mu' act' pend' ppend', ci_loop ln tie fuel sw (Some p0) = Ok (sw', Some p0) /\ mu' <= mu /\
    stt mu' sw' act' pend' pts ppend' past /\ forall ev, In ev (sw_events sw') -> lex_lt p0 (ev_point ev).
Proof.
  induction mu as [mu IH] using lt_wf_ind. intros fuel sw act pend pts ppend past S0 Lf. destruct fuel as [|fuel]; [lia|]. cbn [ci_loop].
  destruct (peek_point sw) as [p|] eqn:Ep; cbn [opt_peqb andb].
  - destruct (peek_in _ _ Ep) as [(ev & Iev & Eev) Mn]. destruct (peqb_spec p0 p) as [Eq|N]; cbn [andb].
    + subst p.
      destruct (step _ _ _ _ _ _ _ S0) as (sw' & mu' & act' & pend' & ppend' & E & Lm & S1); [eauto|]. rewrite E. cbn [bind].
      destruct (IH mu' ltac:(lia) fuel _ _ _ _ _ _ S1 ltac:(lia)) as (sw2 & mu2 & act2 & pend2 & ppend2 & E2 & Lm2 & S2 & F).
      exists sw2, mu2, act2, pend2, ppend2. split; [exact E2|]. split; [lia|]. auto.
    + exists sw, mu, act, pend, ppend. split; [reflexivity|]. split; [lia|]. split; auto. intros x Ix.
      pose proof (stt_hb _ _ _ _ _ _ _ ev S0 Iev) as L1. rewrite Eev in L1. pose proof (Mn x Ix) as L2.
      assert (L3 : lex_lt p0 p) by (apply lex_le_neq; auto). lord.
  - exists sw, mu, act, pend, ppend. split; [reflexivity|]. split; [lia|]. split; auto. rewrite (peek_none _ Ep). intros ev [].
Qed.
End Step.
