(** The start of a segment. *)
Require Import List String Bool Arith Lia Permutation Sorted.
From Verif Require Import Base Scalar M_Events M_Geo M_LineOrPoint M_Splay M_Slab M_Active M_Sweep.
From Verif Require Import S_Geo P_Geo P_LineOrPoint P_Tilt P_Slab P_Active P_Chain P_Bundle P_Tile P_Heap P_Order P_Inv P_Store P_Handle.
Import Datatypes.
Import ListNotations.
Local Open Scope nat_scope.

Section LL.
Variables (ln : nat -> line) (tie : nat -> nat) (n : nat) (e : Qc) (V : list pt).
Hypothesis HT : tilts e (fun p => In p V).
Hypothesis HV1 : forall c a z, c < n -> geo ln c = Line a z -> In a V /\ In z V.
Hypothesis HV2 : forall c c' a z a' z' r, c < n -> c' < n -> geo ln c = Line a z -> geo ln c' = Line a' z' ->
  on_seg a z r -> on_seg a' z' r -> (forall r', on_seg a z r' -> on_seg a' z' r' -> r' = r) -> In r V.
Variable p0 : pt.
Hypothesis Vp0 : In p0 V.
Context {ar : arith} {fa : faithful ar ln n}.
Notation core := (core ln n V).
Notation good := (good V).
Notation shr := (shr V).
Notation shr0 := (shr0 V).
Notation same_line := (same_line e).
Notation clean := (@clean nat).
Notation Ord := (Ord e V).
Notation tl := (tilt e).
Notation H := (H e).
Notation K := (K e).
Notation base := (base ln n V p0).
Notation lst := (lst ln n e V p0).
Notation rout := (rout ln n e V p0).
Notation l0 := (tl p0).
Notation adj_ok := (adj_ok e p0 PL).

(** No active segment passes through [p0]. *)
Definition nopass (act : list bundle) : Prop :=
  forall x, In x act -> lex_lt (b_p x) p0 -> lex_lt p0 (b_q x) -> H x l0 <> cy p0.

Lemma lst_active : forall mu sw act cur pend pts ppend past t, lst mu sw act cur pend pts ppend past ->
  holds t (map b_key act) -> lst mu (set_active t sw) act cur pend pts ppend past.
Proof.
  intros mu sw act cur pend pts ppend past t [[B1 B2 B3 B4 B5 B6 B7 B8 B9] L2 L3 L4 L5] Ho. constructor; auto. constructor; auto.
Qed.

Definition leftOK (A : list bundle) (b : bundle) (pend : list bundle) : Prop :=
  (forall x, In x A -> K l0 x b = Lt /\ (H x l0 = cy p0 -> b_p x = p0)) /\
  (forall u, hd_error (rev A) = Some u -> adj_ok pend u b).
Definition rightOK (B : list bundle) (b : bundle) (pend : list bundle) : Prop :=
  (forall x, In x B -> K l0 b x = Lt /\ (H x l0 = cy p0 -> b_p x = p0)) /\
  (forall v, hd_error B = Some v -> adj_ok pend b v).

Lemma F2_rev : forall {X} (R : X -> X -> Prop) l l', Forall2 R l l' -> Forall2 R (rev l) (rev l').
Proof. intros X R l l' F. induction F; cbn [rev]; [constructor|]. apply Forall2_app; auto. Qed.
Lemma F2_in_r : forall {X} (R : X -> X -> Prop) l l' y, Forall2 R l l' -> In y l' -> exists x, In x l /\ R x y.
Proof.
  intros X R l l' y F. induction F as [|x x' l l' Hx F IH]; intros I; [destruct I|]. destruct I as [<-|I].
  - exists x. split; [left; auto|auto].
  - destruct (IH I) as (z & Iz & Rz). exists z. split; [right; auto|auto].
Qed.
Lemma F2_hd : forall {X} (R : X -> X -> Prop) l l' y, Forall2 R l l' -> hd_error l' = Some y -> exists x, hd_error l = Some x /\ R x y.
Proof. intros X R l l' y F E. destruct F as [|a a' l l' Ra F]; [discriminate|]. injection E as <-. exists a. split; auto. Qed.

Lemma adj_ok_shr : forall (pend pend' : list bundle) (u v u' v' : bundle), good u -> good v -> shr u u' -> shr v v' -> pend_le e pend pend' ->
  adj_ok pend u v -> adj_ok pend' u' v'.
Proof.
  intros pend pend' u v u' v' Gu Gv Su Sv P [Hc|[Q Hw]].
  - left. apply (clean_shr e V HT u v u' v' Gu Gv Su Sv Hc).
  - right. split; auto. exact (wit_le e p0 _ _ _ _ _ _ P (shr_same e V HT _ _ Gu Su) (shr_same e V HT _ _ Gv Sv) Hw).
Qed.
Lemma leftOK_mono : forall A A' b b' pend pend', (forall x, In x A -> good x) -> good b -> Forall2 (shr0 p0) A A' -> shr b b' ->
  pend_le e pend pend' -> leftOK A b pend -> leftOK A' b' pend'.
Proof.
  intros A A' b b' pend pend' GA Gb F Sb P [L1 L2]. split.
  - intros x' Ix'. destruct (F2_in_r _ _ _ _ F Ix') as (x & Ix & [Sx _]). destruct (L1 x Ix) as [K1 E1].
    pose proof (shr_same e V HT _ _ (GA x Ix) Sx) as SL. pose proof (shr_same e V HT _ _ Gb Sb) as SLb.
    rewrite <- (K_same e l0 x b x' b' SL SLb), <- (proj2 SL). destruct Sx as (-> & _). auto.
  - intros u' Eu'. destruct (F2_hd _ _ _ _ (F2_rev _ _ _ F) Eu') as (u & Eu & [Su _]).
    eapply adj_ok_shr; [| |exact Su|exact Sb|exact P|apply L2; auto]; auto. apply GA. apply hd_rev_in in Eu. auto.
Qed.
Lemma rightOK_mono : forall A A' b b' pend pend', (forall x, In x A -> good x) -> good b -> Forall2 (shr0 p0) A A' -> shr b b' ->
  pend_le e pend pend' -> rightOK A b pend -> rightOK A' b' pend'.
Proof.
  intros A A' b b' pend pend' GA Gb F Sb P [L1 L2]. split.
  - intros x' Ix'. destruct (F2_in_r _ _ _ _ F Ix') as (x & Ix & [Sx _]). destruct (L1 x Ix) as [K1 E1].
    pose proof (shr_same e V HT _ _ (GA x Ix) Sx) as SL. pose proof (shr_same e V HT _ _ Gb Sb) as SLb.
    rewrite <- (K_same e l0 b x b' x' SLb SL), <- (proj2 SL). destruct Sx as (-> & _). auto.
  - intros u' Eu'. destruct (F2_hd _ _ _ _ F Eu') as (u & Eu & [Su _]).
    eapply adj_ok_shr; [| |exact Sb|exact Su|exact P|apply L2; auto]; auto. apply GA. apply hd_in in Eu. auto.
Qed.
Lemma high_shr : forall (B B' : list bundle) (b b' : bundle), (forall x, In x B -> good x) -> good b -> Forall2 (shr0 p0) B B' -> shr b b' ->
  (forall x, In x B -> high e p0 b x) -> forall x, In x B' -> high e p0 b' x.
Proof.
  intros B B' b b' GA Gb F Sb Hh x' Ix'. destruct (F2_in_r _ _ _ _ F Ix') as (x & Ix & [Sx _]).
  pose proof (shr_same e V HT _ _ (GA x Ix) Sx) as SL. pose proof (shr_same e V HT _ _ Gb Sb) as SLb.
  unfold high. rewrite <- (K_same e l0 b x b' x' SLb SL). destruct Sx as (_ & _ & _ & _ & ->), Sb as (_ & _ & _ & _ & ->). apply (Hh x Ix).
Qed.

(** What a finished start leaves behind. *)
Definition fin (mu : nat) (pts ppend : list pin) (past : list crossing) (r : res (sweep * bool)) : Prop :=
  exists sw' mu' act' pend', r = Ok (sw', true) /\ mu' <= mu /\ lst mu' sw' act' [] pend' pts ppend past /\
    nopass act' /\ sw_out sw' <> [].

Lemma nopass_start : forall act W z, Ord p0 PL act W -> In z act -> b_p z = p0 -> nopass act.
Proof.
  intros act W z (_ & O & _) Iz Pz x Ix Px _ E. pose proof (H_at_start e p0 z Pz) as Hz.
  assert (Q : b_p x = p0).
  { apply in_split in Iz as (l1 & l2 & ->). apply in_app_iff in Ix as [Ix|[->|Ix]]; auto.
    - apply FOP_app in O as (_ & _ & O). destruct (O x z Ix (or_introl eq_refl)) as [_ [_ Q]]. apply Q. congruence.
    - apply FOP_app in O as (_ & O & _). inversion O as [|? ? F _]; subst. rewrite Forall_forall in F. destruct (F x Ix) as [_ [_ Q]]. apply Q. congruence. }
  rewrite Q in Px. lord.
Qed.
Lemma nopass_hit : forall X u Y X' Y' W, Ord p0 PL (X ++ u :: Y) W -> H u l0 = cy p0 -> lex_lt (b_p u) p0 ->
  Forall2 (shr0 p0) X X' -> Forall2 (shr0 p0) Y Y' -> nopass (X' ++ Y').
Proof.
  intros X u Y X' Y' W (R & O & _) Hu Pu FX FY x' Ix' _ _ E. rewrite Forall_forall in R.
  assert (Q : exists x, (In x X \/ In x Y) /\ shr x x').
  { apply in_app_iff in Ix' as [I|I]; [destruct (F2_in_r _ _ _ _ FX I) as (x & ? & [? _])|destruct (F2_in_r _ _ _ _ FY I) as (x & ? & [? _])]; eauto. }
  destruct Q as (x & Ix & Sx).
  assert (Gx : good x) by (apply R; apply in_or_app; simpl; tauto).
  rewrite <- (proj2 (shr_same e V HT _ _ Gx Sx)) in E.
  assert (Q : b_p u = p0).
  { destruct Ix as [Ix|Ix].
    - apply FOP_app in O as (_ & _ & O). destruct (O x u Ix (or_introl eq_refl)) as [_ [_ Q]]. apply Q. congruence.
    - apply FOP_app in O as (_ & O & _). inversion O as [|? ? F _]; subst. rewrite Forall_forall in F. destruct (F x Ix) as [_ [_ Q]]. apply Q. congruence. }
  rewrite Q in Pu. lord.
Qed.

(** Two active bundles that start here lie on different lines. *)
Lemma col_same : forall (u v : bundle) x, good u -> good v -> b_p u = p0 -> b_p v = p0 -> lex_lt p0 x -> In x V ->
  cross (b_p u) (b_q u) x = 0%Qc -> cross (b_p v) (b_q v) x = 0%Qc -> same_line u v.
Proof.
  intros u v x Gu Gv Pu Pv L Vx Cu Cv. pose proof (good_tl e V HT _ Gu) as Tu. pose proof (good_tl e V HT _ Gv) as Tv.
  assert (HH : forall w : bundle, (tl (b_p w) < tl (b_q w))%Qc -> cross (b_p w) (b_q w) x = 0%Qc -> H w (tl x) = cy x).
  { intros w Tw Cw. rewrite (cross_hgt e _ _ _ Tw) in Cw. apply Qcmult_integral in Cw as [Cw|Cw]; [exfalso; qcl|]. unfold H. qcl. }
  apply (K_eq_same e (tl x)). apply K_eq_iff. rewrite (HH u Tu Cu), (HH v Tv Cv). split; auto.
  pose proof (H_diff e u v l0 (tl x)) as D. rewrite (HH u Tu Cu), (HH v Tv Cv), (H_at_start e p0 u Pu), (H_at_start e p0 v Pv) in D.
  assert (TL : (l0 < tl x)%Qc) by (apply (tl_lt e V HT); auto).
  assert (Z : ((tl x - l0) * (P_Order.S e v - P_Order.S e u) = 0)%Qc) by qcl.
  apply Qcmult_integral in Z as [Z|Z]; [exfalso; qcl|qcl].
Qed.
Lemma K_neq_new : forall (u v : bundle) x act W, Ord p0 PL act W -> In u act -> In v act -> b_p u = p0 -> b_p v = p0 -> u <> v ->
  lex_lt p0 x -> In x V -> cross (b_p u) (b_q u) x = 0%Qc -> cross (b_p v) (b_q v) x = 0%Qc -> False.
Proof.
  intros u v x act W (R & P & _) Iu Iv Pu Pv Ne L Vx Cu Cv. rewrite Forall_forall in R.
  assert (E : K l0 u v = Eq) by (apply K_eq_same; apply (col_same u v x); auto; [apply (R u Iu)|apply (R v Iv)]).
  destruct (ForallOrdPairs_In P u v Iu Iv) as [Q|[[_ [Q _]]|[_ [Q _]]]]; [contradiction|congruence|].
  rewrite K_opp, E in Q. discriminate.
Qed.
(** Adding the bundle at hand to the active ones. *)
Lemma ll_insert : forall mu sw A B b pend pts ppend past, lst mu sw (A ++ B) [b] pend pts ppend past -> b_p b = p0 ->
  leftOK A b pend -> rightOK B b pend ->
  fin mu pts ppend past
    (let* sw2 := (let* t := add_key seg_partial_cmp (sw_active sw) (b_key b) (sw_segs sw) in Ok (set_active t sw)) in
     let* sw3 := report_left (chain_fuel (sw_segs sw2)) sw2 (Some (b_key b)) LineLeft in Ok (sw3, true)).
Proof.
  intros mu sw A B b pend pts ppend past Ls Pb [LA SA] [LB SB].
  pose proof (ls_base _ _ _ _ _ _ _ _ _ _ _ _ _ Ls) as Ba. pose proof (ba_core _ _ _ _ _ _ _ _ _ _ _ _ Ba) as Co.
  pose proof (ls_ord _ _ _ _ _ _ _ _ _ _ _ _ _ Ls) as Or.
  assert (Ib : In b ((A ++ B) ++ [b] ++ pend)) by (rewrite !in_app_iff; simpl; auto).
  pose proof (core_good _ _ _ _ _ _ _ _ _ _ _ _ Co Ib) as Gb.
  assert (Si : sits seg_partial_cmp (sw_segs sw) (b_key b) (map b_key A) [] (map b_key B)).
  { eapply (sits_new ln n e V HT); [exact Co|left; reflexivity|exact Pb| | |].
    - intros x Ix. destruct Or as (R & _). rewrite Forall_forall in R. apply (R x Ix).
    - intros x Ix. left. apply LA; auto.
    - intros x Ix. left. apply LB; auto. }
  pose proof (ba_act _ _ _ _ _ _ _ _ _ _ _ _ Ba) as Ho. rewrite map_app in Ho.
  destruct (add_key_ok _ _ _ _ _ _ Ho Si (root_contains _ _ _ _ _ _ _ _ _ _ _ _ Co Ib)) as (t & E1 & H1).
  rewrite E1. cbn [bind set_active sw_segs].
  pose proof (base_core_cur _ _ _ _ _ _ _ _ _ _ _ _ Ba) as Co1.
  pose proof (co_srep _ _ _ _ _ _ _ _ _ _ _ Co1) as R. cbn [flat_map] in R. rewrite <- !app_assoc in R.
  pose proof (co_ne _ _ _ _ _ _ _ _ _ _ _ Co1 b (or_introl eq_refl)) as Nb.
  assert (FL : List.length (b_mem b) < chain_fuel (sw_segs sw)).
  { unfold chain_fuel. pose proof (srep_length _ _ R) as L. rewrite app_length in L. unfold bcells in L. rewrite cells_length in L. lia. }
  destruct (report_left_ok (b_mem b) (chain_fuel (sw_segs sw)) (set_active t sw) (b_geom b) false _ FL R) as (sl3 & E3 & R3).
  assert (HK : Some (b_key b) = hk (b_mem b)) by (unfold b_key; destruct (b_mem b); [contradiction|reflexivity]).
  unfold set_active in E3 |- *. rewrite HK, E3. cbn [bind].
  set (b1 := mkB (b_p b) (b_q b) (map set_done (b_mem b))).
  assert (Ek : b_key b1 = b_key b) by (unfold b_key, b1; cbn [b_mem]; destruct (b_mem b); reflexivity).
  assert (Sh : shr0 p0 b b1).
  { split; [|unfold b1; cbn [b_q]; rewrite <- Pb; apply lex_lt_le; apply Gb].
    split; [reflexivity|]. split; [apply (onb_q b)|]. split; [apply Gb|split; [apply Gb|auto]]. }
  assert (Or1 : Ord p0 PL (A ++ b1 :: B) pend).
  { eapply (ord_shr e V HT p0 Vp0 PL (A ++ b :: B)); [| apply pend_le_refl|apply ord_insert; auto].
    destruct Or as (RR & _). apply Forall_app in RR as [RA RB]. apply Forall2_app; [apply (shr0_refl V p0 PL); auto|].
    constructor; [exact Sh|apply (shr0_refl V p0 PL); auto]. }
  eexists _, mu, (A ++ b1 :: B), pend. split; [reflexivity|]. split; [lia|]. split; [|split].
  - assert (Co3 : core mu sl3 (sw_events sw) ((past ++ sw_out sw) ++ reports (b_geom b) true (b_mem b)) (b1 :: (A ++ B) ++ pend) pend pts ppend).
    { unfold b1. eapply core_redone with (ms := b_mem b).
      - replace (mkB (b_p b) (b_q b) (b_mem b)) with b by (destruct b; reflexivity).
        apply (core_left _ _ _ _ _ _ _ b (b_mem b) _ _ _ _ Co1 (or_introl eq_refl)). apply incl_refl.
      - apply same_mem_done.
      - rewrite <- (app_assoc A B pend). exact R3. }
    constructor.
    + destruct Ba as [B1 B2 B3 B4 B5 B6 B7 B8 B9]. constructor; auto.
      * cbn [sw_segs sw_events sw_out]. rewrite app_assoc. eapply core_perm; [|exact Co3].
        rewrite <- !app_assoc. cbn [app]. apply Permutation_middle.
      * cbn [sw_active]. rewrite map_app. cbn [map]. rewrite Ek. exact H1.
      * intros x m I Im. apply in_app_iff in I as [I|[<-|I]].
        -- apply (B3 x); auto. apply in_or_app; auto.
        -- cbn [b1 b_mem] in Im. apply in_map_iff in Im as (m' & <- & _). reflexivity.
        -- apply (B3 x); auto. apply in_or_app; auto.
      * intros x m I. apply B4. cbn [app] in *. right; auto.
      * intros c. cbn [sw_out]. rewrite app_assoc, started_app, (ended_app c (past ++ sw_out sw)). unfold b_geom.
        rewrite started_left, ended_left, app_nil_r, (B5 c), !map_app, <- app_assoc. apply Permutation_app_head.
        rewrite !current_app, !current_cons, !map_app. cbn [b1 b_p b_q b_mem]. rewrite !map_map. cbn [fst].
        rewrite <- !app_assoc. apply Permutation_app_head. rewrite Permutation_app_comm. apply Permutation_app_tail.
        rewrite (map_const_len (b_p b) _ (filter (fun m => m_c m =? c) (map set_done (b_mem b)))); [reflexivity|].
        symmetry. apply same_filter. apply same_mem_done.
      * cbn [sw_out]. intros x I. apply in_app_iff in I as [I|I]; [auto|].
        apply reports_in in I as (E1' & E2' & _). unfold crpt, b_geom in *. rewrite E1', E2'. auto.
      * cbn [sw_out]. apply ovl_ok_app; auto. apply ovl_ok_reports.
      * cbn [sw_out]. destruct B9 as [R1 R2].
        assert (OW : forall x, In x (sw_out sw) -> cr_left x = true -> ~ col b1 x).
        { intros x Ix Lx Cx. destruct (R1 x Ix Lx) as (u & Iu & Pu & Cu). unfold col in Cx, Cu.
          assert (Gu : good u) by (destruct Or as (RR & _); rewrite Forall_forall in RR; apply (RR u Iu)).
          apply (K_neq_new u b1 (lop_second (cr_line x)) (A ++ b1 :: B) pend Or1); auto.
          - apply in_app_iff in Iu. apply in_or_app; simpl; tauto.
          - apply in_or_app; right; left; auto.
          - intros ->. assert (NK : b_key b1 <> b_key b).
            { eapply (key_neq ln n V); [exact Co|reflexivity|]. apply in_or_app; auto. }
            apply NK; auto.
          - assert (Cr := B7 x Ix). unfold crpt in Cr. rewrite Lx in Cr.
            pose proof (co_log _ _ _ _ _ _ _ _ _ _ _ B1 x (in_or_app _ _ _ (or_intror Ix))) as (_ & CL & _).
            destruct (cr_line x) as [y|y z]; [destruct CL as (_ & Q & _); congruence|]. destruct CL as (? & ? & _ & L & _). subst y. exact L.
          - pose proof (co_log _ _ _ _ _ _ _ _ _ _ _ B1 x (in_or_app _ _ _ (or_intror Ix))) as (_ & CL & _).
            destruct (cr_line x) as [y|y z]; [destruct CL as (_ & Q & _); congruence|]. destruct CL as (? & ? & _ & _ & _ & L & _). exact L. }
        split.
        -- intros x Ix Lx. apply in_app_iff in Ix as [Ix|Ix].
           ++ destruct (R1 x Ix Lx) as (u & Iu & Q). exists u. split; auto. apply in_app_iff in Iu. apply in_or_app; simpl; tauto.
           ++ apply reports_in in Ix as (E1' & _). exists b1. split; [apply in_or_app; right; left; auto|]. split; [exact Pb|].
              unfold col. rewrite E1'. cbn [b1 b_p b_q b_geom lop_second]. unfold cross. ring.
        -- intros u Iu Pu. apply in_app_iff in Iu as [Iu|[<-|Iu]].
           ++ destruct (R2 u (in_or_app _ _ _ (or_introl Iu)) Pu) as (l1 & y & l2 & -> & Q). exists l1, y, (l2 ++ reports (b_geom b) true (b_mem b)). rewrite <- app_assoc. auto.
           ++ destruct (b_mem b) as [|m ms] eqn:Em; [contradiction|]. cbn [reports].
              eexists (sw_out sw), _, _. split; [reflexivity|]. cbn [cr_left cr_key]. split; [reflexivity|]. split; [rewrite Ek; unfold b_key; rewrite Em; reflexivity|].
              split; [|exact OW]. unfold col. cbn [cr_line b1 b_p b_q b_geom lop_second]. unfold cross. ring.
           ++ destruct (R2 u (in_or_app _ _ _ (or_intror Iu)) Pu) as (l1 & y & l2 & -> & Q). exists l1, y, (l2 ++ reports (b_geom b) true (b_mem b)). rewrite <- app_assoc. auto.
    + exact Or1.
    + cbn [sw_events]. pose proof (ls_lr _ _ _ _ _ _ _ _ _ _ _ _ _ Ls) as LR. intros x Ix. cbn [app] in Ix.
      apply in_app_iff in Ix as [Ix|Ix]; [apply in_app_iff in Ix as [Ix|[<-|Ix]]|].
      * apply LR. rewrite !in_app_iff; simpl; auto.
      * unfold ev_LR. rewrite Ek. apply (LR b). rewrite !in_app_iff; simpl; auto.
      * apply LR. rewrite !in_app_iff; simpl; auto.
      * apply LR. rewrite !in_app_iff; simpl; auto.
    + apply (ls_hb _ _ _ _ _ _ _ _ _ _ _ _ _ Ls).
    + pose proof (ls_N _ _ _ _ _ _ _ _ _ _ _ _ _ Ls) as Nk. intros x v Ix Vv Ov Lv.
      apply in_app_iff in Ix as [Ix|[<-|Ix]]; [apply (Nk x v); auto; apply in_or_app; auto| |apply (Nk x v); auto; apply in_or_app; auto].
      cbn [b1 b_p] in Lv. rewrite Pb in Lv. apply lex_lt_le; auto.
  - apply (nopass_start _ _ b1 Or1); [apply in_or_app; right; left; reflexivity|exact Pb].
  - cbn [sw_out]. apply reports_ne; auto.
Qed.

Lemma pend_le_app : forall (nw pend : list bundle), pend_le e pend (nw ++ pend).
Proof. intros nw pend. apply pend_le_incl. intros w Iw. apply in_or_app; auto. Qed.

(** The second neighbour. *)
Lemma ll_next : forall fuel mu sw A B b pend pts ppend past, lst mu sw (A ++ B) [b] pend pts ppend past -> b_p b = p0 ->
  leftOK A b pend -> (forall x, In x B -> high e p0 b x) ->
  fin mu pts ppend past
    (let* (sw1, f) := ll_loop ln tie (handle_event ln tie (S fuel)) (evLL b) sw (rs b) (opt_list (hd_error (map b_key B))) in
     match f with
     | Return => Ok (sw1, true)
     | _ =>
         let* sw2 :=
           match f with
           | Break => Ok sw1
           | _ => let* t := add_key seg_partial_cmp (sw_active sw1) (b_key b) (sw_segs sw1) in Ok (set_active t sw1)
           end in
         let* sw3 := report_left (chain_fuel (sw_segs sw2)) sw2 (Some (b_key b)) LineLeft in Ok (sw3, true)
     end).
Proof.
  intros fuel mu sw A B b pend pts ppend past Ls Pb LO HB.
  destruct B as [|v Y].
  - cbn [map hd_error opt_list ll_loop bind]. apply (ll_insert mu sw A [] b pend pts ppend past Ls Pb LO). split; [intros x []|discriminate].
  - cbn [map hd_error opt_list ll_loop].
    pose proof (ls_ord _ _ _ _ _ _ _ _ _ _ _ _ _ Ls) as Or.
    assert (GA : forall x, In x (A ++ v :: Y) -> good x) by (intros x Ix; destruct Or as (R & _); rewrite Forall_forall in R; apply (R x Ix)).
    assert (Gb : good b) by (eapply ba_good; [eapply ls_base; exact Ls|]; rewrite !in_app_iff; simpl; auto).
    assert (RA : Forall2 (shr0 p0) A A) by (apply (shr0_refl V p0 PL); destruct Or as (R & _); apply Forall_app in R; tauto).
    destruct (round_ok ln tie n e V HT HV1 HV2 p0 Vp0 fuel mu sw A v Y b pend pts ppend past Ls Pb) as (o & Eo & Ro).
    rewrite Eo. cbn [bind].
    assert (Pk : forall x, In x Y -> pair_ok e p0 PL v x).
    { intros x Ix. destruct Or as (_ & O & _). apply FOP_app in O as (_ & O & _). inversion O as [|? ? F _]; subst. rewrite Forall_forall in F. auto. }
    assert (Hv : high e p0 b v) by (apply HB; left; auto).
    assert (KV : ~ same_line v b -> K l0 b v = Lt).
    { intros NS. destruct Hv as [Q|[Q _]]; auto. exfalso. apply NS. apply same_line_sym. apply (K_eq_same e l0). auto. }
    pose proof (H_at_start e p0 b Pb) as Hb.
    destruct Ro as [sw' v' b' nw Ls' Sv Sb Cl NS Hy|sw' mu' X' Y' nw w Lm Ls' FX FY Hu Pu NS Iw Pw SLw|sw' sw'' s u'' nw Er Ls' Pu'' No|sw' s mu' X' Y' pend' Lm Ls' FX FY Hu Pu No].
    + cbn [ll_loop bind]. assert (Ekb : b_key b' = b_key b) by apply Sb. rewrite <- Ekb. specialize (KV NS).
      apply (ll_insert mu sw' A (v' :: Y) b' (nw ++ pend)); auto.
      * destruct Sb as (-> & _). exact Pb.
      * eapply leftOK_mono; [|exact Gb|exact RA|exact Sb|apply pend_le_app|exact LO]. intros x Ix; apply GA; apply in_or_app; auto.
      * assert (Gv : good v) by (apply GA; apply in_or_app; right; left; auto).
        pose proof (shr_same e V HT _ _ Gv (proj1 Sv)) as SLv. pose proof (shr_same e V HT _ _ Gb Sb) as SLb.
        split.
        -- intros x [<-|Ix].
           ++ rewrite <- (K_same e l0 b v b' v' SLb SLv), <- (proj2 SLv). destruct Sv as [(-> & _) _]. auto.
           ++ rewrite <- (K_same e l0 b x b' x SLb (same_line_refl e x)). destruct (Pk x Ix) as [_ [K1 E1]]. split; [eapply K_trans; eauto|].
              intros E. pose proof (K_le e _ _ _ KV) as Q1. pose proof (K_le e _ _ _ K1) as Q2. apply E1. rewrite Hb in Q1. rewrite E in *. qcl.
        -- intros x E. injection E as <-. left. apply clean_sym. exact Cl.
    + cbn [ll_loop bind]. specialize (KV NS).
      assert (F : fin mu' pts ppend past
        (let* sw2 := (let* t := add_key seg_partial_cmp (sw_active sw') (b_key b) (sw_segs sw') in Ok (set_active t sw')) in
         let* sw3 := report_left (chain_fuel (sw_segs sw2)) sw2 (Some (b_key b)) LineLeft in Ok (sw3, true))).
      { apply (ll_insert mu' sw' X' Y' b (nw ++ pend)); auto.
        - eapply leftOK_mono; [|exact Gb|exact FX|apply shr_refl; exact Gb|apply pend_le_app|exact LO]. intros x Ix; apply GA; apply in_or_app; auto.
        - assert (GY : forall x, In x Y -> good x) by (intros x Ix; apply GA; apply in_or_app; right; right; auto).
          split.
          + intros x' Ix'. destruct (F2_in_r _ _ _ _ FY Ix') as (x & Ix & [Sx _]). pose proof (shr_same e V HT _ _ (GY x Ix) Sx) as SLx.
            destruct (Pk x Ix) as [_ [K1 E1]]. rewrite <- (K_same e l0 b x b x' (same_line_refl e b) SLx). split; [eapply K_trans; eauto|].
            rewrite <- (proj2 SLx). intros E. exfalso. destruct E1 as [E1 _]; [congruence|]. rewrite E1 in Pu. lord.
          + intros x' Ex'. destruct (F2_hd _ _ _ _ FY Ex') as (x & Ex & [Sx _]). apply hd_in in Ex. right. split; auto.
            exists w. split; [exact Iw|]. split; [exact Pw|]. destruct (Pk x Ex) as [_ [K1 _]].
            rewrite <- (K_same e l0 b v b w (same_line_refl e b) SLw), <- (K_same e l0 v x w x' SLw (shr_same e V HT _ _ (GY x Ex) Sx)). auto. }
      destruct F as (sw2 & mu2 & act2 & pend2 & F1 & F2 & F3). exists sw2, mu2, act2, pend2. split; [exact F1|]. split; [lia|auto].
    + cbn [bind]. rewrite Er. cbn [bind]. exists sw'', mu, (A ++ u'' :: Y), (nw ++ pend). split; [reflexivity|]. split; [lia|]. split; [exact Ls'|].
      split; [|exact No]. eapply nopass_start; [apply (ls_ord _ _ _ _ _ _ _ _ _ _ _ _ _ Ls')| |exact Pu'']. apply in_or_app; right; left; auto.
    + cbn [bind]. exists sw', mu', (X' ++ Y'), pend'. split; [reflexivity|]. split; [lia|]. split; [exact Ls'|]. split; [|exact No].
      eapply nopass_hit; [exact Or|exact Hu|exact Pu|exact FX|exact FY].
Qed.

Lemma handle_LL : forall fuel mu sw act b pend pts ppend past, lst mu sw act [b] pend pts ppend past -> b_p b = p0 ->
  fin mu pts ppend past (handle_event ln tie (S (S fuel)) sw (evLL b)).
Proof.
  intros fuel mu sw act b pend pts ppend past Ls Pb.
  pose proof (ls_base _ _ _ _ _ _ _ _ _ _ _ _ _ Ls) as Ba. pose proof (ba_core _ _ _ _ _ _ _ _ _ _ _ _ Ba) as Co.
  pose proof (ls_ord _ _ _ _ _ _ _ _ _ _ _ _ _ Ls) as Or.
  assert (Ib : In b (act ++ [b] ++ pend)) by (rewrite !in_app_iff; simpl; auto).
  assert (Gb : good b) by (eapply ba_good; eauto).
  destruct (place_seg e p0 act b (ord_K _ _ _ _ _ Or)) as (A & B & EAB & LA & LB).
  { intros x Ix. eapply (key_neq ln n V); [exact Co|reflexivity|]. apply in_or_app; auto. }
  subst act.
  assert (Si : sits seg_partial_cmp (sw_segs sw) (b_key b) (map b_key A) [] (map b_key B)).
  { eapply (sits_new ln n e V HT); [exact Co|left; reflexivity|exact Pb| |exact LA|exact LB].
    intros x Ix. destruct Or as (R & _). rewrite Forall_forall in R. apply (R x Ix). }
  remember (S fuel) as f1 eqn:Ef. cbn [handle_event]. subst f1. rewrite (sfe_LL ln n V _ _ _ _ _ _ _ _ _ Co Ib). cbn [bind]. rewrite rs_key.
  pose proof (ba_act _ _ _ _ _ _ _ _ _ _ _ _ Ba) as Ho. rewrite map_app in Ho.
  destruct (prev_key_ok seg_partial_cmp (sw_segs sw) (b_key b) (map b_key A) [] (map b_key B) _ Ho Si) as (t1 & P1 & H1). rewrite P1. cbn [bind].
  destruct (next_key_ok seg_partial_cmp (sw_segs sw) (b_key b) (map b_key A) [] (map b_key B) _ H1 Si) as (t2 & P2 & H2). rewrite P2.
  unfold evLL, ev_LL. cbn [bind ev_ty ev_key]. fold (ev_LL (b_p b) b). fold (evLL b).
  cbn [app] in H2. rewrite <- map_app in H2. pose proof (lst_active _ _ _ _ _ _ _ _ _ Ls H2) as Ls0. 
  assert (GA : forall x, In x (A ++ B) -> good x) by (intros x Ix; destruct Or as (R & _); rewrite Forall_forall in R; apply (R x Ix)).
  rewrite <- map_rev, hd_error_map. destruct (hd_error (rev A)) as [u|] eqn:EA; cbn [option_map opt_list app].
  2:{ apply hd_rev_none in EA. subst A. apply (ll_next fuel mu _ [] B b pend pts ppend past Ls0 Pb); auto. split; [intros x []|discriminate]. }
  apply hd_rev_split in EA as (X & ->).
  assert (Ls1 : lst mu (set_active t2 sw) (X ++ u :: B) [b] pend pts ppend past) by (rewrite <- app_assoc in Ls0; exact Ls0).
  assert (Or' : Ord p0 PL (X ++ u :: B) ([b] ++ pend)) by (rewrite <- app_assoc in Or; exact Or).
  destruct (round_ok ln tie n e V HT HV1 HV2 p0 Vp0 fuel mu _ X u B b pend pts ppend past Ls1 Pb) as (o & Eo & Ro).
  cbn [ll_loop]. rewrite Eo. cbn [bind].
  assert (Pk : forall x, In x X -> pair_ok e p0 PL x u).
  { intros x Ix. destruct Or' as (_ & O & _). apply FOP_app in O as (_ & _ & O). apply O; auto. left; auto. }
  assert (Hu0 : low e p0 b u) by (apply LA; apply in_or_app; right; left; auto).
  assert (KV : ~ same_line u b -> K l0 u b = Lt).
  { intros NS. destruct Hu0 as [Q|[Q _]]; auto. exfalso. apply NS. apply (K_eq_same e l0). auto. }
  pose proof (H_at_start e p0 b Pb) as Hb.
  assert (Gu : good u) by (apply GA; rewrite !in_app_iff; simpl; auto).
  assert (GX : forall x, In x X -> good x) by (intros x Ix; apply GA; rewrite !in_app_iff; simpl; auto).
  assert (GB : forall x, In x B -> good x) by (intros x Ix; apply GA; rewrite !in_app_iff; simpl; auto).
  assert (SB : Forall2 (shr0 p0) B B) by (apply (shr0_refl V p0 PL); destruct Or as (R & _); apply Forall_app in R; tauto).
  destruct Ro as [sw' u' b' nw Ls' Su Sb Cl NS Hy|sw' mu' X' Y' nw w Lm Ls' FX FY Hu Pu NS Iw Pw SLw|sw' sw'' s u'' nw Er Ls' Pu'' No|sw' s mu' X' Y' pend' Lm Ls' FX FY Hu Pu No].
  - specialize (KV NS). assert (Ekb : b_key b' = b_key b) by apply Sb. assert (Epb : b_p b' = b_p b) by apply Sb.
    pose proof (shr_same e V HT _ _ Gu (proj1 Su)) as SLu. pose proof (shr_same e V HT _ _ Gb Sb) as SLb.
    assert (Ev : evLL b' = evLL b) by (unfold evLL, ev_LL; rewrite Ekb, Epb; reflexivity). rewrite <- Ev, <- Ekb.
    assert (Ls2 : lst mu sw' ((X ++ [u']) ++ B) [b'] (nw ++ pend) pts ppend past) by (rewrite <- app_assoc; exact Ls').
    apply (ll_next fuel mu sw' (X ++ [u']) B b' (nw ++ pend) pts ppend past Ls2).
    + rewrite Epb. exact Pb.
    + split.
      * intros x Ix. apply in_app_iff in Ix as [Ix|[<-|[]]].
        -- rewrite <- (K_same e l0 x b x b' (same_line_refl e x) SLb). destruct (Pk x Ix) as [_ [K1 E1]]. split; [eapply K_trans; eauto|].
           intros E. pose proof (K_le e _ _ _ KV) as Q1. pose proof (K_le e _ _ _ K1) as Q2. apply E1. rewrite Hb in Q1. rewrite E in *. qcl.
        -- rewrite <- (K_same e l0 u b u' b' SLu SLb), <- (proj2 SLu). destruct Su as [(-> & _) _]. auto.
      * intros x E. rewrite rev_app_distr in E. injection E as <-. left. exact Cl.
    + eapply high_shr; [|exact Gb|exact SB|exact Sb|exact LB]. exact GB.
  - specialize (KV NS).
    assert (F : fin mu' pts ppend past
       (let* (sw1, f) := ll_loop ln tie (handle_event ln tie (S fuel)) (evLL b) sw' (rs b) (opt_list (hd_error (map b_key B))) in
     match f with
     | Return => Ok (sw1, true)
     | _ =>
         let* sw2 :=
           match f with
           | Break => Ok sw1
           | _ => let* t := add_key seg_partial_cmp (sw_active sw1) (b_key b) (sw_segs sw1) in Ok (set_active t sw1)
           end in
         let* sw3 := report_left (chain_fuel (sw_segs sw2)) sw2 (Some (b_key b)) LineLeft in Ok (sw3, true)
     end)).
    { assert (Ekeys : map b_key Y' = map b_key B).
      { clear - FY. induction FY as [|x x' l l' [(_ & _ & _ & _ & E) _] F IH]; [reflexivity|]. cbn [map]. rewrite E, IH. reflexivity. }
      rewrite <- Ekeys. apply (ll_next fuel mu' sw' X' Y' b (nw ++ pend) pts ppend past Ls' Pb).
      - split.
        + intros x' Ix'. destruct (F2_in_r _ _ _ _ FX Ix') as (x & Ix & [Sx _]). pose proof (shr_same e V HT _ _ (GX x Ix) Sx) as SLx.
          destruct (Pk x Ix) as [_ [K1 E1]]. rewrite <- (K_same e l0 x b x' b SLx (same_line_refl e b)). split; [eapply K_trans; eauto|].
          rewrite <- (proj2 SLx). intros E. exfalso. destruct E1 as [_ E1]; [congruence|]. rewrite E1 in Pu. lord.
        + intros x' Ex'. destruct (F2_hd _ _ _ _ (F2_rev _ _ _ FX) Ex') as (x & Ex & [Sx _]). apply hd_rev_in in Ex. right. split; auto.
          exists w. split; [exact Iw|]. split; [exact Pw|]. destruct (Pk x Ex) as [_ [K1 _]].
          rewrite <- (K_same e l0 u b w b SLw (same_line_refl e b)), <- (K_same e l0 x u x' w (shr_same e V HT _ _ (GX x Ex) Sx) SLw). auto.
      - eapply high_shr; [exact GB|exact Gb|exact FY|apply shr_refl; exact Gb|exact LB]. }
    destruct F as (sw2 & mu2 & act2 & pend2 & F1 & F2 & F3). exists sw2, mu2, act2, pend2. split; [exact F1|]. split; [lia|auto].
  - cbn [bind]. rewrite Er. cbn [bind]. exists sw'', mu, (X ++ u'' :: B), (nw ++ pend). split; [reflexivity|]. split; [lia|]. split; [exact Ls'|].
    split; [|exact No]. eapply nopass_start; [apply (ls_ord _ _ _ _ _ _ _ _ _ _ _ _ _ Ls')| |exact Pu'']. apply in_or_app; right; left; auto.
  - cbn [bind]. exists sw', mu', (X' ++ Y'), pend'. split; [reflexivity|]. split; [lia|]. split; [exact Ls'|]. split; [|exact No].
    eapply nopass_hit; [exact Or'|exact Hu|exact Pu|exact FX|exact FY].
Qed.
End LL.
