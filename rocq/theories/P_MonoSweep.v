(** Monotone decomposition: one event of the sweep. *)
Require Import List String Bool Arith Lia Permutation Sorted.
From Verif Require Import Base Scalar M_Events M_Geo M_LineOrPoint M_Slab M_Active M_MonoPoly M_Rings M_Op M_MonoSweep.
From Verif Require Import S_Geo P_Geo P_LineOrPoint P_Tilt P_Chain P_Bundle P_Order P_Inv P_Slab P_BTree.
From Verif Require Import P_OpLab P_OpStep P_MonoGeo.
Import Datatypes.
Import ListNotations.
Local Open Scope nat_scope.

(** A part of the interior that the sweep line cuts: the edge below it, the edge above
    it, the helper of the upper edge, and whether the helper is a merge vertex. *)
Record sgap : Type := mkSgap { sg_b : nat; sg_t : nat; sg_h : pt; sg_m : bool }.
Definition flat (gs : list sgap) : list nat := flat_map (fun g => [sg_b g; sg_t g]) gs.
Lemma flat_app : forall a b, flat (a ++ b) = flat a ++ flat b. Proof. intros. apply flat_map_app. Qed.
Lemma flat_even : forall gs, Nat.even (List.length (flat gs)) = true.
Proof. induction gs as [|g gs IH]; [reflexivity|exact IH]. Qed.
Lemma flat_split : forall gs X Y, flat gs = X ++ Y ->
  (exists G1 G2, gs = G1 ++ G2 /\ X = flat G1 /\ Y = flat G2) \/
  (exists G1 g G2, gs = G1 ++ g :: G2 /\ X = flat G1 ++ [sg_b g] /\ Y = sg_t g :: flat G2).
Proof.
  induction gs as [|g gs IH]; intros X Y E.
  - cbn in E. symmetry in E. apply app_eq_nil in E as [-> ->]. left. exists [], []. auto.
  - destruct X as [|x X]; [left; exists [], (g :: gs); auto|]. cbn in E. injection E as <- E. destruct X as [|x X].
    + cbn in E. right. exists [], g, gs. auto.
    + cbn in E. injection E as <- E. destruct (IH X Y E) as [(G1 & G2 & -> & -> & ->)|(G1 & g' & G2 & -> & -> & ->)].
      * left. exists (g :: G1), G2. auto.
      * right. exists (g :: G1), g', G2. auto.
Qed.

Definition upd (hf : nat -> helper) (c : nat) (h : helper) (c' : nat) : helper := if c' =? c then h else hf c'.
Lemma upd_same : forall hf c h, upd hf c h c = h. Proof. intros. unfold upd. rewrite Nat.eqb_refl. reflexivity. Qed.
Lemma upd_other : forall hf c h c', c' <> c -> upd hf c h c' = hf c'.
Proof. intros hf c h c' N. unfold upd. apply Nat.eqb_neq in N. rewrite N. reflexivity. Qed.

Section Sweep.
Context {ln : nat -> line} {n : nat} {e : Qc} {V V' : list pt} {top : nat -> bool}.
Context (G : mono_geo ln n e V V' top).
Variable pick : list nat -> nat -> nat -> nat.
Notation tl := (tilt e).
Notation H := (P_Order.H e).
Notation K := (P_Order.K e).
Notation Sl := (P_Order.S e).
Notation ea := (ea ln).
Notation ez := (ez ln).
Notation eb := (eb ln).
Notation actb := (actb ln).
Notation inc := (inc ln).
Notation lo := (@lo ln e).
Notation sorted := (@sorted ln n e).
Notation pos := (@pos ln e).

(** * The storage *)
Definition seg_of (hf : nat -> helper) (c : nat) : segment :=
  mkSegment (S c) (Line (ea c) (ez c)) (if top c then Some (hf c) else None).
Record store (hf : nat -> helper) (q : pt) (st : slab segment) : Prop := {
  st_wf : slab_wf st;
  st_pt : slab_get st 0 = Some (segment_new_point 0 q);
  st_seg : forall c, c < n -> slab_get st (S c) = Some (seg_of hf c) }.

Lemma store_seg : forall hf q st c h, store hf q st -> c < n -> top c = true ->
  exists st', slab_set st (S c) (mkSegment (S c) (Line (ea c) (ez c)) (Some h)) = Ok st' /\ store (upd hf c h) q st'.
Proof.
  intros hf q st c h [W P Q] L T. destruct (slab_set_ok st (S c) (seg_of hf c) (mkSegment (S c) (Line (ea c) (ez c)) (Some h)) W (Q c L)) as (st' & E & W' & _ & E1 & E2).
  exists st'. split; auto. constructor; auto.
  - rewrite E2 by discriminate. auto.
  - intros c' L'. destruct (Nat.eq_dec c' c) as [->|N].
    + rewrite E1. unfold seg_of. rewrite T, upd_same. reflexivity.
    + rewrite E2 by congruence. rewrite (Q c' L'). unfold seg_of. rewrite upd_other by auto. reflexivity.
Qed.
Lemma store_pt : forall hf q q' st, store hf q st -> exists st', slab_set st 0 (segment_new_point 0 q') = Ok st' /\ store hf q' st'.
Proof.
  intros hf q q' st [W P Q]. destruct (slab_set_ok st 0 _ (segment_new_point 0 q') W P) as (st' & E & W' & _ & E1 & E2).
  exists st'. split; auto. constructor; auto. intros c' L'. rewrite E2 by discriminate. auto.
Qed.
Lemma seg_at_ok : forall hf q st c, store hf q st -> c < n -> seg_at st (S c) = Ok (seg_of hf c).
Proof. intros hf q st c S L. unfold seg_at. rewrite (st_seg _ _ _ S c L). reflexivity. Qed.
Lemma contains_ok : forall hf q st c, store hf q st -> c < n -> slab_contains st (S c) = true.
Proof. intros hf q st c S L. unfold slab_contains. rewrite (st_seg _ _ _ S c L). reflexivity. Qed.

(** * Comparisons *)
Notation cmp st := (active_cmp segment_cmp st).
Lemma cmp_segs : forall hf q st p c c', store hf q st -> c < n -> c' < n -> c <> c' -> In p V' -> actb p c = true -> actb p c' = true ->
  cmp st (S c) (S c') = Ok (K (tl p) (eb c) (eb c')).
Proof.
  intros hf q st p c c' S L L' N Vp A A'. unfold active_cmp. rewrite (slab_get_unchecked_ok st _ _ (st_seg _ _ _ S c L)), (slab_get_unchecked_ok st _ _ (st_seg _ _ _ S c' L')). cbn [bind].
  unfold segment_cmp, seg_of. cbn [m_geom M_MonoSweep.m_key lop_partial_cmp]. rewrite (cmp_act G p) by auto. cbn [option_map expect]. pose proof (not_eq G p c c' L L' N A A') as NE.
  destruct (K (tl p) (eb c) (eb c')); [contradiction|reflexivity|reflexivity].
Qed.
Lemma cmp_same : forall hf q st c, store hf q st -> c < n -> cmp st (S c) (S c) = Ok Eq.
Proof.
  intros hf q st c S L. unfold active_cmp. rewrite (slab_get_unchecked_ok st _ _ (st_seg _ _ _ S c L)). cbn [bind]. unfold segment_cmp, seg_of. cbn [m_geom M_MonoSweep.m_key lop_partial_cmp].
  rewrite (cmp_self G) by auto. cbn [option_map ord_then expect]. rewrite Nat.compare_refl. reflexivity.
Qed.
Lemma cmp_lo : forall hf q st p c c', store hf q st -> c < n -> c' < n -> In p V' -> actb p c = true -> actb p c' = true -> lo p c c' ->
  cmp st (S c) (S c') = Ok Lt /\ cmp st (S c') (S c) = Ok Gt.
Proof.
  intros hf q st p c c' S L L' Vp A A' Lo. assert (N : c <> c') by (intros ->; apply (lo_irrefl p c' Lo)).
  rewrite !(cmp_segs hf q st p) by auto. rewrite (lo_gt p c c' Lo). unfold P_MonoGeo.lo in Lo. rewrite Lo. auto.
Qed.
Lemma cmp_point : forall hf st q c, store hf q st -> c < n -> In q V' -> actb q c = true ->
  (pos q c = Lt -> cmp st 0 (S c) = Ok Gt) /\ (pos q c = Gt -> cmp st 0 (S c) = Ok Lt).
Proof.
  intros hf st q c S L Vq A. unfold active_cmp. rewrite (slab_get_unchecked_ok st _ _ (st_pt _ _ _ S)), (slab_get_unchecked_ok st _ _ (st_seg _ _ _ S c L)). cbn [bind].
  unfold segment_cmp, seg_of, segment_new_point. cbn [m_geom M_MonoSweep.m_key lop_partial_cmp]. unfold cmp_line_point. apply actb_iff in A as [A1 A2].
  assert (Q1 : pltb (ez c) q = false) by (apply pltb_false; apply lex_lt_le; auto). assert (Q2 : pltb q (ea c) = false) by (apply pltb_false; auto). rewrite Q1, Q2. cbn [orb option_map expect].
  assert (T : (tl (ea c) < tl (ez c))%Qc) by (apply (tlt G); auto using (aV G), (zV G), (azlt G)).
  assert (C : cross (ea c) (ez c) q = ((tl (ez c) - tl (ea c)) * (cy q - H (eb c) (tl q)))%Qc) by (apply (cross_hgt e); auto).
  split; intros P.
  - apply (proj1 (pos_lt _ _)) in P. assert (Z : (0 < cross (ea c) (ez c) q)%Qc) by (rewrite C; qc). destruct (orient2d_spec (ea c) (ez c) q); try (exfalso; qcl). reflexivity.
  - apply (proj1 (pos_gt _ _)) in P. assert (Z : (cross (ea c) (ez c) q < 0)%Qc) by (rewrite C; qc). destruct (orient2d_spec (ea c) (ez c) q); try (exfalso; qcl). reflexivity.
Qed.

(** * The set of active segments *)
Lemma rm_ok : forall hf q st p A c B, store hf q st -> In p V' -> ForallOrdPairs (lo p) (A ++ c :: B) -> (forall x, In x (A ++ c :: B) -> x < n /\ actb p x = true) ->
  bt_remove pick (cmp st) (map S (A ++ c :: B)) (S c) = Ok (map S (A ++ B)).
Proof.
  intros hf q st p A c B S Vp F D. rewrite !map_app. cbn [map]. apply FOP_app in F as (F1 & F2 & F3). inversion F2 as [|? ? F4 F5]; subst. rewrite Forall_forall in F4.
  destruct (D c) as [Lc Ac]; [apply in_or_app; right; left; auto|]. apply bt_remove_ok.
  - intros x I. apply in_map_iff in I as (a & <- & I). destruct (D a) as [La Aa]; [apply in_or_app; auto|]. apply (cmp_lo hf q st p a c); auto. apply F3; auto. left; auto.
  - intros x I. apply in_map_iff in I as (a & <- & I). destruct (D a) as [La Aa]; [apply in_or_app; right; right; auto|]. apply (cmp_lo hf q st p c a); auto.
  - apply (cmp_same hf q); auto.
Qed.
Lemma ins_ok : forall hf q st p A c B, store hf q st -> In p V' -> ForallOrdPairs (lo p) (A ++ c :: B) -> (forall x, In x (A ++ c :: B) -> x < n /\ actb p x = true) ->
  bt_insert pick (cmp st) (map S (A ++ B)) (S c) = Ok (map S (A ++ c :: B)).
Proof.
  intros hf q st p A c B S Vp F D. rewrite !map_app. cbn [map]. apply FOP_app in F as (F1 & F2 & F3). inversion F2 as [|? ? F4 F5]; subst. rewrite Forall_forall in F4.
  destruct (D c) as [Lc Ac]; [apply in_or_app; right; left; auto|]. apply bt_insert_ok.
  - intros x I. apply in_map_iff in I as (a & <- & I). destruct (D a) as [La Aa]; [apply in_or_app; auto|]. apply (cmp_lo hf q st p a c); auto. apply F3; auto. left; auto.
  - intros x I. apply in_map_iff in I as (a & <- & I). destruct (D a) as [La Aa]; [apply in_or_app; right; right; auto|]. apply (cmp_lo hf q st p c a); auto.
Qed.
Lemma next_ok : forall hf q st A t B, store hf q st -> In q V' -> (forall x, In x A -> x < n /\ actb q x = true /\ pos q x = Lt) -> (forall x, In x (t :: B) -> x < n /\ actb q x = true /\ pos q x = Gt) ->
  bt_next_key pick (cmp st) (map S (A ++ t :: B)) 0 = Ok (Some (S t)).
Proof.
  intros hf q st A t B S Vq HA HB. rewrite map_app. rewrite bt_next_ok; [reflexivity| |].
  - intros x I. apply in_map_iff in I as (a & <- & I). destruct (HA a I) as (L & D & P). apply (cmp_point hf st q a); auto.
  - intros x I. apply in_map_iff in I as (a & <- & I). destruct (HB a I) as (L & D & P). apply (cmp_point hf st q a); auto.
Qed.

(** * Removing, fixing up, inserting *)
Definition right_of (v : pt) (c : nat) : event := mkEvent v LineRight (S c).
Definition left_of (v : pt) (c : nat) : event := mkEvent v LineLeft (S c).
Definition mlk (hf : nat -> helper) (p : pt) (c : nat) : list mlink := if top c && h_merge (hf c) then [LMerge (h_point (hf c)) p None] else [].
Definition cleared (hf : nat -> helper) (c : nat) : nat -> helper := if top c && h_merge (hf c) then upd hf c (mkHelper (h_point (hf c)) false) else hf.
Lemma cleared_other : forall hf c c', c' <> c -> cleared hf c c' = hf c'.
Proof. intros hf c c' N. unfold cleared. destruct (top c && h_merge (hf c)); auto. apply upd_other; auto. Qed.

Lemma remove_ok : forall hf q st p evs A c B links v, store hf q st -> In p V' -> ForallOrdPairs (lo p) (A ++ c :: B) -> (forall x, In x (A ++ c :: B) -> x < n /\ actb p x = true) ->
  exists st', handle_remove pick q (right_of v c) (mkMsweep st 0 evs (map S (A ++ c :: B)), links) = Ok (mkMsweep st' 0 evs (map S (A ++ B)), links ++ mlk hf q c) /\ store (cleared hf c) q st'.
Proof.
  intros hf q st p evs A c B links v S Vp F D. assert (L : c < n) by (apply D; apply in_or_app; right; left; auto). unfold handle_remove, right_of. cbn [ev_ty ev_key ms_segments ms_active].
  rewrite (seg_at_ok hf q) by auto. cbn [bind seg_of m_helper]. unfold mlk, cleared. destruct (top c) eqn:T.
  - destruct (h_merge (hf c)) eqn:M; cbn [andb].
    + destruct (store_seg hf q st c (mkHelper (h_point (hf c)) false) S L T) as (st' & E & S'). unfold set_helper, seg_of. cbn [M_MonoSweep.m_key m_geom]. rewrite E. cbn [bind set_segments ms_segments ms_active ms_pt_key ms_events].
      rewrite (contains_ok _ q st' c S' L). cbn [bind check]. rewrite (rm_ok _ q st' p A c B S') by auto. cbn [bind]. exists st'. split; auto.
    + cbn [bind ms_segments ms_active]. rewrite (contains_ok hf q st c S L). cbn [bind check]. rewrite (rm_ok hf q st p A c B S) by auto. cbn [bind]. rewrite app_nil_r. exists st. split; auto.
  - cbn [andb bind ms_segments ms_active]. rewrite (contains_ok hf q st c S L). cbn [bind check]. rewrite (rm_ok hf q st p A c B S) by auto. cbn [bind]. rewrite app_nil_r. exists st. split; auto.
Qed.
Lemma insert_ok : forall hf q st p evs A c B v, store hf q st -> In p V' -> ForallOrdPairs (lo p) (A ++ c :: B) -> (forall x, In x (A ++ c :: B) -> x < n /\ actb p x = true) ->
  handle_insert pick (left_of v c) (mkMsweep st 0 evs (map S (A ++ B))) = Ok (mkMsweep st 0 evs (map S (A ++ c :: B))).
Proof.
  intros hf q st p evs A c B v S Vp F D. assert (L : c < n) by (apply D; apply in_or_app; right; left; auto). unfold handle_insert, left_of. cbn [ev_ty ev_key ms_segments ms_active].
  rewrite (contains_ok hf q st c S L). cbn [bind check]. rewrite (ins_ok hf q st p A c B S) by auto. reflexivity.
Qed.
Definition fix_links (hf : nat -> helper) (q : pt) (t : nat) (force : bool) (lim : pt * pt) : list mlink :=
  if h_merge (hf t) then [LMerge (h_point (hf t)) q (Some lim)] else if force then [LSplit (h_point (hf t)) q (fst lim) (snd lim)] else [].
Definition limbs (ix : intersection) : pt * pt := match ix_interior ix with Ccw => (ix_other1 ix, ix_other2 ix) | Cw => (ix_other2 ix, ix_other1 ix) end.
Lemma fix_ok : forall hf q st evs A t B links ix force is_merge, store hf q st -> In q V' -> (forall x, In x A -> x < n /\ actb q x = true /\ pos q x = Lt) -> (forall x, In x (t :: B) -> x < n /\ actb q x = true /\ pos q x = Gt) ->
  top t = true ->
  exists st', fix_up pick q ix force is_merge (mkMsweep st 0 evs (map S (A ++ t :: B)), links) = Ok (mkMsweep st' 0 evs (map S (A ++ t :: B)), links ++ fix_links hf q t force (limbs ix)) /\
    store (upd hf t (mkHelper q is_merge)) q st'.
Proof.
  intros hf q st evs A t B links ix force is_merge S Vq HA HB T. destruct (HB t (or_introl eq_refl)) as (L & _ & _). unfold fix_up. cbn [ms_segments ms_active ms_pt_key].
  rewrite (next_ok hf q st A t B) by auto. cbn [bind expect]. rewrite (seg_at_ok hf q) by auto. cbn [bind seg_of m_helper]. rewrite T. cbn [expect bind].
  unfold fix_links, limbs. destruct (ix_interior ix); unfold set_helper, seg_of; cbn [M_MonoSweep.m_key m_geom fst snd].
  all: match goal with |- context [slab_set _ _ (mkSegment _ _ (Some ?h))] =>
         assert (Eh : h = mkHelper q is_merge) by (destruct (h_merge (hf t)), force, is_merge; reflexivity); rewrite Eh end.
  all: destruct (store_seg hf q st t (mkHelper q is_merge) S L T) as (st' & E & S'); rewrite E; cbn [bind]; exists st'; split; auto.
  all: destruct (h_merge (hf t)), force; cbn [orb]; rewrite ?app_nil_r; reflexivity.
Qed.

(** * The events *)
Definition all_events : list event := flat_map (fun c => [left_of (ea c) c; right_of (ez c) c]) (seq 0 n).
Definition evt (v : pt) (c : nat) : event := if peqb (ea c) v then left_of v c else right_of v c.
Definition oth (v : pt) (c : nat) : pt := if peqb (ea c) v then ez c else ea c.
Definition after (p : pt) (ev : event) : bool := pltb p (ev_point ev).
Definition at_pt (p : pt) (ev : event) : bool := peqb (ev_point ev) p.
Definition ev_le (a b : event) : Prop := lex_le (ev_point a) (ev_point b).
Lemma evt_left : forall v c, ea c = v -> evt v c = left_of v c.
Proof. intros v c E. unfold evt. apply peqb_iff in E. rewrite E. reflexivity. Qed.
Lemma evt_right : forall v c, c < n -> ez c = v -> evt v c = right_of v c.
Proof. intros v c L E. unfold evt. destruct (peqb_spec (ea c) v) as [Q|Q]; auto. exfalso. pose proof (azlt G c L). rewrite Q, E in H. lord. Qed.
Lemma oth_left : forall v c, ea c = v -> oth v c = ez c.
Proof. intros v c E. unfold oth. apply peqb_iff in E. rewrite E. reflexivity. Qed.
Lemma oth_right : forall v c, c < n -> ez c = v -> oth v c = ea c.
Proof. intros v c L E. unfold oth. destruct (peqb_spec (ea c) v) as [Q|Q]; auto. exfalso. pose proof (azlt G c L). rewrite Q, E in H. lord. Qed.
Lemma in_events : forall ev, In ev all_events <-> exists c, c < n /\ (ev = left_of (ea c) c \/ ev = right_of (ez c) c).
Proof.
  intros ev. unfold all_events. rewrite in_flat_map. split.
  - intros (c & I & J). apply in_seq in I. exists c. split; [lia|]. destruct J as [<-|[<-|[]]]; auto.
  - intros (c & L & J). exists c. split; [apply in_seq; lia|]. destruct J as [->| ->]; cbn; auto.
Qed.
Lemma events_nodup : NoDup all_events.
Proof.
  unfold all_events. assert (Q : forall k m, NoDup (flat_map (fun c => [left_of (ea c) c; right_of (ez c) c]) (seq k m))); [|apply Q].
  intros k m. revert k. induction m as [|m IH]; intros k; [constructor|]. cbn [seq flat_map app].
  assert (N : forall ev, ev_key ev = S k -> ~ In ev (flat_map (fun c => [left_of (ea c) c; right_of (ez c) c]) (seq (S k) m))).
  { intros ev E I. apply in_flat_map in I as (c & I & J). apply in_seq in I. destruct J as [<-|[<-|[]]]; cbn in E; lia. }
  constructor; [intros [E|I]; [discriminate|apply (N _ (eq_refl : ev_key (left_of (ea k) k) = _) I)]|].
  constructor; [apply (N _ (eq_refl : ev_key (right_of (ez k) k) = _))|apply IH].
Qed.
Lemma in_at : forall v ev, In ev (filter (at_pt v) all_events) <-> exists c, c < n /\ inc v c /\ ev = evt v c.
Proof.
  intros v ev. rewrite filter_In, in_events. unfold at_pt. split.
  - intros [(c & L & [->| ->]) E]; apply peqb_iff in E; cbn in E; exists c; split; auto; split.
    + left; auto.
    + rewrite evt_left, E by auto. reflexivity.
    + right; auto.
    + rewrite evt_right, E by auto. reflexivity.
  - intros (c & L & I & ->). destruct I as [I|I].
    + rewrite evt_left by auto. split; [|apply peqb_iff; reflexivity]. exists c. split; auto. left. rewrite I. reflexivity.
    + rewrite evt_right by auto. split; [|apply peqb_iff; reflexivity]. exists c. split; auto. right. rewrite I. reflexivity.
Qed.
Lemma evt_key : forall v c, ev_key (evt v c) = S c. Proof. intros v c. unfold evt. destruct (peqb (ea c) v); reflexivity. Qed.
Lemma evt_point : forall v c, ev_point (evt v c) = v. Proof. intros v c. unfold evt. destruct (peqb (ea c) v); reflexivity. Qed.
Lemma at_two : forall v, In v V -> exists c1 c2, c1 < n /\ c2 < n /\ c1 <> c2 /\ inc v c1 /\ inc v c2 /\ (forall c, c < n -> inc v c -> c = c1 \/ c = c2) /\
  Permutation (filter (at_pt v) all_events) [evt v c1; evt v c2].
Proof.
  intros v Vv. destruct (mg_deg _ _ _ _ _ _ G v Vv) as (c1 & c2 & L1 & L2 & N & I1 & I2 & O). exists c1, c2. repeat split; auto.
  apply NoDup_Permutation; [apply NoDup_filter, events_nodup|constructor; [|constructor; [intros []|constructor]]|].
  - intros [E|[]]. apply (f_equal ev_key) in E. rewrite !evt_key in E. congruence.
  - intros ev. rewrite in_at. split.
    + intros (c & L & I & ->). destruct (O c L I) as [->| ->]; cbn; auto.
    + intros [<-|[<-|[]]]; eauto.
Qed.
Lemma front : forall v l, StronglySorted ev_le l -> (forall ev, In ev l -> lex_le v (ev_point ev)) ->
  l = filter (at_pt v) l ++ filter (after v) l /\ events_at v l = List.length (filter (at_pt v) l).
Proof.
  intros v l S. induction S as [|a l S IH F]; intros B; [split; reflexivity|]. cbn [filter events_at]. destruct IH as [E1 E2]; [intros; apply B; right; auto|].
  rewrite Forall_forall in F. change (at_pt v a) with (peqb (ev_point a) v). change (after v a) with (pltb v (ev_point a)). destruct (peqb_spec (ev_point a) v) as [Q|Q].
  - destruct (pltb_spec v (ev_point a)) as [W|W]; [rewrite Q in W; lord|]. cbn [app List.length]. split; [f_equal; auto|]. f_equal; auto.
  - assert (La : lex_lt v (ev_point a)) by (apply lex_le_neq; [apply B; left; auto|auto]). destruct (pltb_spec v (ev_point a)) as [W|W]; [|contradiction].
    assert (E3 : filter (at_pt v) l = []).
    { destruct (filter (at_pt v) l) as [|ev l'] eqn:E; auto. exfalso. assert (I : In ev (filter (at_pt v) l)) by (rewrite E; left; auto). apply filter_In in I as [I J]. unfold at_pt in J. apply peqb_iff in J. pose proof (F ev I) as Z. unfold ev_le in Z. rewrite J in Z. lord. }
    rewrite E3 in *. cbn [app List.length]. split; auto. f_equal. exact E1.
Qed.
Lemma filter_filter : forall {X} (f g : X -> bool) l, (forall x, g x = true -> f x = true) -> filter g (filter f l) = filter g l.
Proof.
  intros X f g l I. induction l as [|x l IH]; [reflexivity|]. cbn [filter]. destruct (f x) eqn:E; cbn [filter]; [rewrite IH; reflexivity|].
  destruct (g x) eqn:Q; auto. rewrite (I x Q) in E. discriminate.
Qed.
Lemma perm_two : forall {X} (l : list X) a b, Permutation l [a; b] -> l = [a; b] \/ l = [b; a].
Proof.
  intros X l a b P. pose proof (Permutation_length P) as L. destruct l as [|x [|y [|z l]]]; try discriminate L.
  assert (I : In x [a; b]) by (apply (Permutation_in _ P); left; auto). destruct I as [<-|[<-|[]]].
  - apply Permutation_cons_inv in P. apply Permutation_length_1 in P as ->. auto.
  - assert (Q : Permutation [b; y] [b; a]) by (eapply perm_trans; [exact P|apply perm_swap]). apply Permutation_cons_inv in Q. apply Permutation_length_1 in Q as ->. auto.
Qed.

Lemma pop_two : forall p evs e0 rest, evs = e0 :: rest -> StronglySorted ev_le evs -> Permutation evs (filter (after p) all_events) ->
  In (ev_point e0) V /\ lex_lt p (ev_point e0) /\ (forall v, In v V -> lex_lt p v -> lex_lt v (ev_point e0) -> False) /\
  exists c1 c2 back, let p' := ev_point e0 in c1 < n /\ c2 < n /\ c1 <> c2 /\ inc p' c1 /\ inc p' c2 /\ (forall c, c < n -> inc p' c -> c = c1 \/ c = c2) /\
    evs = evt p' c1 :: evt p' c2 :: back /\ events_at p' evs = 2 /\ StronglySorted ev_le back /\ Permutation back (filter (after p') all_events).
Proof.
  intros p evs e0 rest E S P. set (p' := ev_point e0).
  assert (I0 : In e0 (filter (after p) all_events)) by (apply (Permutation_in _ P); rewrite E; left; auto). apply filter_In in I0 as [I0 A0]. unfold after in A0. apply pltb_iff in A0. fold p' in A0.
  assert (Le : forall ev, In ev evs -> lex_le p' (ev_point ev)).
  { intros ev I. rewrite E in *. inversion S as [|? ? S' F]; subst. destruct I as [<-|I]; [apply lex_le_refl|]. rewrite Forall_forall in F. apply F; auto. }
  assert (V0 : In p' V) by (apply in_events in I0 as (c & L & [Q|Q]); unfold p'; rewrite Q; cbn; auto using (aV0 G), (zV0 G)).
  destruct (front p' evs S Le) as [F1 F2].
  assert (P1 : Permutation (filter (at_pt p') evs) (filter (at_pt p') all_events)).
  { eapply perm_trans; [apply perm_filter; exact P|]. rewrite filter_filter; [apply Permutation_refl|]. intros ev Q. apply peqb_iff in Q. apply pltb_iff. rewrite Q. auto. }
  assert (P2 : Permutation (filter (after p') evs) (filter (after p') all_events)).
  { eapply perm_trans; [apply perm_filter; exact P|]. rewrite filter_filter; [apply Permutation_refl|]. intros ev Q. apply pltb_iff in Q. apply pltb_iff. lord. }
  split; auto. split; auto. split.
  - intros v Vv L1 L2. destruct (at_two v Vv) as (c1 & c2 & Lc & _ & _ & Ic & _). assert (I : In (evt v c1) (filter (after p) all_events)).
    { apply filter_In. split; [apply (proj1 (filter_In (at_pt v) _ _)); apply in_at; eauto|]. unfold after. rewrite evt_point. apply pltb_iff. auto. }
    apply (Permutation_in _ (Permutation_sym P)) in I. apply Le in I. rewrite evt_point in I. lord.
  - destruct (at_two p' V0) as (c1 & c2 & L1 & L2 & N & I1 & I2 & O & Q). assert (Q' := perm_trans P1 Q).
    assert (S' : StronglySorted ev_le (filter (after p') evs)).
    { rewrite F1 in S. clear - S. induction (filter (at_pt p') evs) as [|a l IH]; auto. inversion S; auto. }
    destruct (perm_two _ _ _ Q') as [E2|E2].
    + exists c1, c2, (filter (after p') evs). cbn zeta. repeat split; auto; [rewrite E2 in F1; exact F1|rewrite F2, E2; reflexivity].
    + exists c2, c1, (filter (after p') evs). cbn zeta. repeat split; auto; [intros c L I; destruct (O c L I); auto|rewrite E2 in F1; exact F1|rewrite F2, E2; reflexivity].
Qed.

(** * The sweep between two events *)
Record sinv (hf : nat -> helper) (p : pt) (s : msweep) (gs : list sgap) : Prop := {
  si_store : exists q, store hf q (ms_segments s);
  si_key : ms_pt_key s = 0;
  si_perm : Permutation (ms_events s) (filter (after p) all_events);
  si_srt : StronglySorted ev_le (ms_events s);
  si_act : ms_active s = map S (flat gs);
  si_sorted : sorted p (flat gs);
  si_help : forall g, In g gs -> hf (sg_t g) = mkHelper (sg_h g) (sg_m g);
  si_new : forall c, c < n -> lex_lt p (ea c) -> hf c = mkHelper (ea c) false }.

Definition ends_at (v : pt) (l : list nat) : Prop := forall c, In c l <-> c < n /\ ez c = v.
Definition starts_at (v : pt) (l : list nat) : Prop := forall c, In c l <-> c < n /\ ea c = v.
Definition mlinks (m : bool) (h p : pt) (lim : option (pt * pt)) : list mlink := if m then [LMerge h p lim] else [].
(** What an event at [p] does: which parts of the interior begin, end or change there,
    and the links that the sweep reports. *)
Inductive sstep (p : pt) : list sgap -> vertex_type -> list mlink -> list sgap -> Prop :=
| s_start : forall X Y b t, ends_at p [] -> starts_at p [b; t] ->
    sstep p (X ++ Y) VStart [LStart p (ez t) (ez b)] (X ++ mkSgap b t p false :: Y)
| s_end : forall X Y b t h m, ends_at p [b; t] -> starts_at p [] ->
    sstep p (X ++ mkSgap b t h m :: Y) VEnd (mlinks m h p None ++ [LEnd (ea t) (ea b) p]) (X ++ Y)
| s_top : forall X Y b t t' h m, ends_at p [t] -> starts_at p [t'] -> pos p b = Lt ->
    sstep p (X ++ mkSgap b t h m :: Y) VContinue (mlinks m h p None ++ [LContinue (ea t) p (ez t') Cw]) (X ++ mkSgap b t' p false :: Y)
| s_bot : forall X Y b b' t h m lim, ends_at p [b] -> starts_at p [b'] -> pos p t = Gt ->
    sstep p (X ++ mkSgap b t h m :: Y) VContinue (mlinks m h p (Some lim) ++ [LContinue (ea b) p (ez b') Ccw]) (X ++ mkSgap b' t p false :: Y)
| s_split : forall X Y b t b' t' h m, ends_at p [] -> starts_at p [t'; b'] -> pos p b = Lt -> pos p t = Gt ->
    sstep p (X ++ mkSgap b t h m :: Y) VSplit
      [if m : bool then LMerge h p (Some (ez b', ez t')) else LSplit h p (ez b') (ez t')]
      (X ++ mkSgap b t' p false :: mkSgap b' t p false :: Y)
| s_merge : forall X Y b1 t1 h1 m1 b2 t2 h2 m2 lim, ends_at p [t1; b2] -> starts_at p [] -> pos p b1 = Lt -> pos p t2 = Gt ->
    sstep p (X ++ mkSgap b1 t1 h1 m1 :: mkSgap b2 t2 h2 m2 :: Y) VMerge
      (mlinks m1 h1 p None ++ mlinks m2 h2 p (Some lim))
      (X ++ mkSgap b1 t2 p true :: Y).

Lemma gap_labels : forall gs, alt (top := top) false (flat gs) -> forall g, In g gs -> top (sg_b g) = false /\ top (sg_t g) = true.
Proof.
  induction gs as [|g gs IH]; intros A g' I; [destruct I|]. destruct A as [A1 [A2 A3]]. destruct I as [<-|I]; auto.
Qed.
Lemma proc_seq : forall s v e0 rest s1 ix s2 a1 s3 links g1 g2 s4 links' s5 s6, ms_events s = e0 :: rest -> ev_point e0 = v ->
  find_intersection_type s v = Ok (s1, ix) -> store_point v s1 = Ok s2 ->
  handle_remove pick v (ix_event1 ix) (s2, []) = Ok a1 -> handle_remove pick v (ix_event2 ix) a1 = Ok (s3, links) ->
  seg_at (ms_segments s3) (ev_key (ix_event1 ix)) = Ok g1 -> seg_at (ms_segments s3) (ev_key (ix_event2 ix)) = Ok g2 ->
  (ix_ty ix = VContinue -> interior_winding g1 = interior_winding g2) ->
  vertex_links pick v ix (interior_winding g1) (s3, links) = Ok (s4, links') ->
  handle_insert pick (ix_event1 ix) s4 = Ok s5 -> handle_insert pick (ix_event2 ix) s5 = Ok s6 ->
  process_event pick s = Ok (s6, Some (mkSweepEvent v (ix_ty ix) links')).
Proof.
  intros s v e0 rest s1 ix s2 a1 s3 links g1 g2 s4 links' s5 s6 E Ev F1 F2 F3 F4 F5 F6 C F7 F8 F9. unfold process_event. rewrite E, Ev, F1. cbn [bind]. rewrite F2. cbn [bind]. rewrite F3. cbn [bind]. rewrite F4. cbn [bind]. rewrite F5. cbn [bind]. rewrite F6. cbn [bind].
  assert (Q : (match ix_ty ix with VContinue => winding_eqb (interior_winding g1) (interior_winding g2) | _ => true end) = true).
  { destruct (ix_ty ix); auto. rewrite C by auto. destruct (interior_winding g2); reflexivity. }
  rewrite Q. cbn [check bind]. rewrite F7. cbn [bind]. rewrite F8. cbn [bind]. rewrite F9. reflexivity.
Qed.
Definition iw (c : nat) : winding := if top c then Cw else Ccw.
Lemma iw_seg : forall hf c, interior_winding (seg_of hf c) = iw c.
Proof. intros hf c. unfold seg_of, interior_winding, iw. cbn [m_helper]. destruct (top c); reflexivity. Qed.
Definition vtype (c1 c2 : nat) (v : pt) : res vertex_type :=
  let w := winding_of_orientation (orient2d (oth v c1) v (oth v c2)) in
  match ev_ty (evt v c1), ev_ty (evt v c2) with
  | LineRight, LineRight => let* w := expect w "sweep.rs:347 pair RR: can't have collinearity" in Ok (if winding_eqb w (iw c1) then VEnd else VMerge)
  | LineRight, LineLeft | LineLeft, LineRight => Ok VContinue
  | LineLeft, LineLeft => let* w := expect w "sweep.rs:357 pair RR: can't have collinearity" in Ok (if winding_eqb w (iw c1) then VSplit else VStart)
  | _, _ => Panic "sweep.rs:364 unexpected: point type event!"
  end.
Lemma fit_ok : forall hf q st act v c1 c2 back ty, store hf q st -> c1 < n -> c2 < n -> inc v c1 -> inc v c2 ->
  events_at v (evt v c1 :: evt v c2 :: back) = 2 -> vtype c1 c2 v = Ok ty ->
  find_intersection_type (mkMsweep st 0 (evt v c1 :: evt v c2 :: back) act) v =
    Ok (mkMsweep st 0 back act, mkIxn ty (evt v c1) (evt v c2) (oth v c1) (oth v c2) (iw c1)).
Proof.
  intros hf q st act v c1 c2 back ty S L1 L2 I1 I2 E2 T. unfold find_intersection_type. cbn [ms_events ms_segments ms_pt_key ms_active]. rewrite E2. cbn [Nat.eqb check bind].
  rewrite !evt_key, !(seg_at_ok hf q) by auto. cbn [bind].
  assert (O : forall c, c < n -> inc v c -> other_end (evt v c) (seg_of hf c) = Ok (oth v c)).
  { intros c L I. unfold other_end, seg_of. cbn [m_geom is_line check bind]. destruct I as [I|I].
    - rewrite evt_left, oth_left by auto. reflexivity.
    - rewrite evt_right, oth_right by auto. reflexivity. }
  rewrite (O c1), (O c2) by auto. cbn [bind]. rewrite !evt_point, (proj2 (peqb_iff v v) eq_refl). cbn [andb check bind]. rewrite iw_seg.
  unfold vtype in T. cbn zeta in T |- *. destruct (ev_ty (evt v c1)), (ev_ty (evt v c2)); try discriminate T; cbn [bind] in *;
    try (destruct (winding_of_orientation (orient2d (oth v c1) v (oth v c2))); cbn [expect bind] in *; [|discriminate T]); injection T as <-; reflexivity.
Qed.

(** * Orientations at a vertex *)
Lemma orient_end : forall p v x y, x < n -> y < n -> In p V' -> actb p x = true -> actb p y = true -> lo p x y -> ez x = v -> ez y = v ->
  orient2d (ea x) v (ea y) = CounterClockwise /\ orient2d (ea y) v (ea x) = Clockwise.
Proof.
  intros p v x y Lx Ly Vp Ax Ay Lo Ex Ey. apply actb_iff in Ax as [_ A]. rewrite Ex in A. assert (Vv : In v V') by (rewrite <- Ex; apply (zV G); auto). pose proof (tlt G _ _ Vp Vv A) as T.
  pose proof (Hz G x Lx) as H1. pose proof (Hz G y Ly) as H2. rewrite Ex in H1. rewrite Ey in H2. pose proof (H_diff e (eb x) (eb y) (tl v) (tl p)) as D. rewrite H1, H2 in D.
  assert (Sy : (Sl (eb y) < Sl (eb x))%Qc).
  { unfold P_MonoGeo.lo in Lo. apply K_lt_iff in Lo. destruct (Qclt_le_dec (Sl (eb y)) (Sl (eb x))) as [Q|Q]; auto. exfalso. destruct Lo as [Q'|[Q' Q'']].
    - assert (Z : (0 <= (tl v - tl p) * (Sl (eb y) - Sl (eb x)))%Qc) by (clear D; qc). qcl.
    - assert (Z : (0 < (tl v - tl p) * (Sl (eb y) - Sl (eb x)))%Qc) by (clear D; qc). qcl. }
  assert (Tx : (tl (ea x) < tl v)%Qc) by (apply (tlt G); auto using (aV G); rewrite <- Ex; apply (azlt G); auto).
  assert (Ty : (tl (ea y) < tl v)%Qc) by (apply (tlt G); auto using (aV G); rewrite <- Ey; apply (azlt G); auto).
  assert (C1 : cross (ea x) v (ea y) = ((tl v - tl (ea x)) * (cy (ea y) - H (eb x) (tl (ea y))))%Qc) by (rewrite <- Ex; apply (cross_hgt e); rewrite Ex; auto).
  assert (C2 : cross (ea y) v (ea x) = ((tl v - tl (ea y)) * (cy (ea x) - H (eb y) (tl (ea x))))%Qc) by (rewrite <- Ey; apply (cross_hgt e); rewrite Ey; auto).
  pose proof (Ha G x Lx) as H3. pose proof (Ha G y Ly) as H4.
  pose proof (H_diff e (eb x) (eb y) (tl v) (tl (ea y))) as D1. pose proof (H_diff e (eb x) (eb y) (tl v) (tl (ea x))) as D2. rewrite H1, H2 in D1, D2. rewrite H4 in D1. rewrite H3 in D2.
  assert (Z1 : (0 < (tl v - tl (ea y)) * (Sl (eb x) - Sl (eb y)))%Qc) by (clear - Sy Ty; qc).
  assert (Z2 : (0 < (tl v - tl (ea x)) * (Sl (eb x) - Sl (eb y)))%Qc) by (clear - Sy Tx; qc).
  assert (W1 : (0 < cy (ea y) - H (eb x) (tl (ea y)))%Qc) by (clear - D1 Z1; qcl).
  assert (W2 : (cy (ea x) - H (eb y) (tl (ea x)) < 0)%Qc) by (clear - D2 Z2; qcl).
  assert (P1 : (0 < cross (ea x) v (ea y))%Qc) by (rewrite C1; clear - W1 Tx; qc).
  assert (P2 : (cross (ea y) v (ea x) < 0)%Qc) by (rewrite C2; clear - W2 Ty; qc).
  split; [destruct (orient2d_spec (ea x) v (ea y)); auto; exfalso; qcl|destruct (orient2d_spec (ea y) v (ea x)); auto; exfalso; qcl].
Qed.
Lemma orient_start : forall v x y, x < n -> y < n -> lo v x y -> ea x = v -> ea y = v ->
  orient2d (ez x) v (ez y) = Clockwise /\ orient2d (ez y) v (ez x) = CounterClockwise.
Proof.
  intros v x y Lx Ly Lo Ex Ey. assert (Vv : In v V') by (rewrite <- Ex; apply (aV G); auto).
  pose proof (Ha G x Lx) as H1. pose proof (Ha G y Ly) as H2. rewrite Ex in H1. rewrite Ey in H2.
  assert (Sy : (Sl (eb x) < Sl (eb y))%Qc).
  { unfold P_MonoGeo.lo in Lo. apply K_lt_iff in Lo. rewrite H1, H2 in Lo. destruct Lo as [Q|[_ Q]]; auto. exfalso. qcl. }
  assert (Tx : (tl v < tl (ez x))%Qc) by (apply (tlt G); auto using (zV G); rewrite <- Ex; apply (azlt G); auto).
  assert (Ty : (tl v < tl (ez y))%Qc) by (apply (tlt G); auto using (zV G); rewrite <- Ey; apply (azlt G); auto).
  assert (C0 : forall a b, cross a v b = cross v b a) by (intros; unfold cross; ring).
  assert (C1 : cross (ez x) v (ez y) = ((tl (ez y) - tl v) * (cy (ez x) - H (eb y) (tl (ez x))))%Qc) by (rewrite C0, <- Ey; apply (cross_hgt e); rewrite Ey; auto).
  assert (C2 : cross (ez y) v (ez x) = ((tl (ez x) - tl v) * (cy (ez y) - H (eb x) (tl (ez y))))%Qc) by (rewrite C0, <- Ex; apply (cross_hgt e); rewrite Ex; auto).
  pose proof (Hz G x Lx) as H3. pose proof (Hz G y Ly) as H4.
  pose proof (H_diff e (eb x) (eb y) (tl v) (tl (ez y))) as D1. pose proof (H_diff e (eb x) (eb y) (tl v) (tl (ez x))) as D2. rewrite H1, H2 in D1, D2. rewrite H4 in D1. rewrite H3 in D2.
  assert (Z1 : (0 < (tl (ez y) - tl v) * (Sl (eb y) - Sl (eb x)))%Qc) by (clear - Sy Ty; qc).
  assert (Z2 : (0 < (tl (ez x) - tl v) * (Sl (eb y) - Sl (eb x)))%Qc) by (clear - Sy Tx; qc).
  assert (W1 : (0 < cy (ez y) - H (eb x) (tl (ez y)))%Qc) by (clear - D1 Z1; qcl).
  assert (W2 : (cy (ez x) - H (eb y) (tl (ez x)) < 0)%Qc) by (clear - D2 Z2; qcl).
  assert (P1 : (cross (ez x) v (ez y) < 0)%Qc) by (rewrite C1; clear - W2 Ty; qc).
  assert (P2 : (0 < cross (ez y) v (ez x))%Qc) by (rewrite C2; clear - W1 Tx; qc).
  split; [destruct (orient2d_spec (ez x) v (ez y)); auto; exfalso; qcl|destruct (orient2d_spec (ez y) v (ez x)); auto; exfalso; qcl].
Qed.
End Sweep.
