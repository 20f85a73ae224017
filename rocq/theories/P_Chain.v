(** The segment storage as a set of bundles: a bundle is a chain of segments
    with the same geometry, linked through [sg_ovl]. *)
Require Import List String Bool Arith Lia Permutation.
From Verif Require Import Base Scalar M_Events M_Geo M_LineOrPoint M_Splay M_Slab M_Active M_Sweep P_Slab.
Import ListNotations.
Local Open Scope nat_scope.

Section Chain.
Context {C : Type}.
Variable line_of : C -> line.

(** One segment of a bundle. *)
Record mem : Type := mkMem { m_key : nat; m_c : C; m_first : bool; m_done : bool }.
Definition hk (ms : list mem) : option nat := option_map m_key (hd_error ms).

(** The storage cells of a chain; [ov] tells whether the first one is already
    somebody's overlap. *)
Fixpoint cells (g : lop) (ov : bool) (ms : list mem) : list (nat * segment C) :=
  match ms with
  | [] => []
  | m :: ms' =>
      (m_key m, mkSeg g (m_key m) (m_c m) (m_first m) (m_done m) (hk ms') ov) :: cells g true ms'
  end.

(** The storage holds exactly the cells [cs]. *)
Definition srep (sl : slab (segment C)) (cs : list (nat * segment C)) : Prop :=
  slab_wf sl /\ NoDup (map fst cs) /\ forall k s, slab_get sl k = Some s <-> In (k, s) cs.

Lemma srep_perm : forall sl cs cs', Permutation cs cs' -> srep sl cs -> srep sl cs'.
Proof.
  intros sl cs cs' P (W & N & H). split; [auto|split].
  - eapply Permutation_NoDup; [apply Permutation_map; exact P|exact N].
  - intros k s. rewrite H. split; intro K; [eapply Permutation_in; eauto|].
    eapply Permutation_in; [symmetry; exact P|exact K].
Qed.
Lemma srep_new : srep slab_new [].
Proof.
  split; [apply slab_new_wf|split; [constructor|]]. intros k s. rewrite slab_get_new. split; [discriminate|intros []].
Qed.
Lemma srep_get : forall sl cs k s, srep sl cs -> In (k, s) cs -> slab_get sl k = Some s.
Proof. intros sl cs k s (_ & _ & H) K. apply H. exact K. Qed.
Lemma srep_none : forall sl cs k, srep sl cs -> ~ In k (map fst cs) -> slab_get sl k = None.
Proof.
  intros sl cs k (_ & _ & H) K. destruct (slab_get sl k) as [s|] eqn:E; auto. exfalso. apply K.
  apply H in E. apply (in_map fst) in E. exact E.
Qed.
Lemma srep_set : forall sl cs k s rest s', srep sl cs -> Permutation cs ((k, s) :: rest) ->
  exists sl', slab_set sl k s' = Ok sl' /\ srep sl' ((k, s') :: rest).
Proof.
  intros sl cs k s rest s' R P. apply (srep_perm _ _ _ P) in R. destruct R as (W & N & H).
  assert (G : slab_get sl k = Some s) by (apply H; left; auto).
  destruct (slab_set_ok sl k s s' W G) as (sl' & E & W' & _ & G1 & G2). exists sl'. split; auto.
  split; [auto|split; [exact N|]]. intros k0 s0. simpl in N. apply NoDup_cons_iff in N as [N1 N2].
  destruct (Nat.eq_dec k0 k) as [->|D].
  - rewrite G1. split.
    + intros Q. injection Q as <-. left; auto.
    + intros [Q|Q]; [congruence|]. exfalso. apply N1. apply (in_map fst) in Q. exact Q.
  - rewrite G2 by auto. rewrite H. split; intros [Q|Q]; try congruence; right; auto.
Qed.
Lemma srep_insert : forall sl cs s, srep sl cs ->
  exists sl', slab_insert sl s = Ok sl' /\ srep sl' ((slab_vacant_key sl, s) :: cs) /\
    ~ In (slab_vacant_key sl) (map fst cs).
Proof.
  intros sl cs s (W & N & H). destruct (slab_insert_ok sl s W) as (sl' & E & W' & _ & G0 & G1 & G2).
  assert (F : ~ In (slab_vacant_key sl) (map fst cs)).
  { intro K. apply in_map_iff in K as ([k s0] & E1 & K). simpl in E1. subst. apply H in K. congruence. }
  exists sl'. split; [auto|split; [|auto]]. split; [auto|split].
  - simpl. constructor; auto.
  - intros k0 s0. destruct (Nat.eq_dec k0 (slab_vacant_key sl)) as [->|D].
    + rewrite G1. split.
      * intros Q. injection Q as <-. left; auto.
      * intros [Q|Q]; [congruence|]. exfalso. apply F. apply (in_map fst) in Q. exact Q.
    + rewrite G2 by auto. rewrite H. split; [intro; right; auto|]. intros [Q|Q]; congruence.
Qed.
Lemma srep_remove : forall sl k s cs, srep sl ((k, s) :: cs) ->
  exists sl', slab_remove sl k = Ok (sl', s) /\ srep sl' cs.
Proof.
  intros sl k s cs (W & N & H).
  assert (G : slab_get sl k = Some s) by (apply H; left; auto).
  destruct (slab_remove_ok sl k s W G) as (sl' & E & W' & _ & G1 & G2). exists sl'. split; auto.
  simpl in N. apply NoDup_cons_iff in N as [N1 N2]. split; [auto|split; [auto|]].
  intros k0 s0. destruct (Nat.eq_dec k0 k) as [->|D].
  - rewrite G1. split; [discriminate|]. intro Q. exfalso. apply N1. apply (in_map fst) in Q. exact Q.
  - rewrite G2 by auto. rewrite H. split; [|intro; right; auto]. intros [Q|Q]; congruence.
Qed.
Lemma srep_length : forall sl cs, srep sl cs -> List.length cs <= List.length (s_entries sl).
Proof.
  intros sl cs (W & N & H). rewrite <- (map_length fst cs), <- (seq_length (List.length (s_entries sl)) 0).
  apply NoDup_incl_length; auto. intros k K. apply in_map_iff in K as ([k0 s] & E & K). simpl in E. subst.
  apply H in K. apply slab_get_lt in K. apply in_seq. lia.
Qed.
Lemma cells_length : forall ms g ov, List.length (cells g ov ms) = List.length ms.
Proof. induction ms as [|m ms IH]; intros; simpl; auto. Qed.
Lemma cells_keys : forall ms g ov, map fst (cells g ov ms) = map m_key ms.
Proof. induction ms as [|m ms IH]; intros; simpl; f_equal; auto. Qed.
Lemma cells_in : forall ms g ov k s, In (k, s) (cells g ov ms) ->
  sg_geom s = g /\ sg_key s = k /\ exists m, In m ms /\ k = m_key m /\ sg_cross s = m_c m /\ sg_first s = m_first m /\ sg_done s = m_done m.
Proof.
  induction ms as [|m ms IH]; intros g ov k s H; [destruct H|]. destruct H as [H|H].
  - injection H as <- <-. simpl. repeat split. exists m. repeat split. left; auto.
  - destruct (IH _ _ _ _ H) as (E1 & E2 & m' & I & R). repeat split; auto. exists m'. split; [right; auto|auto].
Qed.
Lemma upd_seg_ok : forall sl cs k s rest f, srep sl cs -> Permutation cs ((k, s) :: rest) ->
  exists sl', upd_seg sl k f = Ok sl' /\ srep sl' ((k, f s) :: rest).
Proof.
  intros sl cs k s rest f R P. unfold upd_seg. rewrite (slab_get_unchecked_ok _ _ s).
  - cbn [bind]. eapply srep_set; eauto.
  - eapply srep_get; [exact R|]. eapply Permutation_in; [symmetry; exact P|left; auto].
Qed.

(** [set_chain_geom] changes the geometry of a whole chain. *)
Lemma set_chain_geom_ok : forall ms fuel sl g g' rest,
  List.length ms < fuel -> srep sl (cells g true ms ++ rest) ->
  exists sl', set_chain_geom fuel sl (hk ms) g' = Ok sl' /\ srep sl' (cells g' true ms ++ rest).
Proof.
  induction ms as [|m ms IH]; intros fuel sl g g' rest L R.
  - simpl. destruct fuel; [simpl in L; lia|]. exists sl. auto.
  - destruct fuel as [|fuel]; [lia|]. simpl in L. simpl. simpl in R.
    rewrite (slab_get_unchecked_ok _ _ _ (srep_get _ _ _ _ R (or_introl eq_refl))). cbn [bind].
    destruct (srep_set _ _ _ _ _ (with_geom g' (mkSeg g (m_key m) (m_c m) (m_first m) (m_done m) (hk ms) true)) R (Permutation_refl _)) as (sl1 & E1 & R1).
    rewrite E1. cbn [bind]. cbn [with_geom sg_key sg_cross sg_first sg_done sg_ovl sg_is_ovl] in R1.
    destruct (IH fuel sl1 g g' ((m_key m, mkSeg g' (m_key m) (m_c m) (m_first m) (m_done m) (hk ms) true) :: rest)) as (sl2 & E2 & R2); [lia| |].
    + eapply srep_perm; [|exact R1]. apply Permutation_middle.
    + exists sl2. split; [exact E2|]. eapply srep_perm; [|exact R2]. symmetry. apply Permutation_middle.
Qed.

(** [copy_chain] duplicates a chain below the segment [t]. *)
Definition copy_of (m m' : mem) : Prop := m_c m' = m_c m /\ m_first m' = false /\ m_done m' = false.
Lemma copy_chain_ok : forall ms fuel sl g g0 tm ov cs,
  List.length ms < fuel ->
  srep sl (cells g ov [tm] ++ cs) -> (forall x, In x (cells g0 true ms) -> In x cs) ->
  exists sl' ms', copy_chain line_of fuel sl (hk ms) (m_key tm) g = Ok sl' /\
    Forall2 copy_of ms ms' /\
    srep sl' (cells g ov (tm :: ms') ++ cs).
Proof.
  induction ms as [|m ms IH]; intros fuel sl g g0 tm ov cs L R I.
  - destruct fuel; [simpl in L; lia|]. exists sl, []. split; [reflexivity|split; [constructor|exact R]].
  - destruct fuel as [|fuel]; [lia|]. simpl in L. cbn [copy_chain hk option_map hd_error].
    assert (G : In (m_key m, mkSeg g0 (m_key m) (m_c m) (m_first m) (m_done m) (hk ms) true) (cells g ov [tm] ++ cs)).
    { apply in_or_app. right. apply I. left. reflexivity. }
    rewrite (slab_get_unchecked_ok _ _ _ (srep_get _ _ _ _ R G)). cbn [bind sg_cross sg_ovl].
    unfold segment_new.
    set (vk := slab_vacant_key sl). set (s := mkSeg g vk (m_c m) false false None false).
    destruct (srep_insert sl _ s R) as (sl1 & E1 & R1 & F1). fold vk in R1, F1. rewrite E1. cbn [bind].
    set (nm := mkMem vk (m_c m) false false).
    destruct (upd_seg_ok sl1 _ (m_key tm) (mkSeg g (m_key tm) (m_c tm) (m_first tm) (m_done tm) None ov) ((vk, s) :: cs) (with_ovl (Some vk)) R1) as (sl2 & E2 & R2).
    { simpl. apply perm_swap. }
    replace (sg_key s) with vk by reflexivity. rewrite E2. cbn [bind].
    destruct (upd_seg_ok sl2 _ vk s ((m_key tm, with_ovl (Some vk) (mkSeg g (m_key tm) (m_c tm) (m_first tm) (m_done tm) None ov)) :: cs) (with_is_ovl true) R2) as (sl3 & E3 & R3).
    { apply perm_swap. }
    rewrite E3. cbn [bind].
    destruct (IH fuel sl3 g g0 nm true ((m_key tm, with_ovl (Some vk) (mkSeg g (m_key tm) (m_c tm) (m_first tm) (m_done tm) None ov)) :: cs)) as (sl4 & ms' & E4 & F4 & R4).
    + lia.
    + exact R3.
    + intros x Hx. right. apply I. right. exact Hx.
    + exists sl4, (nm :: ms'). split; [exact E4|split].
      * constructor; [repeat split|exact F4].
      * eapply srep_perm; [|exact R4]. simpl. symmetry. rewrite perm_swap. apply perm_skip. apply Permutation_middle.
Qed.

(** The last segment of a chain. *)
Lemma last_cons : forall {X} (l : list X) a d, last (a :: l) d = last l a.
Proof.
  intros X l. induction l as [|b l IH]; intros a d; [reflexivity|].
  change (last (a :: b :: l) d) with (last (b :: l) d). rewrite !IH. reflexivity.
Qed.
Lemma chain_last_ok : forall ms m fuel sl g ov cs,
  List.length (m :: ms) <= fuel -> srep sl cs -> (forall x, In x (cells g ov (m :: ms)) -> In x cs) ->
  chain_last fuel sl (m_key m) = Ok (m_key (last ms m)).
Proof.
  induction ms as [|m' ms IH]; intros m fuel sl g ov cs L R I; simpl in L; (destruct fuel as [|fuel]; [lia|]).
  - simpl. rewrite (slab_get_unchecked_ok _ _ _ (srep_get _ _ _ _ R (I _ (or_introl eq_refl)))). reflexivity.
  - cbn [chain_last]. rewrite (slab_get_unchecked_ok _ _ _ (srep_get _ _ _ _ R (I _ (or_introl eq_refl)))).
    cbn [bind sg_ovl hk option_map hd_error].
    rewrite (IH m' fuel sl g true cs); auto; try (simpl; lia).
    + rewrite last_cons. reflexivity.
    + intros x Hx. apply I. right. exact Hx.
Qed.

Lemma cells_last_split : forall ms m g ov,
  exists rest, Permutation (cells g ov (m :: ms))
    ((m_key (last ms m), mkSeg g (m_key (last ms m)) (m_c (last ms m)) (m_first (last ms m)) (m_done (last ms m)) None (match ms with [] => ov | _ => true end)) :: rest) /\
    forall ms2, Permutation (cells g ov (m :: ms ++ ms2))
    ((m_key (last ms m), mkSeg g (m_key (last ms m)) (m_c (last ms m)) (m_first (last ms m)) (m_done (last ms m)) (hk ms2) (match ms with [] => ov | _ => true end)) :: rest ++ cells g true ms2).
Proof.
  induction ms as [|m' ms IH]; intros m g ov.
  - exists []. split; [reflexivity|]. intros ms2. simpl. reflexivity.
  - destruct (IH m' g true) as (rest & P1 & P2).
    assert (EL : last (m' :: ms) m = last ms m').
    { apply last_cons. }
    rewrite EL. replace (match m' :: ms with [] => ov | _ :: _ => true end) with true by reflexivity.
    replace (match ms with [] => true | _ :: _ => true end) with true in * by (destruct ms; reflexivity).
    exists ((m_key m, mkSeg g (m_key m) (m_c m) (m_first m) (m_done m) (Some (m_key m')) ov) :: rest). split.
    + change (cells g ov (m :: m' :: ms)) with ((m_key m, mkSeg g (m_key m) (m_c m) (m_first m) (m_done m) (Some (m_key m')) ov) :: cells g true (m' :: ms)).
      rewrite P1. apply perm_swap.
    + intros ms2. change (cells g ov (m :: (m' :: ms) ++ ms2)) with ((m_key m, mkSeg g (m_key m) (m_c m) (m_first m) (m_done m) (Some (m_key m')) ov) :: cells g true (m' :: ms ++ ms2)).
      rewrite P2. simpl. apply perm_swap.
Qed.

(** [chain_overlap] appends one chain to another. *)
Lemma chain_overlap_ok : forall sw g m ms m2 ms2 rest,
  srep (sw_segs sw) (cells g false (m :: ms) ++ cells g false (m2 :: ms2) ++ rest) ->
  exists sl', chain_overlap sw (m_key m) (m_key m2) = Ok (set_segs sl' sw) /\
    srep sl' (cells g false (m :: ms ++ m2 :: ms2) ++ rest).
Proof.
  intros sw g m ms m2 ms2 rest R. unfold chain_overlap.
  rewrite (chain_last_ok ms m (chain_fuel (sw_segs sw)) (sw_segs sw) g false (cells g false (m :: ms) ++ cells g false (m2 :: ms2) ++ rest)); auto.
  - cbn [bind].
    destruct (cells_last_split ms m g false) as (r0 & P1 & P2).
    set (lm := last ms m) in *. set (lv := match ms with [] => false | _ => true end) in *.
    destruct (upd_seg_ok (sw_segs sw) _ (m_key lm) (mkSeg g (m_key lm) (m_c lm) (m_first lm) (m_done lm) None lv) (r0 ++ cells g false (m2 :: ms2) ++ rest) (with_ovl (Some (m_key m2))) R) as (sl1 & E1 & R1).
    { rewrite P1. reflexivity. }
    rewrite E1. cbn [bind].
    destruct (upd_seg_ok sl1 _ (m_key m2) (mkSeg g (m_key m2) (m_c m2) (m_first m2) (m_done m2) (hk ms2) false)
                ((m_key lm, with_ovl (Some (m_key m2)) (mkSeg g (m_key lm) (m_c lm) (m_first lm) (m_done lm) None lv)) :: r0 ++ cells g true ms2 ++ rest) (with_is_ovl true) R1) as (sl2 & E2 & R2).
    { simpl. symmetry. rewrite perm_swap. apply perm_skip. apply Permutation_middle. }
    rewrite E2. cbn [bind]. exists sl2. split; [reflexivity|].
    eapply srep_perm; [|exact R2]. symmetry.
    transitivity (((m_key lm, mkSeg g (m_key lm) (m_c lm) (m_first lm) (m_done lm) (hk (m2 :: ms2)) lv) :: r0 ++ cells g true (m2 :: ms2)) ++ rest).
    + apply Permutation_app_tail. apply P2.
    + cbn [with_ovl with_is_ovl sg_geom sg_key sg_cross sg_first sg_done sg_is_ovl sg_ovl].
      simpl. rewrite perm_swap. apply perm_skip. rewrite <- app_assoc. simpl. symmetry. apply Permutation_middle.
  - unfold chain_fuel. apply srep_length in R. rewrite app_length, cells_length in R. lia.
  - intros x Hx. apply in_or_app. left. exact Hx.
Qed.

(** What a chain reports. *)
Definition ovl_flag (ms : list mem) : bool := match ms with [] => false | _ => true end.
Fixpoint reports (g : lop) (left : bool) (ms : list mem) : list (crossing C) :=
  match ms with
  | [] => []
  | m :: ms' => mkCrossing (m_c m) g (m_first m) (ovl_flag ms') left (m_key m) :: reports g left ms'
  end.
Definition set_done (m : mem) : mem := mkMem (m_key m) (m_c m) (m_first m) true.
Lemma hk_done : forall ms, hk (map set_done ms) = hk ms.
Proof. intros [|m ms]; reflexivity. Qed.

Lemma report_left_ok : forall ms fuel sw g ov rest,
  List.length ms < fuel -> srep (sw_segs sw) (cells g ov ms ++ rest) ->
  exists sl', report_left fuel sw (hk ms) LineLeft =
      Ok (mkSweep sl' (sw_events sw) (sw_active sw) (sw_out sw ++ reports g true ms) (sw_clock sw)) /\
    srep sl' (cells g ov (map set_done ms) ++ rest).
Proof.
  induction ms as [|m ms IH]; intros fuel sw g ov rest L R.
  - destruct fuel; [simpl in L; lia|]. simpl. exists (sw_segs sw). rewrite app_nil_r. destruct sw; auto.
  - destruct fuel as [|fuel]; [lia|]. simpl in L. cbn [report_left hk option_map hd_error].
    rewrite (slab_get_unchecked_ok _ _ _ (srep_get _ _ _ _ R (or_introl eq_refl))). cbn [bind].
    destruct (upd_seg_ok _ _ _ _ _ (with_done true) R (Permutation_refl _)) as (sl1 & E1 & R1).
    cbn [cb set_out sw_segs]. rewrite E1. cbn [bind sg_ovl].
    match goal with |- exists _, report_left _ ?s _ _ = _ /\ _ => set (sw1 := s) end.
    destruct (IH fuel sw1 g true ((m_key m, mkSeg g (m_key m) (m_c m) (m_first m) true (hk ms) ov) :: rest)) as (sl2 & E2 & R2).
    + lia.
    + unfold sw1. simpl. eapply srep_perm; [|exact R1]. simpl. apply Permutation_middle.
    + exists sl2. split.
      * rewrite E2. unfold sw1. simpl. f_equal. f_equal.
        rewrite <- app_assoc. simpl. f_equal. f_equal. unfold crossing_of. simpl. f_equal. destruct ms; reflexivity.
      * eapply srep_perm; [|exact R2]. simpl. rewrite hk_done. symmetry. apply Permutation_middle.
Qed.
Lemma report_right_ok : forall ms fuel sw g ov rest,
  List.length ms < fuel -> srep (sw_segs sw) (cells g ov ms ++ rest) ->
  exists sl', report_right fuel sw (hk ms) LineRight =
      Ok (mkSweep sl' (sw_events sw) (sw_active sw) (sw_out sw ++ reports g false ms) (sw_clock sw)) /\
    srep sl' rest.
Proof.
  induction ms as [|m ms IH]; intros fuel sw g ov rest L R.
  - destruct fuel; [simpl in L; lia|]. simpl. exists (sw_segs sw). rewrite app_nil_r. destruct sw; auto.
  - destruct fuel as [|fuel]; [lia|]. simpl in L. cbn [report_right hk option_map hd_error].
    rewrite (slab_get_unchecked_ok _ _ _ (srep_get _ _ _ _ R (or_introl eq_refl))). cbn [bind].
    destruct (srep_remove _ _ _ _ R) as (sl1 & E1 & R1).
    cbn [cb set_out sw_segs]. rewrite E1. cbn [bind sg_ovl].
    match goal with |- exists _, report_right _ ?s _ _ = _ /\ _ => set (sw1 := s) end.
    destruct (IH fuel sw1 g true rest) as (sl2 & E2 & R2).
    + lia.
    + exact R1.
    + exists sl2. split; [|exact R2].
      rewrite E2. unfold sw1. simpl. f_equal. f_equal.
      rewrite <- app_assoc. simpl. f_equal. f_equal. unfold crossing_of. simpl. f_equal. destruct ms; reflexivity.
Qed.

(** A new segment, with a copy of the parent's chain below it. *)
Lemma create_root_ok : forall sw c p q pg pm pms rest,
  srep (sw_segs sw) (cells pg false (pm :: pms) ++ rest) ->
  exists sl' nm nms, create_segment line_of sw c (Some (Line p q)) (Some (m_key pm)) =
      Ok (mkSweep sl' (mkEvent q LineRight (m_key nm) :: mkEvent p LineLeft (m_key nm) :: sw_events sw)
            (sw_active sw) (sw_out sw) (sw_clock sw), m_key nm) /\
    m_c nm = c /\ m_first nm = false /\ m_done nm = false /\ Forall2 copy_of pms nms /\
    srep sl' (cells (Line p q) false (nm :: nms) ++ cells pg false (pm :: pms) ++ rest).
Proof.
  intros sw c p q pg pm pms rest R. unfold create_segment, segment_new.
  set (vk := slab_vacant_key (sw_segs sw)).
  set (s := mkSeg (Line p q) vk c false false None false).
  destruct (srep_insert _ _ s R) as (sl1 & E1 & R1 & F1). fold vk in R1, F1. rewrite E1. cbn [bind].
  rewrite (slab_get_unchecked_ok _ _ (mkSeg pg (m_key pm) (m_c pm) (m_first pm) (m_done pm) (hk pms) false)).
  2: { eapply srep_get; [exact R1|]. right. left. reflexivity. }
  cbn [bind sg_ovl].
  set (nm := mkMem vk c false false).
  destruct (copy_chain_ok pms (chain_fuel sl1) sl1 (Line p q) pg nm false (cells pg false (pm :: pms) ++ rest)) as (sl2 & nms & E2 & F2 & R2).
  - unfold chain_fuel. apply srep_length in R1. simpl in R1. rewrite app_length, cells_length in R1. lia.
  - exact R1.
  - intros x Hx. apply in_or_app. left. right. exact Hx.
  - exists sl2, nm, nms. replace (sg_geom s) with (Line p q) by reflexivity.
    change (sg_key s) with (m_key nm). rewrite E2. cbn [bind]. split; [reflexivity|]. split; [reflexivity|]. split; [reflexivity|]. split; [reflexivity|]. split; [exact F2|exact R2].
Qed.
End Chain.
Arguments mem : clear implicits.
