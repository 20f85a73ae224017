(** Bundles of overlapping segments, and what splitting one does to the storage
    and the event queue. *)
Require Import List String Bool Arith Lia Permutation.
From Verif Require Import Base Scalar M_Events M_Geo M_LineOrPoint M_Splay M_Slab M_Active M_Sweep S_Geo P_Geo P_Slab P_Chain.
Import ListNotations.
Local Open Scope nat_scope.

Section Bundle.
Context {C : Type}.
Variable line_of : C -> line.
Notation mem := (mem C).

Record bundle : Type := mkB { b_p : pt; b_q : pt; b_mem : list mem }.
Definition b_key (b : bundle) : nat := match b_mem b with m :: _ => m_key m | [] => 0 end.
Definition b_geom (b : bundle) : lop := Line (b_p b) (b_q b).
Definition bcells (b : bundle) : list (nat * segment C) := cells (b_geom b) false (b_mem b).
Definition root_seg (b : bundle) : option (segment C) := option_map snd (hd_error (bcells b)).

Definition clear_first (ms : list mem) : list mem :=
  match ms with
  | m :: ms' => mkMem (m_key m) (m_c m) false (m_done m) :: ms'
  | [] => []
  end.
(** The part of a bundle before [r]. *)
Definition trunc (r : pt) (b : bundle) : bundle := mkB (b_p b) r (clear_first (b_mem b)).
(** [nb] is a fresh copy of [b] between [r1] and [r2]. *)
Definition fresh_part (b : bundle) (r1 r2 : pt) (nb : bundle) : Prop :=
  b_p nb = r1 /\ b_q nb = r2 /\ Forall2 copy_of (b_mem b) (b_mem nb) /\ b_mem nb <> [].

Definition ev_LR (p : pt) (b : bundle) : event := mkEvent p LineRight (b_key b).
Definition ev_LL (p : pt) (b : bundle) : event := mkEvent p LineLeft (b_key b).

Lemma trunc_key : forall r b, b_key (trunc r b) = b_key b.
Proof. intros r [p q [|m ms]]; reflexivity. Qed.
Lemma copy_of_clear : forall ms ms', Forall2 copy_of (clear_first ms) ms' -> Forall2 copy_of ms ms'.
Proof. intros [|m ms] ms' H; auto. inversion H as [|? ? ? ? H1 H2]; subst. constructor; auto. Qed.

(** [out] is not [Unchanged]. *)
Definition splits (o : split) : bool := match o with Unchanged _ => false | _ => true end.

Lemma afi_ok : forall (sw : sweep C) (m : mem) ms p q q' f rest i out,
  srep (sw_segs sw) (cells (Line p q) false (m :: ms) ++ rest) ->
  seg_adjust (mkSeg (Line p q) (m_key m) (m_c m) (m_first m) (m_done m) (hk ms) false) i =
    Ok (mkSeg (Line p q') (m_key m) (m_c m) f (m_done m) (hk ms) false, out) ->
  exists sl', adjust_for_intersection sw (m_key m) i =
    Ok (mkSweep sl' (if splits out then mkEvent q' LineRight (m_key m) :: sw_events sw else sw_events sw)
          (sw_active sw) (sw_out sw) (sw_clock sw), out) /\
    srep sl' (cells (Line p q') false (mkMem (m_key m) (m_c m) f (m_done m) :: ms) ++ rest).
Proof.
  intros sw m ms p q q' f rest i out R E. unfold adjust_for_intersection.
  rewrite (slab_get_unchecked_ok _ _ _ (srep_get _ _ _ _ R (or_introl eq_refl))). cbn [bind]. rewrite E. cbn [bind].
  destruct (srep_set _ _ _ _ (cells (Line p q) true ms ++ rest) (mkSeg (Line p q') (m_key m) (m_c m) f (m_done m) (hk ms) false) R (Permutation_refl _)) as (sl1 & E1 & R1).
  rewrite E1. cbn [bind sg_ovl sg_geom].
  destruct (set_chain_geom_ok ms (chain_fuel sl1) sl1 (Line p q) (Line p q') ((m_key m, mkSeg (Line p q') (m_key m) (m_c m) f (m_done m) (hk ms) false) :: rest)) as (sl2 & E2 & R2).
  - unfold chain_fuel. apply srep_length in R1. simpl in R1. rewrite app_length, cells_length in R1. lia.
  - eapply srep_perm; [|exact R1]. simpl. apply Permutation_middle.
  - rewrite E2. cbn [bind]. exists sl2. split.
    + destruct out; reflexivity.
    + eapply srep_perm; [|exact R2]. simpl. symmetry. apply Permutation_middle.
Qed.

Ltac dec :=
  repeat match goal with
  | |- context [pleb ?a ?b] => destruct (pleb_spec a b)
  | |- context [pltb ?a ?b] => destruct (pltb_spec a b)
  | |- context [peqb ?a ?b] => destruct (peqb_spec a b)
  end; cbn [andb orb negb check bind]; subst; try solve [exfalso; first [congruence|lord]].

(** Splitting at the ends does nothing. *)
Lemma adjust_point_end : forall (sw : sweep C) b r rest,
  b_mem b <> [] -> lex_lt (b_p b) (b_q b) -> r = b_p b \/ r = b_q b ->
  srep (sw_segs sw) (bcells b ++ rest) ->
  exists sl', adjust_one_segment line_of sw (b_key b) (Point r) = Ok (set_segs sl' sw, None) /\
    srep sl' (bcells b ++ rest).
Proof.
  intros sw [p q [|m ms]] r rest M V Hr R; [contradiction|]. cbn [b_p b_q b_key b_mem] in *. unfold bcells, b_geom in *. cbn [ b_mem b_p b_q] in *.
  unfold adjust_one_segment.
  rewrite (slab_get_unchecked_ok _ _ _ (srep_get _ _ _ _ R (or_introl eq_refl))). cbn [bind].
  destruct (afi_ok sw m ms p q q (m_first m) rest (Point r) (Unchanged false) R) as (sl1 & E1 & R1).
  - unfold seg_adjust. cbn [sg_geom]. destruct Hr; subst; dec; reflexivity.
  - rewrite E1. cbn [bind splits]. exists sl1. split; [reflexivity|]. destruct m; exact R1.
Qed.
(** Splitting inside. *)
Lemma adjust_point_split : forall (sw : sweep C) b r rest,
  b_mem b <> [] -> lex_lt (b_p b) r -> lex_lt r (b_q b) ->
  srep (sw_segs sw) (bcells b ++ rest) ->
  exists sl' nb, adjust_one_segment line_of sw (b_key b) (Point r) =
      Ok (mkSweep sl' (ev_LR (b_q b) nb :: ev_LL r nb :: ev_LR r b :: sw_events sw)
            (sw_active sw) (sw_out sw) (sw_clock sw), None) /\
    fresh_part b r (b_q b) nb /\
    srep sl' (bcells nb ++ bcells (trunc r b) ++ rest).
Proof.
  intros sw [p q [|m ms]] r rest M V1 V2 R; [contradiction|]. cbn [b_p b_q b_key b_mem] in *. unfold bcells, b_geom in *. cbn [ b_mem b_p b_q trunc clear_first] in *.
  unfold adjust_one_segment.
  rewrite (slab_get_unchecked_ok _ _ _ (srep_get _ _ _ _ R (or_introl eq_refl))). cbn [bind].
  destruct (afi_ok sw m ms p q r false rest (Point r) (SplitOnce None (Line r q)) R) as (sl1 & E1 & R1).
  - unfold seg_adjust. cbn [sg_geom]. dec; reflexivity.
  - rewrite E1. cbn [bind splits sg_cross].
    match goal with |- context [create_segment _ ?s _ _ _] => set (sw1 := s) end.
    destruct (create_root_ok line_of sw1 (m_c m) r q (Line p r) (mkMem (m_key m) (m_c m) false (m_done m)) ms rest R1)
      as (sl2 & nm & nms & E2 & K1 & K2 & K3 & K4 & R2).
    cbn [m_key] in E2. rewrite E2. cbn [bind]. exists sl2, (mkB r q (nm :: nms)). split; [|split].
    + reflexivity.
    + repeat split; auto; [|discriminate]. constructor; auto. repeat split; auto.
    + exact R2.
Qed.
(** Overlap with the whole bundle. *)
Lemma adjust_line_all : forall (sw : sweep C) b rest,
  b_mem b <> [] -> lex_lt (b_p b) (b_q b) ->
  srep (sw_segs sw) (bcells b ++ rest) ->
  exists sl', adjust_one_segment line_of sw (b_key b) (b_geom b) = Ok (set_segs sl' sw, Some (b_key b)) /\
    srep sl' (bcells b ++ rest).
Proof.
  intros sw [p q [|m ms]] rest M V R; [contradiction|]. cbn [b_p b_q b_key b_mem] in *. unfold bcells, b_geom in *. cbn [ b_mem b_p b_q] in *.
  unfold adjust_one_segment.
  rewrite (slab_get_unchecked_ok _ _ _ (srep_get _ _ _ _ R (or_introl eq_refl))). cbn [bind].
  destruct (afi_ok sw m ms p q q (m_first m) rest (Line p q) (Unchanged true) R) as (sl1 & E1 & R1).
  - unfold seg_adjust. cbn [sg_geom]. dec; reflexivity.
  - rewrite E1. cbn [bind splits]. exists sl1. split; [reflexivity|]. destruct m; exact R1.
Qed.
(** Overlap with a first part. *)
Lemma adjust_line_front : forall (sw : sweep C) b r2 rest,
  b_mem b <> [] -> lex_lt (b_p b) r2 -> lex_lt r2 (b_q b) ->
  srep (sw_segs sw) (bcells b ++ rest) ->
  exists sl' nb, adjust_one_segment line_of sw (b_key b) (Line (b_p b) r2) =
      Ok (mkSweep sl' (ev_LR (b_q b) nb :: ev_LL r2 nb :: ev_LR r2 b :: sw_events sw)
            (sw_active sw) (sw_out sw) (sw_clock sw), Some (b_key b)) /\
    fresh_part b r2 (b_q b) nb /\
    srep sl' (bcells nb ++ bcells (trunc r2 b) ++ rest).
Proof.
  intros sw [p q [|m ms]] r rest M V1 V2 R; [contradiction|]. cbn [b_p b_q b_key b_mem] in *. unfold bcells, b_geom in *. cbn [ b_mem b_p b_q trunc clear_first] in *.
  unfold adjust_one_segment.
  rewrite (slab_get_unchecked_ok _ _ _ (srep_get _ _ _ _ R (or_introl eq_refl))). cbn [bind].
  destruct (afi_ok sw m ms p q r false rest (Line p r) (SplitOnce (Some false) (Line r q)) R) as (sl1 & E1 & R1).
  - unfold seg_adjust. cbn [sg_geom]. dec; reflexivity.
  - rewrite E1. cbn [bind splits sg_cross].
    match goal with |- context [create_segment _ ?s _ _ _] => set (sw1 := s) end.
    destruct (create_root_ok line_of sw1 (m_c m) r q (Line p r) (mkMem (m_key m) (m_c m) false (m_done m)) ms rest R1)
      as (sl2 & nm & nms & E2 & K1 & K2 & K3 & K4 & R2).
    cbn [m_key] in E2. rewrite E2. cbn [bind]. exists sl2, (mkB r q (nm :: nms)). split; [|split].
    + reflexivity.
    + repeat split; auto; [|discriminate]. constructor; auto. repeat split; auto.
    + exact R2.
Qed.
(** Overlap with a last part. *)
Lemma adjust_line_back : forall (sw : sweep C) b r1 rest,
  b_mem b <> [] -> lex_lt (b_p b) r1 -> lex_lt r1 (b_q b) ->
  srep (sw_segs sw) (bcells b ++ rest) ->
  exists sl' nb, adjust_one_segment line_of sw (b_key b) (Line r1 (b_q b)) =
      Ok (mkSweep sl' (ev_LR (b_q b) nb :: ev_LL r1 nb :: ev_LR r1 b :: sw_events sw)
            (sw_active sw) (sw_out sw) (sw_clock sw), Some (b_key nb)) /\
    fresh_part b r1 (b_q b) nb /\
    srep sl' (bcells nb ++ bcells (trunc r1 b) ++ rest).
Proof.
  intros sw [p q [|m ms]] r rest M V1 V2 R; [contradiction|]. cbn [b_p b_q b_key b_mem] in *. unfold bcells, b_geom in *. cbn [ b_mem b_p b_q trunc clear_first] in *.
  unfold adjust_one_segment.
  rewrite (slab_get_unchecked_ok _ _ _ (srep_get _ _ _ _ R (or_introl eq_refl))). cbn [bind].
  destruct (afi_ok sw m ms p q r false rest (Line r q) (SplitOnce (Some true) (Line r q)) R) as (sl1 & E1 & R1).
  - unfold seg_adjust. cbn [sg_geom]. dec; reflexivity.
  - rewrite E1. cbn [bind splits sg_cross].
    match goal with |- context [create_segment _ ?s _ _ _] => set (sw1 := s) end.
    destruct (create_root_ok line_of sw1 (m_c m) r q (Line p r) (mkMem (m_key m) (m_c m) false (m_done m)) ms rest R1)
      as (sl2 & nm & nms & E2 & K1 & K2 & K3 & K4 & R2).
    cbn [m_key] in E2. rewrite E2. cbn [bind]. exists sl2, (mkB r q (nm :: nms)). split; [|split].
    + reflexivity.
    + repeat split; auto; [|discriminate]. constructor; auto. repeat split; auto.
    + exact R2.
Qed.
(** Overlap with a middle part. *)
Lemma adjust_line_middle : forall (sw : sweep C) b r1 r2 rest,
  b_mem b <> [] -> lex_lt (b_p b) r1 -> lex_lt r1 r2 -> lex_lt r2 (b_q b) ->
  srep (sw_segs sw) (bcells b ++ rest) ->
  exists sl' nb mb, adjust_one_segment line_of sw (b_key b) (Line r1 r2) =
      Ok (mkSweep sl' (ev_LR r2 mb :: ev_LL r1 mb :: ev_LR (b_q b) nb :: ev_LL r2 nb :: ev_LR r1 b :: sw_events sw)
            (sw_active sw) (sw_out sw) (sw_clock sw), Some (b_key mb)) /\
    fresh_part b r2 (b_q b) nb /\ fresh_part b r1 r2 mb /\
    srep sl' (bcells mb ++ bcells nb ++ bcells (trunc r1 b) ++ rest).
Proof.
  intros sw [p q [|m ms]] r1 r2 rest M V1 V V2 R; [contradiction|]. cbn [b_p b_q b_key b_mem] in *. unfold bcells, b_geom in *. cbn [ b_mem b_p b_q trunc clear_first] in *.
  unfold adjust_one_segment.
  rewrite (slab_get_unchecked_ok _ _ _ (srep_get _ _ _ _ R (or_introl eq_refl))). cbn [bind].
  destruct (afi_ok sw m ms p q r1 false rest (Line r1 r2) (SplitTwice (Line r2 q)) R) as (sl1 & E1 & R1).
  - unfold seg_adjust. cbn [sg_geom]. dec; reflexivity.
  - rewrite E1. cbn [bind splits sg_cross].
    match goal with |- context [create_segment _ ?s _ _ _] => set (sw1 := s) end.
    destruct (create_root_ok line_of sw1 (m_c m) r2 q (Line p r1) (mkMem (m_key m) (m_c m) false (m_done m)) ms rest R1)
      as (sl2 & nm & nms & E2 & K1 & K2 & K3 & K4 & R2).
    cbn [m_key] in E2. rewrite E2. cbn [bind].
    match goal with |- context [create_segment _ ?s _ _ _] => set (sw2 := s) end.
    destruct (create_root_ok line_of sw2 (m_c m) r1 r2 (Line p r1) (mkMem (m_key m) (m_c m) false (m_done m)) ms (cells (Line r2 q) false (nm :: nms) ++ rest))
      as (sl3 & mm & mms & E3 & J1 & J2 & J3 & J4 & R3).
    { eapply srep_perm; [|exact R2]. rewrite !app_assoc. apply Permutation_app_tail. apply Permutation_app_comm. }
    cbn [m_key] in E3. rewrite E3. cbn [bind]. exists sl3, (mkB r2 q (nm :: nms)), (mkB r1 r2 (mm :: mms)). split; [|split; [|split]].
    + reflexivity.
    + repeat split; auto; [|discriminate]. constructor; auto. repeat split; auto.
    + repeat split; auto; [|discriminate]. constructor; auto. repeat split; auto.
    + eapply srep_perm; [|exact R3]. apply Permutation_app_head. cbn [b_mem]. rewrite !app_assoc. apply Permutation_app_tail. apply Permutation_app_comm.
Qed.

Lemma chain_bundles : forall (sw : sweep C) b1 b2 rest, b_mem b1 <> [] -> b_mem b2 <> [] -> b_geom b1 = b_geom b2 ->
  srep (sw_segs sw) (bcells b1 ++ bcells b2 ++ rest) ->
  exists sl', chain_overlap sw (b_key b1) (b_key b2) = Ok (set_segs sl' sw) /\
    srep sl' (bcells (mkB (b_p b1) (b_q b1) (b_mem b1 ++ b_mem b2)) ++ rest).
Proof.
  intros sw [p1 q1 [|m1 ms1]] [p2 q2 [|m2 ms2]] rest M1 M2 E R; try contradiction.
  unfold bcells, b_geom, b_key in *. cbn [b_p b_q b_mem] in *. rewrite <- E in R.
  apply chain_overlap_ok. exact R.
Qed.
End Bundle.
Arguments bundle : clear implicits.
