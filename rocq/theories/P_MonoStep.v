(** Monotone decomposition: every event of the sweep succeeds. *)
Require Import List String Bool Arith Lia Permutation Sorted.
From Verif Require Import Base Scalar M_Events M_Geo M_LineOrPoint M_Slab M_Active M_MonoPoly M_Rings M_Op M_MonoSweep.
From Verif Require Import S_Geo P_Geo P_LineOrPoint P_Tilt P_Chain P_Bundle P_Order P_Inv P_Slab P_BTree.
From Verif Require Import P_OpLab P_OpStep P_MonoGeo P_MonoSweep.
Import Datatypes.
Import ListNotations.
Local Open Scope nat_scope.

Lemma NoDup_app_remove_l : forall {X} (l l' : list X), NoDup (l ++ l') -> NoDup l'.
Proof. intros X l l'. induction l as [|x l IH]; auto. intros N. inversion N; auto. Qed.
Lemma NoDup_app_remove_r : forall {X} (l l' : list X), NoDup (l ++ l') -> NoDup l.
Proof. intros X l l'. induction l as [|x l IH]; intros N; [constructor|]. inversion N as [|? ? N1 N2]; subst. constructor; auto. intros I. apply N1. apply in_or_app; auto. Qed.

Section Step.
Context {ln : nat -> line} {n : nat} {e : Qc} {V V' : list pt} {top : nat -> bool}.
Context (G : mono_geo ln n e V V' top).
Variable pick : list nat -> nat -> nat -> nat.
Notation tl := (tilt e).
Notation ea := (ea ln).
Notation ez := (ez ln).
Notation actb := (actb ln).
Notation inc := (inc ln).
Notation lo := (@lo ln e).
Notation sorted := (@sorted ln n e).
Notation pos := (@pos ln e).
Notation store := (@store ln n top).
Notation sinv := (@sinv ln n e top).
Notation sstep := (@sstep ln n e).
Notation evt := (@evt ln).
Notation oth := (@oth ln).
Notation iw := (@iw top).
Notation vtype := (@vtype ln top).
Notation all_events := (@all_events ln n).
Notation mlk := (@mlk top).
Notation cleared := (@cleared top).
Notation ends_at := (@ends_at ln n).
Notation starts_at := (@starts_at ln n).

Section At.
Variables (hf : nat -> helper) (p p' : pt) (st : slab segment) (gs : list sgap) (c1 c2 : nat) (back : list event) (q0 : pt).
Hypothesis Vp : In p V'.
Hypothesis Vp' : In p' V.
Hypothesis Lp : lex_lt p p'.
Hypothesis Nx : forall v, In v V -> lex_lt p v -> lex_lt v p' -> False.
Hypothesis St : store hf q0 st.
Hypothesis Sb : StronglySorted ev_le back.
Hypothesis Pb : Permutation back (filter (after p') all_events).
Hypothesis So : sorted p (flat gs).
Hypothesis Hlp : forall g, In g gs -> hf (sg_t g) = mkHelper (sg_h g) (sg_m g).
Hypothesis Hnw : forall c, c < n -> lex_lt p (ea c) -> hf c = mkHelper (ea c) false.
Hypothesis L1 : c1 < n.
Hypothesis L2 : c2 < n.
Hypothesis N12 : c1 <> c2.
Hypothesis I1 : inc p' c1.
Hypothesis I2 : inc p' c2.
Hypothesis On : forall c, c < n -> inc p' c -> c = c1 \/ c = c2.
Hypothesis Ev2 : events_at p' (evt p' c1 :: evt p' c2 :: back) = 2.
Let s : msweep := mkMsweep st 0 (evt p' c1 :: evt p' c2 :: back) (map S (flat gs)).
Definition goal : Prop := exists hf' s' gs' ty links, process_event pick s = Ok (s', Some (mkSweepEvent p' ty links)) /\ sstep p' gs ty links gs' /\ sinv hf' p' s' gs' /\ ms_events s' = back.

Lemma Vq : In p' V'. Proof. apply (mg_incl _ _ _ _ _ _ G). exact Vp'. Qed.
Lemma labels : forall g, In g gs -> top (sg_b g) = false /\ top (sg_t g) = true.
Proof. apply gap_labels. apply (proj1 (alt_sorted G p (flat gs) Vp So)). Qed.
Lemma labels' : forall l, sorted p' l -> alt (top := top) false l.
Proof. intros l S'. apply (alt_sorted G p' l Vq S'). Qed.
Lemma so_in : forall x, In x (flat gs) -> x < n /\ actb p x = true.
Proof. intros x I. apply So in I. exact I. Qed.
Lemma fin : forall hf' st' gs', store hf' p' st' -> sorted p' (flat gs') -> (forall g, In g gs' -> hf' (sg_t g) = mkHelper (sg_h g) (sg_m g)) ->
  (forall c, c < n -> lex_lt p' (ea c) -> hf' c = hf c) -> sinv hf' p' (mkMsweep st' 0 back (map S (flat gs'))) gs'.
Proof.
  intros hf' st' gs' S1 S2 S3 S4. constructor; cbn [ms_segments ms_pt_key ms_events ms_active]; auto; [exists p'; auto|].
  intros c L A. rewrite S4 by auto. apply Hnw; auto. lord.
Qed.
Lemma unstarted : forall c, lex_lt p' (ea c) -> In c (flat gs) -> False.
Proof. intros c A I. apply so_in in I as [_ I]. apply actb_iff in I as [I _]. lord. Qed.
Lemma ends_not_starts : forall c, c < n -> ez c = p' -> ea c <> p'.
Proof. intros c L E E'. pose proof (azlt G c L). rewrite E, E' in H. lord. Qed.
Lemma st_point : forall act, exists st2, store_point p' (mkMsweep st 0 back act) = Ok (mkMsweep st2 0 back act) /\ store hf p' st2.
Proof.
  intros act. destruct (store_pt hf q0 p' st St) as (st2 & E & S2). exists st2. split; auto. unfold store_point. cbn [ms_segments ms_pt_key]. rewrite E. reflexivity.
Qed.
Lemma top_nodup : forall X g Y, gs = X ++ g :: Y -> (forall g', In g' (X ++ Y) -> sg_t g' <> sg_t g /\ sg_t g' <> sg_b g).
Proof.
  intros X g Y E g' I. pose proof (so_nodup p _ So) as N. rewrite E, flat_app in N. cbn [flat flat_map] in N. fold (flat Y) in N. cbn [app] in N.
  assert (J : In (sg_t g') (flat X ++ flat Y)).
  { apply in_app_or in I as [I|I]; apply in_or_app; [left|right]; unfold flat; apply in_flat_map; exists g'; split; auto; right; left; auto. }
  assert (N2 := N). apply NoDup_remove in N as [N1 N3]. change (flat X ++ sg_b g :: sg_t g :: flat Y) with (flat X ++ [sg_b g] ++ (sg_t g :: flat Y)) in N2. rewrite app_assoc in N2. apply NoDup_remove in N2 as [N4 N5].
  split; intros Q; rewrite Q in J.
  - apply N5. apply in_app_or in J as [J|J]; apply in_or_app; auto. left. apply in_or_app; auto.
  - apply N3. apply in_app_or in J as [J|J]; apply in_or_app; auto. right. right. auto.
Qed.

(** ** Two edges end *)
Section RR.
Hypothesis Z1 : ez c1 = p'.
Hypothesis Z2 : ez c2 = p'.
Lemma rr_none : starts_at p' [].
Proof.
  intros c. split; [intros []|]. intros [L E]. destruct (On c L (or_introl E)) as [->| ->]; [apply (ends_not_starts c1)|apply (ends_not_starts c2)]; auto.
Qed.
Lemma rr_ends : forall l, Permutation l [c1; c2] -> ends_at p' l.
Proof.
  intros l P c. split.
  - intros I. apply (Permutation_in _ P) in I. destruct I as [<-|[<-|[]]]; auto.
  - intros [L E]. apply (Permutation_in _ (Permutation_sym P)). destruct (On c L (or_intror E)) as [->| ->]; cbn; auto.
Qed.
Lemma rr_remove : forall X x y Y st2 act, flat gs = X ++ x :: y :: Y -> Permutation [x; y] [c1; c2] -> store hf p' st2 -> act = map S (flat gs) ->
  exists a1 st3, handle_remove pick p' (evt p' c1) (mkMsweep st2 0 back act, []) = Ok a1 /\
    handle_remove pick p' (evt p' c2) a1 = Ok (mkMsweep st3 0 back (map S (X ++ Y)), mlk hf p' c1 ++ mlk hf p' c2) /\ store (cleared (cleared hf c1) c2) p' st3.
Proof.
  intros X x y Y st2 act E P S2 ->. rewrite (evt_right G), (evt_right G) by auto. rewrite E. pose proof (so_ord _ _ So) as F. rewrite E in F.
  assert (D : forall z, In z (X ++ x :: y :: Y) -> z < n /\ actb p z = true) by (rewrite <- E; apply so_in).
  assert (M2 : mlk (cleared hf c1) p' c2 = mlk hf p' c2) by (unfold P_MonoSweep.mlk; rewrite cleared_other by auto; reflexivity). rewrite <- M2.
  apply perm_two in P. destruct P as [P|P]; injection P as -> ->.
  - destruct (remove_ok G pick hf p' st2 p back X c1 (c2 :: Y) [] p' S2 Vp F D) as (st3 & E1 & S3).
    assert (F' : ForallOrdPairs (lo p) (X ++ c2 :: Y)) by (apply (FOP_sub (lo p) X [c1] (c2 :: Y)); exact F).
    destruct (remove_ok G pick (cleared hf c1) p' st3 p back X c2 Y ([] ++ mlk hf p' c1) p' S3 Vp F') as (st4 & E2 & S4); [intros z I; apply D; apply in_app_or in I as [I|I]; apply in_or_app; [auto|right; right; auto]|].
    eexists _, st4. split; [exact E1|]. split; [exact E2|exact S4].
  - change (X ++ c2 :: c1 :: Y) with (X ++ [c2] ++ c1 :: Y) in *. rewrite app_assoc in *.
    destruct (remove_ok G pick hf p' st2 p back (X ++ [c2]) c1 Y [] p' S2 Vp F D) as (st3 & E1 & S3).
    assert (F' : ForallOrdPairs (lo p) (X ++ c2 :: Y)) by (assert (Q : X ++ c2 :: Y = (X ++ [c2]) ++ Y) by (rewrite <- app_assoc; reflexivity); rewrite Q; apply (FOP_sub (lo p) (X ++ [c2]) [c1] Y); exact F).
    destruct (remove_ok G pick (cleared hf c1) p' st3 p back X c2 Y ([] ++ mlk hf p' c1) p' S3 Vp F') as (st4 & E2 & S4).
    { intros z I. apply D. rewrite !in_app_iff in *. cbn [In] in *. tauto. }
    rewrite <- !app_assoc in E1. cbn [app] in E1. rewrite <- app_assoc. cbn [app].
    eexists _, st4. split; [exact E1|]. split; [exact E2|exact S4].
Qed.
Lemma vtype_rr : forall w, winding_of_orientation (orient2d (ea c1) p' (ea c2)) = Some w -> vtype c1 c2 p' = Ok (if winding_eqb w (iw c1) then VEnd else VMerge).
Proof. intros w E. unfold P_MonoSweep.vtype. rewrite !(evt_right G), !(oth_right G) by auto. cbn [ev_ty right_of]. cbn zeta. rewrite E. reflexivity. Qed.
Lemma ins_right : forall c s0, c < n -> ez c = p' -> handle_insert pick (evt p' c) s0 = Ok s0.
Proof. intros c s0 L E. rewrite (evt_right G) by auto. reflexivity. Qed.
Lemma mlk_bot : forall c, top c = false -> mlk hf p' c = []. Proof. intros c E. unfold P_MonoSweep.mlk. rewrite E. reflexivity. Qed.
Lemma mlk_top : forall c h m, top c = true -> hf c = mkHelper h m -> mlk hf p' c = mlinks m h p' None.
Proof. intros c h m E Eh. unfold P_MonoSweep.mlk. rewrite E, Eh. destruct m; reflexivity. Qed.
Lemma rr_case : goal.
Proof.
  destruct (step_lists G p p' Vp Vp' Lp Nx (flat gs) So) as (X & M & Y & E & EM & PX & PY & SO').
  assert (NM : NoDup M).
  { pose proof (so_nodup p _ So) as N. rewrite E in N. apply NoDup_app_remove_l in N. apply NoDup_app_remove_r in N. exact N. }
  assert (PM : Permutation M [c1; c2]).
  { apply NoDup_Permutation; auto; [constructor; [intros [Q|[]]; auto|constructor; [intros []|constructor]]|]. intros c. rewrite EM. split.
    - intros [L Q]. destruct (On c L (or_intror Q)) as [->| ->]; cbn; auto.
    - intros [<-|[<-|[]]]; auto. }
  assert (M2 : exists x y, M = [x; y]) by (apply Permutation_length in PM; destruct M as [|x [|y [|z M]]]; try discriminate PM; eauto). destruct M2 as (x & y & ->).
  assert (SO : sorted p' (X ++ Y)).
  { change (X ++ Y) with (X ++ [] ++ Y). apply SO'; [constructor|]. apply rr_none; auto. }
  cbn [app] in E. assert (Lo : lo p x y) by (pose proof (so_ord _ _ So) as F; rewrite E in F; apply (FOP_in _ X x [] y Y F)).
  assert (Dx : x < n /\ ez x = p') by (apply EM; left; auto). assert (Dy : y < n /\ ez y = p') by (apply EM; right; left; auto). destruct Dx as [Lx Zx]. destruct Dy as [Ly Zy].
  destruct (orient_end G p p' x y Lx Ly Vp (before_act G p p' Lp Nx x Lx Zx) (before_act G p p' Lp Nx y Ly Zy) Lo Zx Zy) as [O1 O2].
  assert (Nxy : x <> y) by (intros ->; apply (lo_irrefl p y Lo)).
  destruct (st_point (map S (flat gs))) as (st2 & E2 & S2). destruct (rr_remove X x y Y st2 (map S (flat gs)) E PM S2 eq_refl) as (a1 & st3 & E3 & E4 & S3).
  assert (P' := perm_two _ _ _ PM).
  assert (Oc : forall c, c <> x -> c <> y -> cleared (cleared hf c1) c2 c = hf c).
  { intros c Q1 Q2. rewrite !cleared_other; auto; destruct P' as [P'|P']; injection P' as -> ->; auto. }
  assert (W1 : seg_at st3 (ev_key (evt p' c1)) = Ok (seg_of (ln := ln) (top := top) (cleared (cleared hf c1) c2) c1)) by (rewrite evt_key; exact (seg_at_ok _ _ _ _ S3 L1)).
  assert (W2 : seg_at st3 (ev_key (evt p' c2)) = Ok (seg_of (ln := ln) (top := top) (cleared (cleared hf c1) c2) c2)) by (rewrite evt_key; exact (seg_at_ok _ _ _ _ S3 L2)).
  destruct (flat_split gs X (x :: y :: Y) E) as [(G1 & G2 & Eg & EX & EY)|(G1 & g & G2 & Eg & EX & EY)].
  - (* End *)
    destruct G2 as [|[b t h m] G2]; [discriminate EY|]. cbn [flat flat_map sg_b sg_t app] in EY. injection EY as Q1 Q2 Q3. subst b t. fold (flat G2) in Q3.
    destruct (labels (mkSgap x y h m)) as [T1 T2]; [rewrite Eg; apply in_or_app; right; left; auto|]. cbn [sg_b sg_t] in T1, T2.
    assert (Hh := Hlp (mkSgap x y h m)). cbn [sg_t sg_h sg_m] in Hh. specialize (Hh ltac:(rewrite Eg; apply in_or_app; right; cbn [In]; auto)).
    assert (Ty : vtype c1 c2 p' = Ok VEnd).
    { destruct P' as [P'|P']; injection P' as Q4 Q5.
      - rewrite (vtype_rr Ccw) by (rewrite <- ?Q4, <- ?Q5, O1; reflexivity). unfold P_MonoSweep.iw. rewrite <- ?Q4, T1. reflexivity.
      - rewrite (vtype_rr Cw) by (rewrite <- ?Q4, <- ?Q5, O2; reflexivity). unfold P_MonoSweep.iw. rewrite <- ?Q5, T2. reflexivity. }
    assert (Ml : mlk hf p' c1 ++ mlk hf p' c2 = mlinks m h p' None).
    { destruct P' as [P'|P']; injection P' as Q4 Q5.
      - rewrite <- Q4, <- Q5, (mlk_bot x T1), (mlk_top y h m T2 Hh). reflexivity.
      - rewrite <- Q4, <- Q5, (mlk_bot x T1), (mlk_top y h m T2 Hh). apply app_nil_r. }
    exists (cleared (cleared hf c1) c2), (mkMsweep st3 0 back (map S (flat (G1 ++ G2)))), (G1 ++ G2), VEnd, (mlinks m h p' None ++ [LEnd (ea y) (ea x) p']).
    split; [|split; [|split; [|reflexivity]]].
    + eapply (proc_seq pick s p' (evt p' c1) (evt p' c2 :: back) _ (mkIxn VEnd (evt p' c1) (evt p' c2) (oth p' c1) (oth p' c2) (iw c1)) _ a1 _ (mlk hf p' c1 ++ mlk hf p' c2) _ _ (mkMsweep st3 0 back (map S (flat (G1 ++ G2)))) _ (mkMsweep st3 0 back (map S (flat (G1 ++ G2)))) _ eq_refl (evt_point p' c1)); cbn [ix_event1 ix_event2 ix_ty].
      * apply (fit_ok G hf q0); auto.
      * exact E2.
      * exact E3.
      * exact E4.
      * exact W1.
      * exact W2.
      * discriminate.
      * rewrite Ml. unfold vertex_links. cbn [ix_interior ix_other1 ix_other2 ix_ty]. rewrite !(oth_right G) by auto. rewrite flat_app, <- EX, <- Q3.
        destruct P' as [P'|P']; injection P' as Q4 Q5; rewrite <- Q4, <- Q5; unfold P_MonoSweep.iw; rewrite ?T1, ?T2; reflexivity.
      * apply ins_right; auto.
      * apply ins_right; auto.
    + rewrite Eg. apply s_end; [apply rr_ends; auto|apply rr_none; auto].
    + apply fin; auto.
      * rewrite flat_app, <- EX, <- Q3. exact SO.
      * intros g I. rewrite Oc; [apply Hlp; rewrite Eg; apply in_app_or in I as [I|I]; apply in_or_app; [auto|right; right; auto]| |].
        -- apply (top_nodup G1 (mkSgap x y h m) G2 Eg g I).
        -- apply (top_nodup G1 (mkSgap x y h m) G2 Eg g I).
      * intros c L A. apply Oc; intros ->; apply (unstarted _ A); rewrite E; apply in_or_app; right; cbn; auto.
  - (* Merge *)
    destruct G2 as [|[b2 t2 h2 m2] G3]; [discriminate EY|]. destruct g as [b1 t1 h1 m1]. cbn [flat flat_map sg_b sg_t app] in EX, EY. injection EY as Q1 Q2 Q3. subst t1 b2. fold (flat G3) in Q3.
    destruct (labels (mkSgap b1 x h1 m1)) as [T1 T2]; [rewrite Eg; apply in_or_app; right; left; auto|]. cbn [sg_b sg_t] in T1, T2.
    destruct (labels (mkSgap y t2 h2 m2)) as [T3 T4]; [rewrite Eg; apply in_or_app; right; right; left; auto|]. cbn [sg_b sg_t] in T3, T4.
    assert (Hh1 := Hlp (mkSgap b1 x h1 m1)). cbn [sg_t sg_h sg_m] in Hh1. specialize (Hh1 ltac:(rewrite Eg; apply in_or_app; right; cbn [In]; auto)).
    assert (Hh2 := Hlp (mkSgap y t2 h2 m2)). cbn [sg_t sg_h sg_m] in Hh2. specialize (Hh2 ltac:(rewrite Eg; apply in_or_app; right; cbn [In]; auto)).
    assert (Ty : vtype c1 c2 p' = Ok VMerge).
    { destruct P' as [P'|P']; injection P' as Q4 Q5.
      - rewrite (vtype_rr Ccw) by (rewrite <- ?Q4, <- ?Q5, O1; reflexivity). unfold P_MonoSweep.iw. rewrite <- ?Q4, T2. reflexivity.
      - rewrite (vtype_rr Cw) by (rewrite <- ?Q4, <- ?Q5, O2; reflexivity). unfold P_MonoSweep.iw. rewrite <- ?Q5, T3. reflexivity. }
    assert (Ml : mlk hf p' c1 ++ mlk hf p' c2 = mlinks m1 h1 p' None).
    { destruct P' as [P'|P']; injection P' as Q4 Q5.
      - rewrite <- Q4, <- Q5, (mlk_bot y T3), (mlk_top x h1 m1 T2 Hh1). apply app_nil_r.
      - rewrite <- Q4, <- Q5, (mlk_bot y T3), (mlk_top x h1 m1 T2 Hh1). reflexivity. }
    assert (Nt : t2 <> x /\ t2 <> y).
    { pose proof (so_nodup p _ So) as N. rewrite E, Q3 in N. apply NoDup_app_remove_l in N. inversion N as [|? ? N1 N2]; subst. inversion N2 as [|? ? N3 N4]; subst. split; intros ->; [apply N1|apply N3]; cbn; auto. }
    set (ix := mkIxn VMerge (evt p' c1) (evt p' c2) (oth p' c1) (oth p' c2) (iw c1)).
    destruct (fix_ok G pick (cleared (cleared hf c1) c2) p' st3 back X t2 (flat G3) (mlk hf p' c1 ++ mlk hf p' c2) ix false true S3 Vq) as (st4 & E5 & S4).
    { intros z I. destruct (PX z I). split; [apply (so_lt p' _ z SO); apply in_or_app; auto|auto]. }
    { intros z I. rewrite <- Q3 in I. destruct (PY z I). split; [apply (so_lt p' _ z SO); apply in_or_app; auto|auto]. }
    { exact T4. }
    rewrite <- Q3 in E5. rewrite Ml in E5.
    assert (Fl : fix_links (cleared (cleared hf c1) c2) p' t2 false (limbs ix) = mlinks m2 h2 p' (Some (limbs ix))).
    { unfold fix_links. rewrite Oc by tauto. rewrite Hh2. destruct m2; reflexivity. }
    rewrite Fl in E5.
    assert (Ef : flat (G1 ++ mkSgap b1 t2 p' true :: G3) = X ++ Y) by (rewrite flat_app, EX, Q3; cbn [flat flat_map sg_b sg_t app]; rewrite <- app_assoc; reflexivity).
    exists (upd (cleared (cleared hf c1) c2) t2 (mkHelper p' true)), (mkMsweep st4 0 back (map S (X ++ Y))), (G1 ++ mkSgap b1 t2 p' true :: G3), VMerge, (mlinks m1 h1 p' None ++ mlinks m2 h2 p' (Some (limbs ix))).
    split; [|split; [|split; [|reflexivity]]].
    + eapply (proc_seq pick s p' (evt p' c1) (evt p' c2 :: back) _ ix _ a1 _ (mlk hf p' c1 ++ mlk hf p' c2) _ _ (mkMsweep st4 0 back (map S (X ++ Y))) _ (mkMsweep st4 0 back (map S (X ++ Y))) _ eq_refl (evt_point p' c1)); cbn [ix ix_event1 ix_event2 ix_ty].
      * apply (fit_ok G hf q0); auto.
      * exact E2.
      * exact E3.
      * exact E4.
      * exact W1.
      * exact W2.
      * discriminate.
      * rewrite Ml. unfold vertex_links. fold ix. change (ix_ty ix) with VMerge. cbv iota. destruct (ix_interior ix); exact E5.
      * apply ins_right; auto.
      * apply ins_right; auto.
    + rewrite Eg. apply s_merge; [apply rr_ends; auto|apply rr_none; auto| |].
      * apply PX. rewrite EX. apply in_or_app; right; left; auto.
      * apply PY. rewrite Q3. left; auto.
    + rewrite <- Ef. apply fin; auto.
      * rewrite Ef. exact SO.
      * intros g I. apply in_app_or in I as [I|[<-|I]]; [|apply upd_same|].
        -- destruct (top_nodup G1 (mkSgap b1 x h1 m1) (mkSgap y t2 h2 m2 :: G3) Eg g) as [D1 D2]; [apply in_or_app; auto|].
           assert (Eg' : gs = (G1 ++ [mkSgap b1 x h1 m1]) ++ mkSgap y t2 h2 m2 :: G3) by (rewrite <- app_assoc; exact Eg).
           destruct (top_nodup _ _ _ Eg' g) as [D3 D4]; [apply in_or_app; left; apply in_or_app; auto|]. cbn [sg_t sg_b] in *.
           rewrite upd_other, Oc by auto. apply Hlp. rewrite Eg. apply in_or_app; auto.
        -- destruct (top_nodup G1 (mkSgap b1 x h1 m1) (mkSgap y t2 h2 m2 :: G3) Eg g) as [D1 D2]; [apply in_or_app; right; right; auto|].
           assert (Eg' : gs = (G1 ++ [mkSgap b1 x h1 m1]) ++ mkSgap y t2 h2 m2 :: G3) by (rewrite <- app_assoc; exact Eg).
           destruct (top_nodup _ _ _ Eg' g) as [D3 D4]; [apply in_or_app; auto|]. cbn [sg_t sg_b] in *.
           rewrite upd_other, Oc by auto. apply Hlp. rewrite Eg. apply in_or_app; right; right; right; auto.
      * intros c L A. rewrite upd_other, Oc; auto; intros ->; apply (unstarted _ A); rewrite E; apply in_or_app; right; cbn; auto. right. right. rewrite Q3. left; auto.
Qed.
End RR.

(** ** Two edges start *)
Section LL.
Hypothesis Z1 : ea c1 = p'.
Hypothesis Z2 : ea c2 = p'.
Lemma not_end : forall c, c < n -> ea c = p' -> ez c <> p'.
Proof. intros c L E E'. apply (ends_not_starts c L E' E). Qed.
Lemma ll_none : ends_at p' [].
Proof.
  intros c. split; [intros []|]. intros [L E]. destruct (On c L (or_intror E)) as [->| ->]; [apply (not_end c1)|apply (not_end c2)]; auto.
Qed.
Lemma ll_starts : forall l, Permutation l [c1; c2] -> starts_at p' l.
Proof.
  intros l P c. split.
  - intros I. apply (Permutation_in _ P) in I. destruct I as [<-|[<-|[]]]; auto.
  - intros [L E]. apply (Permutation_in _ (Permutation_sym P)). destruct (On c L (or_introl E)) as [->| ->]; cbn; auto.
Qed.
Lemma rm_left : forall c a, ea c = p' -> handle_remove pick p' (evt p' c) a = Ok a.
Proof. intros c [s0 l0] E. rewrite evt_left by auto. reflexivity. Qed.
Lemma vtype_ll : forall w, winding_of_orientation (orient2d (ez c1) p' (ez c2)) = Some w -> vtype c1 c2 p' = Ok (if winding_eqb w (iw c1) then VSplit else VStart).
Proof. intros w E. unfold P_MonoSweep.vtype. rewrite !evt_left, !oth_left by auto. cbn [ev_ty left_of]. cbn zeta. rewrite E. reflexivity. Qed.
Lemma ll_insert : forall hf' X x y Y st', sorted p' (X ++ x :: y :: Y) -> Permutation [x; y] [c1; c2] -> store hf' p' st' ->
  exists s5, handle_insert pick (evt p' c1) (mkMsweep st' 0 back (map S (X ++ Y))) = Ok s5 /\ handle_insert pick (evt p' c2) s5 = Ok (mkMsweep st' 0 back (map S (X ++ x :: y :: Y))).
Proof.
  intros hf' X x y Y st' S' P Ss. rewrite !evt_left by auto. pose proof (so_ord _ _ S') as F.
  assert (D : forall z, In z (X ++ x :: y :: Y) -> z < n /\ actb p' z = true) by (intros z I; apply S'; auto).
  apply perm_two in P. destruct P as [P|P]; injection P as -> ->.
  - assert (F' : ForallOrdPairs (lo p') (X ++ c1 :: Y)).
    { assert (Q : X ++ c1 :: Y = (X ++ [c1]) ++ Y) by (rewrite <- app_assoc; reflexivity). rewrite Q. apply (FOP_sub (lo p') (X ++ [c1]) [c2] Y). rewrite <- app_assoc. exact F. }
    rewrite (insert_ok G pick hf' p' st' p' back X c1 Y p' Ss Vq F') by (intros z I; apply D; rewrite !in_app_iff in *; cbn [In] in *; tauto).
    eexists. split; [reflexivity|]. assert (Q : forall l, X ++ c1 :: l = (X ++ [c1]) ++ l) by (intros; rewrite <- app_assoc; reflexivity). rewrite (Q Y), (Q (c2 :: Y)).
    apply (insert_ok G pick hf' p' st' p' back (X ++ [c1]) c2 Y p' Ss Vq); rewrite <- app_assoc; auto.
  - assert (F' : ForallOrdPairs (lo p') (X ++ c1 :: Y)) by (apply (FOP_sub (lo p') X [c2] (c1 :: Y)); exact F).
    rewrite (insert_ok G pick hf' p' st' p' back X c1 Y p' Ss Vq F') by (intros z I; apply D; rewrite !in_app_iff in *; cbn [In] in *; tauto).
    eexists. split; [reflexivity|]. apply (insert_ok G pick hf' p' st' p' back X c2 (c1 :: Y) p' Ss Vq); auto.
Qed.
Lemma ll_case : goal.
Proof.
  destruct (step_lists G p p' Vp Vp' Lp Nx (flat gs) So) as (X & M & Y & E & EM & PX & PY & SO').
  assert (M0 : M = []).
  { destruct M as [|c M]; auto. exfalso. apply (proj2 (ll_none c)). apply EM. left; auto. }
  subst M. cbn [app] in E.
  assert (A1 : actb p' c1 = true) by (apply (next_act G p p' Vp' Lp Nx); auto). assert (A2 : actb p' c2 = true) by (apply (next_act G p p' Vp' Lp Nx); auto).
  assert (XY : exists x y, Permutation [x; y] [c1; c2] /\ lo p' x y).
  { destruct (lo_total G p' c1 c2 L1 L2 N12 A1 A2) as [Lo|Lo]; [exists c1, c2|exists c2, c1]; split; auto. apply perm_swap. }
  destruct XY as (x & y & PM & Lo). assert (St' := ll_starts _ PM).
  assert (SO : sorted p' (X ++ x :: y :: Y)).
  { change (X ++ x :: y :: Y) with (X ++ [x; y] ++ Y). apply SO'; [|exact St']. constructor; [constructor; [exact Lo|constructor]|constructor; [constructor|constructor]]. }
  assert (Dx : x < n /\ ea x = p') by (apply St'; left; auto). assert (Dy : y < n /\ ea y = p') by (apply St'; right; left; auto). destruct Dx as [Lx Zx]. destruct Dy as [Ly Zy].
  destruct (orient_start G p' x y Lx Ly Lo Zx Zy) as [O1 O2].
  assert (Nxy : x <> y) by (intros ->; apply (lo_irrefl p' y Lo)).
  assert (Alt := labels' _ SO).
  destruct (st_point (map S (flat gs))) as (st2 & E2 & S2).
  assert (P' := perm_two _ _ _ PM).
  assert (W1 : seg_at st2 (ev_key (evt p' c1)) = Ok (seg_of (ln := ln) (top := top) hf c1)) by (rewrite evt_key; exact (seg_at_ok _ _ _ _ S2 L1)).
  assert (W2 : seg_at st2 (ev_key (evt p' c2)) = Ok (seg_of (ln := ln) (top := top) hf c2)) by (rewrite evt_key; exact (seg_at_ok _ _ _ _ S2 L2)).
  assert (Hx : hf x = mkHelper p' false) by (rewrite Hnw, Zx; auto; rewrite Zx; auto).
  assert (Hy : hf y = mkHelper p' false) by (rewrite Hnw, Zy; auto; rewrite Zy; auto).
  assert (Nact : forall c, c < n -> ea c = p' -> ~ In c (flat gs)) by (intros c L Q I; apply so_in in I as [_ I]; apply actb_iff in I as [I _]; rewrite Q in I; lord).
  destruct (flat_split gs X Y E) as [(G1 & G2 & Eg & EX & EY)|(G1 & g & G2 & Eg & EX & EY)].
  - (* Start *)
    assert (T1 : top x = false) by (rewrite (alt_at false X x (y :: Y) Alt), EX, <- Nat.negb_even, flat_even; reflexivity).
    assert (T2 : top y = true).
    { assert (Q : X ++ x :: y :: Y = (X ++ [x]) ++ y :: Y) by (rewrite <- app_assoc; reflexivity). rewrite Q in Alt. rewrite (alt_at false (X ++ [x]) y Y Alt), EX, app_length. cbn [List.length]. rewrite Nat.add_1_r, Nat.odd_succ, flat_even. reflexivity. }
    assert (Ty : vtype c1 c2 p' = Ok VStart).
    { destruct P' as [P'|P']; injection P' as Q4 Q5.
      - rewrite (vtype_ll Cw) by (rewrite <- ?Q4, <- ?Q5, O1; reflexivity). unfold P_MonoSweep.iw. rewrite <- ?Q4, T1. reflexivity.
      - rewrite (vtype_ll Ccw) by (rewrite <- ?Q4, <- ?Q5, O2; reflexivity). unfold P_MonoSweep.iw. rewrite <- ?Q5, T2. reflexivity. }
    destruct (ll_insert hf X x y Y st2 SO PM S2) as (s5 & E5 & E6).
    assert (Ef : flat (G1 ++ mkSgap x y p' false :: G2) = X ++ x :: y :: Y) by (rewrite flat_app, EX, EY; reflexivity).
    exists hf, (mkMsweep st2 0 back (map S (X ++ x :: y :: Y))), (G1 ++ mkSgap x y p' false :: G2), VStart, [LStart p' (ez y) (ez x)].
    split; [|split; [|split; [|reflexivity]]].
    + eapply (proc_seq pick s p' (evt p' c1) (evt p' c2 :: back) _ (mkIxn VStart (evt p' c1) (evt p' c2) (oth p' c1) (oth p' c2) (iw c1)) _ _ (mkMsweep st2 0 back (map S (flat gs))) [] _ _ (mkMsweep st2 0 back (map S (X ++ Y))) _ s5 _ eq_refl (evt_point p' c1)); cbn [ix_event1 ix_event2 ix_ty].
      * apply (fit_ok G hf q0); auto.
      * exact E2.
      * apply rm_left; auto.
      * apply rm_left; auto.
      * exact W1.
      * exact W2.
      * discriminate.
      * unfold vertex_links. cbn [ix_interior ix_other1 ix_other2 ix_ty]. rewrite !oth_left by auto. rewrite E.
        destruct P' as [P'|P']; injection P' as Q4 Q5; rewrite <- Q4, <- Q5; unfold P_MonoSweep.iw; rewrite ?T1, ?T2; reflexivity.
      * exact E5.
      * exact E6.
    + rewrite Eg. apply s_start; [apply ll_none; auto|exact St'].
    + rewrite <- Ef. apply fin; auto.
      * rewrite Ef. exact SO.
      * intros g I. apply in_app_or in I as [I|[<-|I]]; [apply Hlp; rewrite Eg; apply in_or_app; auto|exact Hy|apply Hlp; rewrite Eg; apply in_or_app; auto].
  - (* Split *)
    destruct g as [b t h m]. cbn [sg_b sg_t] in EX, EY.
    assert (T1 : top x = true) by (rewrite (alt_at false X x (y :: Y) Alt), EX, app_length; cbn [List.length]; rewrite Nat.add_1_r, Nat.odd_succ, flat_even; reflexivity).
    assert (T2 : top y = false).
    { assert (Q : X ++ x :: y :: Y = (X ++ [x]) ++ y :: Y) by (rewrite <- app_assoc; reflexivity). rewrite Q in Alt. rewrite (alt_at false (X ++ [x]) y Y Alt), EX, !app_length. cbn [List.length]. rewrite !Nat.add_1_r, Nat.odd_succ, Nat.even_succ, <- Nat.negb_even, flat_even. reflexivity. }
    destruct (labels (mkSgap b t h m)) as [T3 T4]; [rewrite Eg; apply in_or_app; right; left; auto|]. cbn [sg_b sg_t] in T3, T4.
    assert (Hh := Hlp (mkSgap b t h m)). cbn [sg_t sg_h sg_m] in Hh. specialize (Hh ltac:(rewrite Eg; apply in_or_app; right; cbn [In]; auto)).
    assert (Ty : vtype c1 c2 p' = Ok VSplit).
    { destruct P' as [P'|P']; injection P' as Q4 Q5.
      - rewrite (vtype_ll Cw) by (rewrite <- ?Q4, <- ?Q5, O1; reflexivity). unfold P_MonoSweep.iw. rewrite <- ?Q4, T1. reflexivity.
      - rewrite (vtype_ll Ccw) by (rewrite <- ?Q4, <- ?Q5, O2; reflexivity). unfold P_MonoSweep.iw. rewrite <- ?Q5, T2. reflexivity. }
    set (ix := mkIxn VSplit (evt p' c1) (evt p' c2) (oth p' c1) (oth p' c2) (iw c1)).
    assert (Lim : limbs ix = (ez y, ez x)).
    { unfold limbs, ix. cbn [ix_interior ix_other1 ix_other2]. rewrite !oth_left by auto. unfold P_MonoSweep.iw. destruct P' as [P'|P']; injection P' as Q4 Q5; rewrite <- Q4, <- Q5, ?T1, ?T2; reflexivity. }
    destruct (fix_ok G pick hf p' st2 back X t (flat G2) [] ix true false S2 Vq) as (st4 & E5 & S4).
    { intros z I. destruct (PX z I). split; [apply (so_lt p' _ z SO); apply in_or_app; auto|auto]. }
    { intros z I. rewrite <- EY in I. destruct (PY z I). split; [apply (so_lt p' _ z SO); apply in_or_app; right; right; right; auto|auto]. }
    { exact T4. }
    rewrite <- EY in E5. rewrite Lim in E5.
    assert (Fl : [] ++ fix_links hf p' t true (ez y, ez x) = [if m : bool then LMerge h p' (Some (ez y, ez x)) else LSplit h p' (ez y) (ez x)]).
    { unfold fix_links. rewrite Hh. destruct m; reflexivity. }
    rewrite Fl in E5.
    destruct (ll_insert (upd hf t (mkHelper p' false)) X x y Y st4 SO PM S4) as (s5 & E6 & E7).
    assert (Ef : flat (G1 ++ mkSgap b x p' false :: mkSgap y t p' false :: G2) = X ++ x :: y :: Y) by (rewrite flat_app, EX, EY; cbn [flat flat_map sg_b sg_t app]; rewrite <- app_assoc; reflexivity).
    assert (Nt : In t (flat gs)) by (rewrite E, EY; apply in_or_app; right; left; auto).
    exists (upd hf t (mkHelper p' false)), (mkMsweep st4 0 back (map S (X ++ x :: y :: Y))), (G1 ++ mkSgap b x p' false :: mkSgap y t p' false :: G2), VSplit, [if m : bool then LMerge h p' (Some (ez y, ez x)) else LSplit h p' (ez y) (ez x)].
    split; [|split; [|split; [|reflexivity]]].
    + eapply (proc_seq pick s p' (evt p' c1) (evt p' c2 :: back) _ ix _ _ (mkMsweep st2 0 back (map S (flat gs))) [] _ _ (mkMsweep st4 0 back (map S (X ++ Y))) _ s5 _ eq_refl (evt_point p' c1)); cbn [ix ix_event1 ix_event2 ix_ty].
      * apply (fit_ok G hf q0); auto.
      * exact E2.
      * apply rm_left; auto.
      * apply rm_left; auto.
      * exact W1.
      * exact W2.
      * discriminate.
      * unfold vertex_links. fold ix. change (ix_ty ix) with VSplit. cbv iota. rewrite E. destruct (ix_interior ix); exact E5.
      * exact E6.
      * exact E7.
    + rewrite Eg. apply s_split; [apply ll_none; auto|exact St'| |].
      * apply PX. rewrite EX. apply in_or_app; right; left; auto.
      * apply PY. rewrite EY. left; auto.
    + rewrite <- Ef. apply fin; auto.
      * rewrite Ef. exact SO.
      * intros g I. apply in_app_or in I as [I|[<-|[<-|I]]].
        -- destruct (top_nodup G1 (mkSgap b t h m) G2 Eg g) as [D1 D2]; [apply in_or_app; auto|]. cbn [sg_t sg_b] in *. rewrite upd_other by auto. apply Hlp. rewrite Eg. apply in_or_app; auto.
        -- cbn [sg_t sg_h sg_m]. rewrite upd_other; auto. intros ->. apply (Nact t Lx Zx Nt).
        -- apply upd_same.
        -- destruct (top_nodup G1 (mkSgap b t h m) G2 Eg g) as [D1 D2]; [apply in_or_app; auto|]. cbn [sg_t sg_b] in *. rewrite upd_other by auto. apply Hlp. rewrite Eg. apply in_or_app; right; right; auto.
      * intros c L A. rewrite upd_other; auto. intros ->. apply (unstarted _ A Nt).
Qed.
End LL.

(** ** One edge ends, one starts *)
Section RL.
Variables c d : nat.
Hypothesis P12 : Permutation [c; d] [c1; c2].
Hypothesis Lc : c < n.
Hypothesis Ld : d < n.
Hypothesis Zc : ez c = p'.
Hypothesis Zd : ea d = p'.
Lemma rl_ends : ends_at p' [c].
Proof.
  intros x. split; [intros [<-|[]]; auto|]. intros [L E]. assert (I : In x [c; d]) by (apply (Permutation_in _ (Permutation_sym P12)); destruct (On x L (or_intror E)) as [->| ->]; cbn; auto).
  destruct I as [<-|[<-|[]]]; [left; auto|]. exfalso. apply (ends_not_starts d L E Zd).
Qed.
Lemma rl_starts : starts_at p' [d].
Proof.
  intros x. split; [intros [<-|[]]; auto|]. intros [L E]. assert (I : In x [c; d]) by (apply (Permutation_in _ (Permutation_sym P12)); destruct (On x L (or_introl E)) as [->| ->]; cbn; auto).
  destruct I as [<-|[<-|[]]]; [|left; auto]. exfalso. apply (ends_not_starts c L Zc E).
Qed.
Lemma rl_remove : forall X Y st2, flat gs = X ++ c :: Y -> store hf p' st2 ->
  exists a1 st3, handle_remove pick p' (evt p' c1) (mkMsweep st2 0 back (map S (flat gs)), []) = Ok a1 /\
    handle_remove pick p' (evt p' c2) a1 = Ok (mkMsweep st3 0 back (map S (X ++ Y)), mlk hf p' c) /\ store (cleared hf c) p' st3.
Proof.
  intros X Y st2 E S2. rewrite E. pose proof (so_ord _ _ So) as F. rewrite E in F.
  destruct (remove_ok G pick hf p' st2 p back X c Y [] p' S2 Vp F) as (st3 & E1 & S3); [rewrite <- E; apply so_in|].
  assert (P' := perm_two _ _ _ P12). destruct P' as [P'|P']; injection P' as Q1 Q2; rewrite <- Q1, <- Q2.
  - eexists _, st3. split; [rewrite (evt_right G) by auto; exact E1|]. split; [rewrite evt_left by auto; reflexivity|exact S3].
  - eexists _, st3. split; [rewrite evt_left by auto; reflexivity|]. split; [rewrite (evt_right G) by auto; exact E1|exact S3].
Qed.
Lemma rl_insert : forall hf' X Y st', sorted p' (X ++ d :: Y) -> store hf' p' st' ->
  exists s5, handle_insert pick (evt p' c1) (mkMsweep st' 0 back (map S (X ++ Y))) = Ok s5 /\ handle_insert pick (evt p' c2) s5 = Ok (mkMsweep st' 0 back (map S (X ++ d :: Y))).
Proof.
  intros hf' X Y st' S' Ss. assert (E1 := insert_ok G pick hf' p' st' p' back X d Y p' Ss Vq (so_ord _ _ S') (fun z I => proj1 (so_act _ _ S' z) I)).
  assert (P' := perm_two _ _ _ P12). destruct P' as [P'|P']; injection P' as Q1 Q2; rewrite <- Q1, <- Q2.
  - eexists. split; [rewrite (evt_right G) by auto; reflexivity|]. rewrite evt_left by auto. exact E1.
  - eexists. split; [rewrite evt_left by auto; exact E1|]. rewrite (evt_right G) by auto. reflexivity.
Qed.
Lemma vtype_rl : vtype c1 c2 p' = Ok VContinue.
Proof.
  unfold P_MonoSweep.vtype. assert (P' := perm_two _ _ _ P12). destruct P' as [P'|P']; injection P' as Q1 Q2; rewrite <- Q1, <- Q2, (evt_right G p' c), (evt_left p' d) by auto; reflexivity.
Qed.
Lemma rl_order : (match pcmp (oth p' c1) (oth p' c2) with
  | Gt => Ok (oth p' c2, oth p' c1) | Lt => Ok (oth p' c1, oth p' c2) | Eq => Panic "sweep.rs:194 continue segment: others must be orderable!" end) = Ok (ea c, ez d).
Proof.
  assert (Lt_ : lex_lt (ea c) (ez d)) by (pose proof (azlt G c Lc) as Q1; pose proof (azlt G d Ld) as Q2; rewrite Zc in Q1; rewrite Zd in Q2; lord).
  assert (P' := perm_two _ _ _ P12). destruct P' as [P'|P']; injection P' as Q1 Q2; rewrite <- Q1, <- Q2, (oth_right G p' c), (oth_left p' d) by auto.
  - destruct (pcmp_spec (ea c) (ez d)) as [Q|Q|Q]; [rewrite Q in Lt_; lord|reflexivity|lord].
  - destruct (pcmp_spec (ez d) (ea c)) as [Q|Q|Q]; [rewrite Q in Lt_; lord|lord|reflexivity].
Qed.
Lemma rl_case : goal.
Proof.
  destruct (step_lists G p p' Vp Vp' Lp Nx (flat gs) So) as (X & M & Y & E & EM & PX & PY & SO').
  assert (M1 : M = [c]).
  { pose proof (so_nodup p _ So) as N. rewrite E in N. apply NoDup_app_remove_l in N. apply NoDup_app_remove_r in N.
    assert (PM : Permutation M [c]) by (apply NoDup_Permutation; auto; [constructor; [intros []|constructor]|]; intros z; rewrite EM; symmetry; apply rl_ends). apply Permutation_sym, Permutation_length_1_inv in PM. auto. }
  subst M. cbn [app] in E.
  assert (SO : sorted p' (X ++ d :: Y)).
  { change (X ++ d :: Y) with (X ++ [d] ++ Y). apply SO'; [constructor; constructor|exact rl_starts]. }
  assert (Alt := labels' _ SO). assert (Alt0 := proj1 (alt_sorted G p (flat gs) Vp So)).
  assert (T : top d = top c).
  { rewrite E in Alt0. rewrite (alt_at false X d Y Alt), (alt_at false X c Y Alt0). reflexivity. }
  assert (Iw : iw c1 = iw c /\ iw c2 = iw c).
  { unfold P_MonoSweep.iw. assert (P' := perm_two _ _ _ P12). destruct P' as [P'|P']; injection P' as Q1 Q2; rewrite <- Q1, <- Q2, T; auto. }
  destruct Iw as [Iw1 Iw2].
  destruct (st_point (map S (flat gs))) as (st2 & E2 & S2). destruct (rl_remove X Y st2 E S2) as (a1 & st3 & E3 & E4 & S3).
  assert (W1 : seg_at st3 (ev_key (evt p' c1)) = Ok (seg_of (ln := ln) (top := top) (cleared hf c) c1)) by (rewrite evt_key; exact (seg_at_ok _ _ _ _ S3 L1)).
  assert (W2 : seg_at st3 (ev_key (evt p' c2)) = Ok (seg_of (ln := ln) (top := top) (cleared hf c) c2)) by (rewrite evt_key; exact (seg_at_ok _ _ _ _ S3 L2)).
  assert (Hd : hf d = mkHelper p' false) by (rewrite Hnw, Zd; auto; rewrite Zd; auto).
  assert (Nd : ~ In d (flat gs)) by (intros I; apply so_in in I as [_ I]; apply actb_iff in I as [I _]; rewrite Zd in I; lord).
  assert (Ncd : d <> c) by (intros ->; apply Nd; rewrite E; apply in_or_app; right; left; auto).
  set (ix := mkIxn VContinue (evt p' c1) (evt p' c2) (oth p' c1) (oth p' c2) (iw c1)).
  assert (Ic : In c (flat gs)) by (rewrite E; apply in_or_app; right; left; auto).
  destruct (flat_split gs X (c :: Y) E) as [(G1 & G2 & Eg & EX & EY)|(G1 & g & G2 & Eg & EX & EY)].
  - (* bottom *)
    destruct G2 as [|[b t h m] G2]; [discriminate EY|]. cbn [flat flat_map sg_b sg_t app] in EY. injection EY as Q1 Q3. subst b. fold (flat G2) in Q3.
    destruct (labels (mkSgap c t h m)) as [T1 T2]; [rewrite Eg; apply in_or_app; right; left; auto|]. cbn [sg_b sg_t] in T1, T2.
    assert (Hh := Hlp (mkSgap c t h m)). cbn [sg_t sg_h sg_m] in Hh. specialize (Hh ltac:(rewrite Eg; apply in_or_app; right; cbn [In]; auto)).
    assert (Ntc : t <> c) by (intros ->; congruence).
    destruct (fix_ok G pick (cleared hf c) p' st3 back X t (flat G2) [] ix false false S3 Vq) as (st4 & E5 & S4).
    { intros z I. destruct (PX z I). split; [apply (so_lt p' _ z SO); apply in_or_app; auto|auto]. }
    { intros z I. rewrite <- Q3 in I. destruct (PY z I). split; [apply (so_lt p' _ z SO); apply in_or_app; right; right; auto|auto]. }
    { exact T2. }
    rewrite <- Q3 in E5.
    assert (Fl : [] ++ fix_links (cleared hf c) p' t false (limbs ix) = mlinks m h p' (Some (limbs ix))).
    { unfold fix_links. rewrite cleared_other, Hh by auto. destruct m; reflexivity. }
    rewrite Fl in E5.
    destruct (rl_insert (upd (cleared hf c) t (mkHelper p' false)) X Y st4 SO S4) as (s5 & E6 & E7).
    assert (Ef : flat (G1 ++ mkSgap d t p' false :: G2) = X ++ d :: Y) by (rewrite flat_app, EX, Q3; reflexivity).
    exists (upd (cleared hf c) t (mkHelper p' false)), (mkMsweep st4 0 back (map S (X ++ d :: Y))), (G1 ++ mkSgap d t p' false :: G2), VContinue, (mlinks m h p' (Some (limbs ix)) ++ [LContinue (ea c) p' (ez d) Ccw]).
    split; [|split; [|split; [|reflexivity]]].
    + eapply (proc_seq pick s p' (evt p' c1) (evt p' c2 :: back) _ ix _ a1 _ (mlk hf p' c) _ _ (mkMsweep st4 0 back (map S (X ++ Y))) _ s5 _ eq_refl (evt_point p' c1)); cbn [ix ix_event1 ix_event2 ix_ty].
      * apply (fit_ok G hf q0); auto. apply vtype_rl.
      * exact E2.
      * exact E3.
      * exact E4.
      * exact W1.
      * exact W2.
      * intros _. rewrite !iw_seg. congruence.
      * unfold vertex_links. fold ix. change (ix_ty ix) with VContinue. cbv iota. rewrite iw_seg, Iw1. rewrite (mlk_bot c T1).
        assert (Ii : ix_interior ix = Ccw) by (unfold ix; cbn [ix_interior]; rewrite Iw1; unfold P_MonoSweep.iw; rewrite T1; reflexivity).
        assert (Ic' : iw c = Ccw) by (unfold P_MonoSweep.iw; rewrite T1; reflexivity).
        rewrite Ii, Ic'. rewrite E5. cbn [bind]. unfold ix. cbn [ix_other1 ix_other2]. rewrite rl_order. reflexivity.
      * exact E6.
      * exact E7.
    + rewrite Eg. apply s_bot; [exact rl_ends|exact rl_starts|]. apply PY. rewrite Q3. left; auto.
    + rewrite <- Ef. apply fin; auto.
      * rewrite Ef. exact SO.
      * intros g I. apply in_app_or in I as [I|[<-|I]]; [|apply upd_same|].
        -- destruct (top_nodup G1 (mkSgap c t h m) G2 Eg g) as [D1 D2]; [apply in_or_app; auto|]. cbn [sg_t sg_b] in *. rewrite upd_other, cleared_other by auto. apply Hlp. rewrite Eg. apply in_or_app; auto.
        -- destruct (top_nodup G1 (mkSgap c t h m) G2 Eg g) as [D1 D2]; [apply in_or_app; auto|]. cbn [sg_t sg_b] in *. rewrite upd_other, cleared_other by auto. apply Hlp. rewrite Eg. apply in_or_app; right; right; auto.
      * intros z L A. rewrite upd_other, cleared_other; auto; intros ->; apply (unstarted _ A); auto. rewrite E, Q3. apply in_or_app; right; right; left; auto.
  - (* top *)
    destruct g as [b t h m]. cbn [sg_b sg_t] in EX, EY. injection EY as Q1 Q3. subst t.
    destruct (labels (mkSgap b c h m)) as [T1 T2]; [rewrite Eg; apply in_or_app; right; left; auto|]. cbn [sg_b sg_t] in T1, T2.
    assert (Hh := Hlp (mkSgap b c h m)). cbn [sg_t sg_h sg_m] in Hh. specialize (Hh ltac:(rewrite Eg; apply in_or_app; right; cbn [In]; auto)).
    destruct (rl_insert (cleared hf c) X Y st3 SO S3) as (s5 & E6 & E7).
    assert (Ef : flat (G1 ++ mkSgap b d p' false :: G2) = X ++ d :: Y) by (rewrite flat_app, EX, Q3; cbn [flat flat_map sg_b sg_t app]; rewrite <- app_assoc; reflexivity).
    exists (cleared hf c), (mkMsweep st3 0 back (map S (X ++ d :: Y))), (G1 ++ mkSgap b d p' false :: G2), VContinue, (mlinks m h p' None ++ [LContinue (ea c) p' (ez d) Cw]).
    split; [|split; [|split; [|reflexivity]]].
    + eapply (proc_seq pick s p' (evt p' c1) (evt p' c2 :: back) _ ix _ a1 _ (mlk hf p' c) _ _ (mkMsweep st3 0 back (map S (X ++ Y))) _ s5 _ eq_refl (evt_point p' c1)); cbn [ix ix_event1 ix_event2 ix_ty].
      * apply (fit_ok G hf q0); auto. apply vtype_rl.
      * exact E2.
      * exact E3.
      * exact E4.
      * exact W1.
      * exact W2.
      * intros _. rewrite !iw_seg. congruence.
      * unfold vertex_links. fold ix. change (ix_ty ix) with VContinue. cbv iota. rewrite iw_seg, Iw1. rewrite (mlk_top c h m T2 Hh).
        assert (Ii : ix_interior ix = Cw) by (unfold ix; cbn [ix_interior]; rewrite Iw1; unfold P_MonoSweep.iw; rewrite T2; reflexivity).
        assert (Ic' : iw c = Cw) by (unfold P_MonoSweep.iw; rewrite T2; reflexivity).
        rewrite Ii, Ic'. cbn [bind]. unfold ix. cbn [ix_other1 ix_other2]. rewrite rl_order. reflexivity.
      * exact E6.
      * exact E7.
    + rewrite Eg. apply s_top; [exact rl_ends|exact rl_starts|]. apply PX. rewrite EX. apply in_or_app; right; left; auto.
    + rewrite <- Ef. apply fin; auto.
      * rewrite Ef. exact SO.
      * intros g I. apply in_app_or in I as [I|[<-|I]].
        -- destruct (top_nodup G1 (mkSgap b c h m) G2 Eg g) as [D1 D2]; [apply in_or_app; auto|]. cbn [sg_t sg_b] in *. rewrite cleared_other by auto. apply Hlp. rewrite Eg. apply in_or_app; auto.
        -- cbn [sg_t sg_h sg_m]. rewrite cleared_other; auto.
        -- destruct (top_nodup G1 (mkSgap b c h m) G2 Eg g) as [D1 D2]; [apply in_or_app; auto|]. cbn [sg_t sg_b] in *. rewrite cleared_other by auto. apply Hlp. rewrite Eg. apply in_or_app; right; right; auto.
      * intros z L A. rewrite cleared_other; auto; intros ->; apply (unstarted _ A); auto.
Qed.
End RL.

Theorem at_case : goal.
Proof.
  destruct I1 as [J1|J1], I2 as [J2|J2].
  - apply ll_case; auto.
  - apply (rl_case c2 c1); auto. apply perm_swap.
  - apply (rl_case c1 c2); auto.
  - apply rr_case; auto.
Qed.
End At.

(** Every event of the sweep succeeds, and does what it should. *)
Theorem process_ok : forall hf p s gs, In p V' -> sinv hf p s gs -> ms_events s <> [] ->
  exists hf' p' s' gs' ty links, In p' V /\ lex_lt p p' /\ (forall v, In v V -> lex_lt p v -> lex_lt v p' -> False) /\
    process_event pick s = Ok (s', Some (mkSweepEvent p' ty links)) /\ sstep p' gs ty links gs' /\ sinv hf' p' s' gs' /\ List.length (ms_events s) = 2 + List.length (ms_events s').
Proof.
  intros hf p s gs Vp SI Ne. destruct s as [st k evs act]. destruct SI as [[q0 St] K P Sr A So Hlp Hnw]. cbn [ms_segments ms_pt_key ms_events ms_active] in *. subst k act.
  destruct evs as [|e0 rest] eqn:Ee; [congruence|]. rewrite <- Ee in *.
  destruct (pop_two G p evs e0 rest Ee Sr P) as (Vv & Lv & Nx & c1 & c2 & back & L1 & L2 & N & I1 & I2 & On & E1 & E2 & S1 & P1).
  rewrite E1 in E2. destruct (at_case hf p (ev_point e0) st gs c1 c2 back q0 Vp Vv Lv Nx St S1 P1 So Hlp Hnw L1 L2 N I1 I2 On E2) as (hf' & s' & gs' & ty & links & R1 & R2 & R3 & R4).
  exists hf', (ev_point e0), s', gs', ty, links. rewrite E1. repeat (split; auto). rewrite R4. reflexivity.
Qed.
Lemma process_end : forall hf p s gs, In p V' -> sinv hf p s gs -> ms_events s = [] -> process_event pick s = Ok (s, None) /\ gs = [] /\ forall c, c < n -> lex_le (ez c) p.
Proof.
  intros hf p s gs Vp SI E. split; [unfold process_event; rewrite E; reflexivity|].
  assert (Fi : forall c, c < n -> lex_le (ez c) p).
  { intros c L. destruct (lex_le_dec (ez c) p) as [Q|Q]; auto. exfalso. assert (I : In (right_of (ez c) c) (filter (after p) all_events)).
    { apply filter_In. split; [apply in_events; exists c; auto|]. apply pltb_iff. exact Q. }
    apply (Permutation_in _ (Permutation_sym (si_perm _ _ _ _ SI))) in I. rewrite E in I. destruct I. }
  split; auto. destruct gs as [|g gs]; auto. exfalso. pose proof (proj1 (so_act _ _ (si_sorted _ _ _ _ SI) (sg_b g)) (or_introl eq_refl)) as [L A]. apply actb_iff in A as [_ A]. pose proof (Fi _ L). lord.
Qed.
End Step.
