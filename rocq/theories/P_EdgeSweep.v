(** The sweep of the monotone decomposition on arbitrary polygons: what an event that
    succeeds reports. *)
Require Import List String Bool Arith Lia Permutation Sorted.
From Verif Require Import Base Scalar M_Events M_Geo M_LineOrPoint M_Slab M_Active M_MonoPoly M_Rings M_Op M_MonoSweep M_Chains.
From Verif Require Import S_Geo P_Geo P_Slab P_OpStep P_MonoSweep P_MonoCount.
Import Datatypes.
Import ListNotations.
Local Open Scope nat_scope.

Lemma bind_inv : forall {A B} (m : res A) (f : A -> res B) b, bind m f = Ok b -> exists a, m = Ok a /\ f a = Ok b.
Proof. intros A B [a| |] f b E; try discriminate. exists a. auto. Qed.
Lemma check_inv : forall b s u, check b s = Ok u -> b = true.
Proof. intros [] s u E; [reflexivity|discriminate]. Qed.
Lemma expect_inv : forall {A} (o : option A) s a, expect o s = Ok a -> o = Some a.
Proof. intros A [x|] s a E; [injection E as ->; reflexivity|discriminate]. Qed.
Ltac bnd H := let x := fresh "x" in let E := fresh "E" in apply bind_inv in H as (x & E & H).
Ltac chk H := let x := fresh "x" in let E := fresh "E" in apply bind_inv in H as (x & E & H); apply check_inv in E; clear x.

Lemma flat_perm : forall {X Y} (f : X -> list Y) l l', Permutation l l' -> Permutation (flat_map f l) (flat_map f l').
Proof.
  intros X Y f l l' P. induction P; cbn [flat_map]; auto using Permutation_app_head.
  - rewrite !app_assoc. apply Permutation_app_tail, Permutation_app_comm.
  - eapply perm_trans; eauto.
Qed.
Lemma slab_set_inv : forall {A} (s : slab A) k a s', slab_set s k a = Ok s' -> forall x, slab_get s' x = if x =? k then Some a else slab_get s x.
Proof.
  intros A s k a s' E x. unfold slab_set in E. destruct (slab_get s k) as [b|] eqn:Q; [|discriminate]. injection E as <-. pose proof (slab_get_lt _ _ _ Q) as L. unfold slab_get. cbn [s_entries].
  destruct (Nat.eqb_spec x k) as [->|N]; [rewrite list_set_same; auto|rewrite list_set_other; auto].
Qed.

(** A segment of the sweep: its ends in order, and on which side the interior is. *)
Record seg3 : Type := mk3 { ta : pt; tz : pt; tw : winding }.
(** Directed with the interior on the right. *)
Definition ori (w : winding) (x : pt * pt) : pt * pt := match w with Cw => x | Ccw => (snd x, fst x) end.
Definition dir (t : seg3) : pt * pt := ori (tw t) (ta t, tz t).
Fixpoint all_from (k : nat) (E : list seg3) : list event :=
  match E with
  | [] => []
  | t :: E' => mkEvent (ta t) LineLeft (S k) :: mkEvent (tz t) LineRight (S k) :: all_from (S k) E'
  end.

Section Sweep.
Variable E : list seg3.
Hypothesis EL : forall t, In t E -> lex_lt (ta t) (tz t).
Hypothesis EB : Permutation (map (fun t => fst (dir t)) E) (map (fun t => snd (dir t)) E).
Variable pick : list nat -> nat -> nat -> nat.
Notation all := (all_from 0 E).

Lemma in_all : forall E' k ev, In ev (all_from k E') -> exists i t, nth_error E' i = Some t /\ ev_key ev = S (k + i) /\
  ((ev_ty ev = LineLeft /\ ev_point ev = ta t) \/ (ev_ty ev = LineRight /\ ev_point ev = tz t)).
Proof.
  induction E' as [|t E' IH]; intros k ev I; [destruct I|]. destruct I as [<-|[<-|I]].
  - exists 0, t. cbn. rewrite Nat.add_0_r. auto.
  - exists 0, t. cbn. rewrite Nat.add_0_r. auto.
  - destruct (IH (S k) ev I) as (i & u & A & B & C). exists (S i), u. split; auto. split; auto. rewrite B. f_equal. lia.
Qed.
Lemma in_ends : forall E' k t, In t E' -> (exists ev, In ev (all_from k E') /\ ev_point ev = ta t) /\ exists ev, In ev (all_from k E') /\ ev_point ev = tz t.
Proof.
  induction E' as [|u E' IH]; intros k t I; [destruct I|]. destruct I as [->|I].
  - split; [exists (mkEvent (ta t) LineLeft (S k))|exists (mkEvent (tz t) LineRight (S k))]; cbn; auto.
  - destruct (IH (S k) t I) as [(e1 & A & B) (e2 & C & D)]. split; eexists; (split; [|eassumption]); cbn; auto.
Qed.
Definition of_left (ev : event) : list seg3 := match ev_ty ev, nth_error E (pred (ev_key ev)) with LineLeft, Some t => [t] | _, _ => [] end.
Definition of_right (ev : event) : list seg3 := match ev_ty ev, nth_error E (pred (ev_key ev)) with LineRight, Some t => [t] | _, _ => [] end.
Lemma lefts : forall p, flat_map of_left (filter (at_pt p) all) = filter (fun t => peqb (ta t) p) E.
Proof.
  intros p. assert (G : forall E2 E1, E = E1 ++ E2 -> flat_map of_left (filter (at_pt p) (all_from (length E1) E2)) = filter (fun t => peqb (ta t) p) E2).
  { induction E2 as [|t E2 IH]; intros E1 Q; [reflexivity|]. assert (Q' : E = (E1 ++ [t]) ++ E2) by (rewrite <- app_assoc; exact Q). specialize (IH _ Q'). rewrite app_length, Nat.add_1_r in IH.
    assert (N : nth_error E (length E1) = Some t) by (rewrite Q, nth_error_app2, Nat.sub_diag by lia; reflexivity).
    cbn [all_from filter]. change (at_pt p (mkEvent (ta t) LineLeft (S (length E1)))) with (peqb (ta t) p). change (at_pt p (mkEvent (tz t) LineRight (S (length E1)))) with (peqb (tz t) p).
    destruct (peqb (ta t) p), (peqb (tz t) p); cbn [flat_map]; rewrite IH; unfold of_left; cbn [ev_ty ev_key pred]; rewrite ?N; reflexivity. }
  apply (G E []). reflexivity.
Qed.
Lemma rights : forall p, flat_map of_right (filter (at_pt p) all) = filter (fun t => peqb (tz t) p) E.
Proof.
  intros p. assert (G : forall E2 E1, E = E1 ++ E2 -> flat_map of_right (filter (at_pt p) (all_from (length E1) E2)) = filter (fun t => peqb (tz t) p) E2).
  { induction E2 as [|t E2 IH]; intros E1 Q; [reflexivity|]. assert (Q' : E = (E1 ++ [t]) ++ E2) by (rewrite <- app_assoc; exact Q). specialize (IH _ Q'). rewrite app_length, Nat.add_1_r in IH.
    assert (N : nth_error E (length E1) = Some t) by (rewrite Q, nth_error_app2, Nat.sub_diag by lia; reflexivity).
    cbn [all_from filter]. change (at_pt p (mkEvent (ta t) LineLeft (S (length E1)))) with (peqb (ta t) p). change (at_pt p (mkEvent (tz t) LineRight (S (length E1)))) with (peqb (tz t) p).
    destruct (peqb (ta t) p), (peqb (tz t) p); cbn [flat_map]; rewrite IH; unfold of_right; cbn [ev_ty ev_key pred]; rewrite ?N; reflexivity. }
  apply (G E []). reflexivity.
Qed.
Definition is_cw (w : winding) : bool := match w with Cw => true | Ccw => false end.
(** At every point as many directed segments arrive as leave. *)
Lemma balance : forall p, nb (fun t => is_cw (tw t)) (filter (fun t => peqb (ta t) p) E) + nb (fun t => negb (is_cw (tw t))) (filter (fun t => peqb (tz t) p) E) =
  nb (fun t => negb (is_cw (tw t))) (filter (fun t => peqb (ta t) p) E) + nb (fun t => is_cw (tw t)) (filter (fun t => peqb (tz t) p) E).
Proof.
  intros p. pose proof (nb_perm (fun v => peqb v p) _ _ EB) as Q. rewrite !nb_map in Q.
  assert (G : forall l, (forall t, In t l -> In t E) -> nb (fun t => peqb (fst (dir t)) p) l = nb (fun t => is_cw (tw t)) (filter (fun t => peqb (ta t) p) l) + nb (fun t => negb (is_cw (tw t))) (filter (fun t => peqb (tz t) p) l) /\
    nb (fun t => peqb (snd (dir t)) p) l = nb (fun t => negb (is_cw (tw t))) (filter (fun t => peqb (ta t) p) l) + nb (fun t => is_cw (tw t)) (filter (fun t => peqb (tz t) p) l)).
  { induction l as [|t l IH]; intros I; [split; reflexivity|]. destruct IH as [I1 I2]; [intros; apply I; right; auto|]. cbn [filter]. rewrite !nb_cons, I1, I2.
    unfold dir, ori. destruct (tw t) eqn:W; cbn [fst snd]; destruct (peqb (ta t) p), (peqb (tz t) p); rewrite ?nb_cons, ?W; cbn [is_cw negb bn]; lia. }
  destruct (G E) as [G1 G2]; auto. lia.
Qed.

(** * The storage *)
Definition nonstart (h : pt) : Prop := forall t, In t E -> ta t <> h.
Definition okseg (p : pt) (k : nat) (g : segment) : Prop :=
  match k with
  | O => m_helper g = None
  | S c => exists t, nth_error E c = Some t /\ m_geom g = Line (ta t) (tz t) /\
      match m_helper g with
      | Some h => tw t = Cw /\ (h_merge h = true -> lex_le (h_point h) p /\ nonstart (h_point h))
      | None => tw t = Ccw
      end
  end.
Definition okst (p : pt) (st : slab segment) : Prop := forall k g, slab_get st k = Some g -> okseg p k g.
Lemma okseg_le : forall p p' k g, lex_le p p' -> okseg p k g -> okseg p' k g.
Proof.
  intros p p' [|c] g L O; auto. destruct O as (t & A & B & C). exists t. split; auto. split; auto. destruct (m_helper g) as [h|]; auto. destruct C as [C1 C2]. split; auto.
  intros M. destruct (C2 M) as [C3 C4]. split; auto. eapply lex_le_trans; eauto.
Qed.
Lemma okst_set : forall p st k g st', okst p st -> okseg p k g -> slab_set st k g = Ok st' -> okst p st'.
Proof.
  intros p st k g st' O Og Q x g' Gx. rewrite (slab_set_inv _ _ _ _ Q) in Gx. destruct (Nat.eqb_spec x k) as [->|N]; auto. injection Gx as <-. exact Og.
Qed.
Lemma at_ok : forall p st k g, okst p st -> seg_at st k = Ok g -> okseg p k g.
Proof. intros p st k g O Q. apply O. apply expect_inv in Q. exact Q. Qed.
Lemma okseg_iw : forall p c g t, okseg p (S c) g -> nth_error E c = Some t -> interior_winding g = tw t /\ m_geom g = Line (ta t) (tz t).
Proof.
  intros p c g t (t' & A & B & C) N. rewrite A in N. injection N as ->. split; auto. unfold interior_winding. destruct (m_helper g) as [h|]; [symmetry; apply C|auto].
Qed.

Definition okh (p : pt) (h : pt) : Prop := lex_lt h p /\ nonstart h.
Definition merges (p : pt) (l : list mlink) : Prop := forall x, In x l -> exists h lim, x = LMerge h p lim /\ okh p h.
Lemma merges_app : forall p l l', merges p l -> merges p l' -> merges p (l ++ l').
Proof. intros p l l' A B x I. apply in_app_or in I as [I|I]; auto. Qed.

Lemma remove_inv : forall p p' ev s links s1 links1, lex_lt p p' -> okst p (ms_segments s) -> handle_remove pick p' ev (s, links) = Ok (s1, links1) ->
  okst p (ms_segments s1) /\ ms_events s1 = ms_events s /\ ms_pt_key s1 = ms_pt_key s /\ exists ms, links1 = links ++ ms /\ merges p' ms /\ (ev_ty ev <> LineRight -> ms = []).
Proof.
  intros p p' ev s links s1 links1 L O Q. unfold handle_remove in Q. assert (Triv : Ok (s, links) = Ok (s1, links1) -> okst p (ms_segments s1) /\ ms_events s1 = ms_events s /\ ms_pt_key s1 = ms_pt_key s /\ exists ms, links1 = links ++ ms /\ merges p' ms /\ (ev_ty ev <> LineRight -> ms = [])).
  { intros Z. injection Z as <- <-. split; auto. split; auto. split; auto. exists []. rewrite app_nil_r. split; auto. split; [intros x []|auto]. }
  destruct (ev_ty ev) eqn:Ty; auto. bnd Q. pose proof (at_ok _ _ _ _ O E0) as Og. bnd Q. destruct x0 as [s2 links2]. chk Q. bnd Q. injection Q as <- <-.
  destruct (m_helper x) as [h|] eqn:Hh; [destruct (h_merge h) eqn:Hm|].
  - bnd E1. injection E1 as <- <-. split; [|split; [|split]]; auto.
    + cbn [ms_segments set_active set_segments]. apply (okst_set _ _ _ _ _ O) in E4; auto. destruct (ev_key ev) as [|c]; [cbn in Og; congruence|]. destruct Og as (t & A & B & C). exists t. split; auto. split; auto. cbn [set_helper m_helper]. rewrite Hh in C. split; [apply C|]. discriminate.
    + exists [LMerge (h_point h) p' None]. split; auto. split; [|congruence]. intros y [<-|[]]. exists (h_point h), None. split; auto. destruct (ev_key ev) as [|c]; [cbn in Og; congruence|]. destruct Og as (t & A & B & C). rewrite Hh in C. destruct C as [_ C]. destruct (C Hm) as [C1 C2]. split; auto. lord.
  - injection E1 as <- <-. split; auto. split; auto. split; auto. exists []. rewrite app_nil_r. split; auto. split; [intros y []|auto].
  - injection E1 as <- <-. split; auto. split; auto. split; auto. exists []. rewrite app_nil_r. split; auto. split; [intros y []|auto].
Qed.
Lemma fix_inv : forall p p' ix force ism s links s1 links1 top bot, lex_lt p p' -> okst p (ms_segments s) -> (ism = true -> nonstart p') ->
  (top, bot) = match ix_interior ix with Ccw => (ix_other1 ix, ix_other2 ix) | Cw => (ix_other2 ix, ix_other1 ix) end ->
  fix_up pick p' ix force ism (s, links) = Ok (s1, links1) ->
  okst p' (ms_segments s1) /\ ms_events s1 = ms_events s /\ ms_pt_key s1 = ms_pt_key s /\
  exists h, (okh p' h /\ links1 = links ++ [LMerge h p' (Some (top, bot))]) \/ (force = true /\ links1 = links ++ [LSplit h p' top bot]) \/ (force = false /\ links1 = links).
Proof.
  intros p p' ix force ism s links s1 links1 top bot L O Ns TB Q. unfold fix_up in Q. bnd Q. bnd Q. bnd Q. bnd Q. rewrite <- TB in Q. bnd Q. injection Q as <- <-.
  apply expect_inv in E1. apply expect_inv in E3. pose proof (at_ok _ _ _ _ O E2) as Og. rename x2 into h. cbn [set_segments ms_segments ms_events ms_pt_key]. split; [|split; [|split]]; auto.
  - apply (okst_set _ _ _ _ _ (fun k g Z => okseg_le p p' k g (lex_lt_le _ _ L) (O k g Z)) ) in E4; auto. destruct x0 as [|c]; [cbn in Og; congruence|]. destruct Og as (t & A & B & C). exists t. split; auto. split; auto. cbn [set_helper m_helper]. rewrite E3 in C. split; [apply C|]. cbn [h_merge h_point].
    intros M. split; [lord|]. apply Ns. destruct ism; auto. exfalso. destruct (h_merge h), force; cbn in M; discriminate.
  - exists (h_point h). destruct (h_merge h) eqn:Hm; cbn [orb].
    + left. split; auto. destruct x0 as [|c]; [cbn in Og; congruence|]. destruct Og as (t & A & B & C). rewrite E3 in C. destruct C as [_ C]. destruct (C Hm) as [C1 C2]. split; auto. lord.
    + destruct force; auto.
Qed.
Lemma insert_inv : forall ev s s1, handle_insert pick ev s = Ok s1 -> ms_segments s1 = ms_segments s /\ ms_events s1 = ms_events s /\ ms_pt_key s1 = ms_pt_key s.
Proof.
  intros ev s s1 Q. unfold handle_insert in Q. destruct (ev_ty ev); try (injection Q as <-; auto). chk Q. bnd Q. injection Q as <-. auto.
Qed.

(** * One event *)
Inductive edesc (p : pt) : vertex_type -> list mlink -> list seg3 -> list seg3 -> Prop :=
| ed_start : forall t1 t2, tw t1 = Cw -> tw t2 = Ccw -> edesc p VStart [LStart p (tz t1) (tz t2)] [t1; t2] []
| ed_split : forall h t1 t2, tw t1 = Ccw -> tw t2 = Cw -> edesc p VSplit [LSplit h p (tz t1) (tz t2)] [t1; t2] []
| ed_split_merge : forall h t1 t2, tw t1 = Ccw -> tw t2 = Cw -> okh p h -> edesc p VSplit [LMerge h p (Some (tz t1, tz t2))] [t1; t2] []
| ed_cont : forall ms t1 t2 i, merges p ms -> tw t1 = tw t2 -> edesc p VContinue (ms ++ [LContinue (ta t1) p (tz t2) i]) [t2] [t1]
| ed_merge : forall ms t1 t2, merges p ms -> tw t1 <> tw t2 -> edesc p VMerge ms [] [t1; t2]
| ed_end : forall ms t1 t2 a b, merges p ms -> tw t1 <> tw t2 -> edesc p VEnd (ms ++ [LEnd a b p]) [] [t1; t2].
Record jinv (p : pt) (s : msweep) : Prop := {
  j_seg : okst p (ms_segments s);
  j_key : ms_pt_key s = 0;
  j_perm : Permutation (ms_events s) (filter (after p) all);
  j_srt : StronglySorted ev_le (ms_events s) }.

Lemma find_inv : forall p s s1 ix, find_intersection_type s p = Ok (s1, ix) ->
  exists e1 e2 evs s2 s3, ms_events s = e1 :: e2 :: evs /\ events_at p (ms_events s) = 2 /\ s1 = mkMsweep (ms_segments s) (ms_pt_key s) evs (ms_active s) /\
    ix_event1 ix = e1 /\ ix_event2 ix = e2 /\ seg_at (ms_segments s) (ev_key e1) = Ok s2 /\ seg_at (ms_segments s) (ev_key e2) = Ok s3 /\
    other_end e1 s2 = Ok (ix_other1 ix) /\ other_end e2 s3 = Ok (ix_other2 ix) /\ ix_interior ix = interior_winding s2 /\ ev_point e1 = p /\ ev_point e2 = p /\
    match ev_ty e1, ev_ty e2 with
    | LineRight, LineRight => ix_ty ix = VEnd \/ ix_ty ix = VMerge
    | LineLeft, LineLeft => ix_ty ix = VSplit \/ ix_ty ix = VStart
    | LineRight, LineLeft | LineLeft, LineRight => ix_ty ix = VContinue
    | _, _ => False
    end.
Proof.
  intros p s s1 ix Q. unfold find_intersection_type in Q. chk Q. apply Nat.eqb_eq in E0. destruct (ms_events s) as [|e1 [|e2 evs]]; try discriminate. bnd Q. bnd Q. bnd Q. bnd Q. chk Q. bnd Q. injection Q as <- <-.
  apply andb_true_iff in E5 as [P1 P2]. apply peqb_iff in P1. apply peqb_iff in P2.
  exists e1, e2, evs, x, x0. cbn [ix_event1 ix_event2 ix_other1 ix_other2 ix_interior ix_ty]. repeat (split; [solve [auto]|]).
  destruct (ev_ty e1), (ev_ty e2); try discriminate E6; try (injection E6 as <-; reflexivity); bnd E6; injection E6 as <-; destruct (winding_eqb _ _); auto.
Qed.
Lemma other_inv : forall ev g t q, other_end ev g = Ok q -> m_geom g = Line (ta t) (tz t) ->
  (ev_ty ev = LineLeft /\ q = tz t) \/ (ev_ty ev = LineRight /\ q = ta t).
Proof.
  intros ev g t q Q G. unfold other_end in Q. chk Q. rewrite G in Q. cbn [lop_line l_start l_end] in Q. destruct (ev_ty ev); try discriminate; injection Q as <-; auto.
Qed.

Theorem event_inv : forall p s s' o, jinv p s -> process_event pick s = Ok (s', o) ->
  (ms_events s = [] /\ o = None) \/
  exists p' ty links St En, lex_lt p p' /\ (forall t, In t E -> (lex_le (ta t) p \/ lex_le p' (ta t)) /\ (lex_le (tz t) p \/ lex_le p' (tz t))) /\
    o = Some (mkSweepEvent p' ty links) /\ edesc p' ty links St En /\
    Permutation St (filter (fun t => peqb (ta t) p') E) /\ Permutation En (filter (fun t => peqb (tz t) p') E) /\ jinv p' s'.
Proof.
  intros p s s' o [Js Jk Jp Jo] Q. unfold process_event in Q. destruct (ms_events s) as [|e0 rest] eqn:Ev; [left; injection Q as _ <-; auto|right].
  set (p' := ev_point e0) in *. bnd Q. destruct x as [s1 ix]. rename E0 into Fi. apply find_inv in Fi as (e1 & e2 & evs & g1 & g2 & F1 & F2 & F3 & F4 & F5 & F6 & F7 & F8 & F9 & F10 & F11 & F12 & F13).
  rewrite Ev in F1. injection F1 as <- ->. rewrite Ev in F2.
  assert (Aft : forall ev, In ev (e0 :: e2 :: evs) -> lex_lt p (ev_point ev) /\ In ev all) by (intros ev I; apply (Permutation_in _ Jp) in I; apply filter_In in I as [I J]; split; auto; apply pltb_iff in J; exact J).
  assert (Lp : lex_lt p p') by (apply Aft; left; auto).
  assert (Ge : forall ev, In ev (e0 :: e2 :: evs) -> lex_le p' (ev_point ev)).
  { intros ev [<-|I]; [lord|]. inversion Jo as [|? ? _ F]; subst. rewrite Forall_forall in F. apply F. exact I. }
  destruct (front p' _ Jo Ge) as [Fr1 Fr2]. rewrite F2 in Fr2.
  assert (Ats : filter (at_pt p') (e0 :: e2 :: evs) = [e0; e2] /\ filter (after p') (e0 :: e2 :: evs) = evs).
  { revert Fr1 Fr2. generalize (filter (at_pt p') (e0 :: e2 :: evs)) (filter (after p') (e0 :: e2 :: evs)). intros A B Fr1 Fr2. destruct A as [|x [|y [|? ?]]]; try discriminate Fr2. cbn [app] in Fr1. injection Fr1 as <- <- <-. auto. }
  destruct Ats as [At1 At2].
  assert (PA : Permutation (filter (at_pt p') all) [e0; e2]).
  { rewrite <- At1. rewrite <- (filter_filter (after p) (at_pt p') all); [apply perm_filter; symmetry; exact Jp|]. intros ev Z. unfold at_pt in Z. apply peqb_iff in Z. unfold after. rewrite Z. apply pltb_iff. exact Lp. }
  assert (PB : Permutation evs (filter (after p') all)).
  { rewrite <- At2 at 1. rewrite <- (filter_filter (after p) (after p') all); [apply perm_filter; exact Jp|]. intros ev Z. unfold after in *. apply pltb_iff in Z. apply pltb_iff. lord. }
  pose proof (flat_perm of_left _ _ PA) as LL. rewrite lefts in LL. pose proof (flat_perm of_right _ _ PA) as RR. rewrite rights in RR. cbn [flat_map] in LL, RR. rewrite app_nil_r in LL, RR.
  destruct (in_all E 0 e0) as (c1 & t1 & N1 & K1 & T1); [apply Aft; left; auto|]. destruct (in_all E 0 e2) as (c2 & t2 & N2 & K2 & T2); [apply Aft; right; left; auto|]. cbn [Nat.add] in K1, K2.
  unfold of_left, of_right in LL, RR. rewrite K1, K2 in LL, RR. cbn [pred] in LL, RR. rewrite N1, N2 in LL, RR. rewrite K1 in F6. rewrite K2 in F7.
  pose proof (at_ok _ _ _ _ Js F6) as O1. pose proof (at_ok _ _ _ _ Js F7) as O2. destruct (okseg_iw _ _ _ _ O1 N1) as [W1 G1]. destruct (okseg_iw _ _ _ _ O2 N2) as [W2 G2].
  pose proof (other_inv _ _ _ _ F8 G1) as X1. pose proof (other_inv _ _ _ _ F9 G2) as X2. rewrite W1 in F10.
  assert (I1 : In t1 E) by (apply (nth_error_In _ _ N1)). assert (I2 : In t2 E) by (apply (nth_error_In _ _ N2)).
  (* the storage and the removals *)
  bnd Q. rename x into s2. rename E0 into Sp. unfold store_point in Sp. bnd Sp. injection Sp as <-. rename x into st. subst s1. cbn [ms_segments ms_pt_key] in E0. rewrite Jk in E0.
  assert (Os : okst p st) by (apply (okst_set p _ 0 _ _ Js) in E0; auto; reflexivity).
  bnd Q. destruct x as [s3 l3]. rename E1 into R1. apply remove_inv with (p := p) in R1 as (O3 & V3 & Y3 & m1 & -> & M1 & M1'); auto. cbn [set_segments ms_events ms_pt_key] in V3, Y3.
  bnd Q. destruct x as [s4 l4]. rename E1 into R2. apply remove_inv with (p := p) in R2 as (O4 & V4 & Y4 & m2 & -> & M2 & M2'); auto. cbn [app] in *. rewrite V3 in V4. rewrite Y3 in Y4.
  rewrite F4, F5, K1, K2 in Q. bnd Q. rename x into g3. bnd Q. rename x into g4. chk Q.
  assert (W3 : interior_winding g3 = tw t1) by (apply (okseg_iw p c1); auto; apply (at_ok _ _ _ _ O4 E1)).
  assert (W4 : interior_winding g4 = tw t2) by (apply (okseg_iw p c2); auto; apply (at_ok _ _ _ _ O4 E2)).
  bnd Q. destruct x as [s5 l5]. rename E4 into VL. bnd Q. rename x into s6. bnd Q. rename x into s7. injection Q as <- <-.
  apply insert_inv in E4 as (A1 & A2 & A3). apply insert_inv in E5 as (B1 & B2 & B3).
  rewrite F4, F5 in *.
  assert (Bal := balance p').
  assert (Fin : forall okk : okst p' (ms_segments s5), ms_events s5 = evs -> ms_pt_key s5 = 0 -> jinv p' s7).
  { intros okk Z1 Z2. constructor.
    - rewrite B1, A1. exact okk.
    - congruence.
    - rewrite B2, A2, Z1. exact PB.
    - rewrite B2, A2, Z1. inversion Jo as [|? ? J1 _]; subst. inversion J1; auto. }
  assert (Base : forall t, In t E -> (lex_le (ta t) p \/ lex_le p' (ta t)) /\ (lex_le (tz t) p \/ lex_le p' (tz t))).
  { assert (Z : forall ev, In ev all -> lex_le (ev_point ev) p \/ lex_le p' (ev_point ev)).
    { intros ev I. destruct (pltb_spec p (ev_point ev)) as [C|C]; [right|left; lord]. apply Ge. apply (Permutation_in _ (Permutation_sym Jp)). apply filter_In. split; auto. unfold after. apply pltb_iff. exact C. }
    intros t I. destruct (in_ends E 0 t I) as [(ea & A & <-) (ez & B & <-)]. auto. }
  assert (O4' : okst p' (ms_segments s4)) by (intros k g Z; apply (okseg_le p); [lord|apply O4; exact Z]).
  rewrite !(nb_perm _ _ _ LL), !(nb_perm _ _ _ RR) in Bal.
  exists p', (ix_ty ix), l5.
  unfold vertex_links in VL. rewrite F10 in VL.
  destruct X1 as [[X1 Y1]|[X1 Y1]], X2 as [[X2 Y2]|[X2 Y2]]; rewrite X1, X2 in F13, LL, RR, Bal; cbn [app] in LL, RR, Bal.
  - (* both start here *)
    rewrite M1', M2' in VL by congruence. cbn [app] in VL. rewrite Y1, Y2 in VL.
    assert (Op : (tw t1 = Cw /\ tw t2 = Ccw) \/ (tw t1 = Ccw /\ tw t2 = Cw)).
    { clear - Bal. revert Bal. unfold nb. cbn [filter]. destruct (tw t1), (tw t2); cbn; intros Zb; auto; discriminate Zb. }
    destruct F13 as [F13|F13]; rewrite F13 in *.
    + destruct (fix_inv p p' ix true false s4 [] s5 l5 (if is_cw (tw t1) then tz t2 else tz t1) (if is_cw (tw t1) then tz t1 else tz t2)) as (Z1 & Z2 & Z3 & h & Z); auto; try discriminate.
      { rewrite F10, Y1, Y2. destruct (tw t1); reflexivity. }
      { destruct (tw t1); exact VL. }
      destruct Op as [[T1' T2']|[T1' T2']]; rewrite T1' in Z; cbn [is_cw app] in Z.
      * exists [t2; t1], []. split; auto. split; auto. split; auto. split; [|split; [etransitivity; [apply perm_swap|symmetry; exact LL]|split; [symmetry; exact RR|apply Fin; [assumption|congruence|congruence]]]].
        destruct Z as [[Z ->]|[[_ ->]|[Z _]]]; [apply ed_split_merge; auto|apply ed_split; auto|discriminate].
      * exists [t1; t2], []. split; auto. split; auto. split; auto. split; [|split; [symmetry; exact LL|split; [symmetry; exact RR|apply Fin; [assumption|congruence|congruence]]]].
        destruct Z as [[Z ->]|[[_ ->]|[Z _]]]; [apply ed_split_merge; auto|apply ed_split; auto|discriminate].
    + destruct Op as [[T1' T2']|[T1' T2']]; rewrite T1' in VL; injection VL as <- <-.
      * exists [t1; t2], []. split; auto. split; auto. split; auto. split; [apply ed_start; auto|split; [symmetry; exact LL|split; [symmetry; exact RR|apply Fin; [assumption|congruence|congruence]]]].
      * exists [t2; t1], []. split; auto. split; auto. split; auto. split; [apply ed_start; auto|split; [etransitivity; [apply perm_swap|symmetry; exact LL]|split; [symmetry; exact RR|apply Fin; [assumption|congruence|congruence]]]].
  - (* the second ends here, the first starts *)
    assert (Op : tw t2 = tw t1) by (clear - Bal; revert Bal; unfold nb; cbn [filter]; destruct (tw t1), (tw t2); cbn; intros Zb; auto; discriminate Zb).
    exists [t1], [t2]. rewrite F13 in *. split; auto. split; auto. split; auto. rewrite W3 in VL.
    assert (Lt : pcmp (ta t2) (tz t1) = Lt).
    { pose proof (EL t1 I1) as Z1. pose proof (EL t2 I2) as Z2. destruct T1 as [[T1 T1']|[T1 T1']]; [|congruence]. destruct T2 as [[T2 T2']|[T2 T2']]; [congruence|]. rewrite F12 in T2'. fold p' in T1'. rewrite <- T1' in Z1. rewrite <- T2' in Z2. destruct (pcmp_spec (ta t2) (tz t1)) as [Z|Z|Z]; auto; [rewrite Z in Z2|]; lord. }
    assert (Gt : pcmp (tz t1) (ta t2) = Gt) by (destruct (pcmp_spec (ta t2) (tz t1)) as [Z|Z|Z]; try discriminate; destruct (pcmp_spec (tz t1) (ta t2)) as [Z'|Z'|Z']; auto; [rewrite Z' in Z|]; lord).
    destruct (match tw t1 with Cw => (ix_other1 ix, ix_other2 ix) | Ccw => (ix_other2 ix, ix_other1 ix) end) as [u1 u2]. bnd VL. destruct x as [s8 l8]. rewrite Y1, Y2, Gt in VL. cbn [bind] in VL. injection VL as <- <-.
    assert (Fx : okst p' (ms_segments s8) /\ ms_events s8 = ms_events s4 /\ ms_pt_key s8 = ms_pt_key s4 /\ merges p' l8).
    { destruct (tw t1); [injection E4 as <- <-; auto using merges_app|]. destruct (match ix_interior ix with Ccw => (ix_other1 ix, ix_other2 ix) | Cw => (ix_other2 ix, ix_other1 ix) end) as [tp bt] eqn:TB.
      destruct (fix_inv p p' ix false false s4 (m1 ++ m2) s8 l8 tp bt) as (Z1 & Z2 & Z3 & h & Z); auto; try discriminate. split; auto. split; auto. split; auto. destruct Z as [[Z ->]|[[Z _]|[_ ->]]]; [|discriminate|auto using merges_app].
      apply merges_app; [auto using merges_app|]. intros y [<-|[]]. exists h, (Some (tp, bt)). auto. }
    destruct Fx as (Z1 & Z2 & Z3 & Z4). split; [apply ed_cont; auto|split; [symmetry; exact LL|split; [symmetry; exact RR|apply Fin; [assumption|congruence|congruence]]]].
  - (* the first ends here, the second starts *)
    assert (Op : tw t1 = tw t2) by (clear - Bal; revert Bal; unfold nb; cbn [filter]; destruct (tw t1), (tw t2); cbn; intros Zb; auto; discriminate Zb).
    exists [t2], [t1]. rewrite F13 in *. split; auto. split; auto. split; auto. rewrite W3 in VL.
    assert (Lt : pcmp (ta t1) (tz t2) = Lt).
    { pose proof (EL t1 I1) as Z1. pose proof (EL t2 I2) as Z2. destruct T1 as [[T1 T1']|[T1 T1']]; [congruence|]. destruct T2 as [[T2 T2']|[T2 T2']]; [|congruence]. rewrite F12 in T2'. fold p' in T1'. rewrite <- T1' in Z1. rewrite <- T2' in Z2. destruct (pcmp_spec (ta t1) (tz t2)) as [Z|Z|Z]; auto; [rewrite Z in Z1|]; lord. }
    destruct (match tw t1 with Cw => (ix_other1 ix, ix_other2 ix) | Ccw => (ix_other2 ix, ix_other1 ix) end) as [u1 u2]. bnd VL. destruct x as [s8 l8]. rewrite Y1, Y2, Lt in VL. cbn [bind] in VL. injection VL as <- <-.
    assert (Fx : okst p' (ms_segments s8) /\ ms_events s8 = ms_events s4 /\ ms_pt_key s8 = ms_pt_key s4 /\ merges p' l8).
    { destruct (tw t1); [injection E4 as <- <-; auto using merges_app|]. destruct (match ix_interior ix with Ccw => (ix_other1 ix, ix_other2 ix) | Cw => (ix_other2 ix, ix_other1 ix) end) as [tp bt] eqn:TB.
      destruct (fix_inv p p' ix false false s4 (m1 ++ m2) s8 l8 tp bt) as (Z1 & Z2 & Z3 & h & Z); auto; try discriminate. split; auto. split; auto. split; auto. destruct Z as [[Z ->]|[[Z _]|[_ ->]]]; [|discriminate|auto using merges_app].
      apply merges_app; [auto using merges_app|]. intros y [<-|[]]. exists h, (Some (tp, bt)). auto. }
    destruct Fx as (Z1 & Z2 & Z3 & Z4). split; [apply ed_cont; auto|split; [symmetry; exact LL|split; [symmetry; exact RR|apply Fin; [assumption|congruence|congruence]]]].
  - (* both end here *)
    assert (Op : tw t1 <> tw t2) by (intros Z; clear - Bal Z; revert Bal; unfold nb; cbn [filter]; rewrite Z; destruct (tw t2); cbn; intros Zb; discriminate Zb).
    exists [], [t1; t2]. split; auto. split; auto. split; auto.
    destruct (match tw t1 with Cw => (ix_other1 ix, ix_other2 ix) | Ccw => (ix_other2 ix, ix_other1 ix) end) as [u1 u2].
    destruct F13 as [F13|F13]; rewrite F13 in *.
    + injection VL as <- <-. split; [apply ed_end; auto using merges_app|split; [symmetry; exact LL|split; [symmetry; exact RR|apply Fin; [assumption|congruence|congruence]]]].
    + destruct (match ix_interior ix with Ccw => (ix_other1 ix, ix_other2 ix) | Cw => (ix_other2 ix, ix_other1 ix) end) as [tp bt] eqn:TB.
      destruct (fix_inv p p' ix false true s4 (m1 ++ m2) s5 l5 tp bt) as (Z1 & Z2 & Z3 & h & Z); auto.
      { intros _ t I Z. assert (J : In t (filter (fun t => peqb (ta t) p') E)) by (apply filter_In; split; auto; apply peqb_iff; exact Z). apply (Permutation_in _ LL) in J. destruct J. }
      split; [|split; [symmetry; exact LL|split; [symmetry; exact RR|apply Fin; [assumption|congruence|congruence]]]]. apply ed_merge; auto.
      destruct Z as [[Z ->]|[[Z _]|[_ ->]]]; [|discriminate|auto using merges_app]. apply merges_app; [auto using merges_app|]. intros y [<-|[]]. exists h, (Some (tp, bt)). auto.
Qed.
End Sweep.
