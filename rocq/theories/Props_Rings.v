(** C45, C46: ring assembly uses every edge once, and its rings repeat no vertex.
    C52: edges of even degree at every vertex are not enough. *)
Require Import List String Bool Arith Lia Permutation Sorted ZArith.
From Verif Require Import Base Scalar M_Events M_Geo M_LineOrPoint M_Slab S_Geo P_Geo P_LineOrPoint M_MonoPoly S_Mono P_Mono M_Rings S_Rings P_Rings P_RingWalk P_RingFinish.
Import ListNotations.
Local Open Scope list_scope.

Lemma alternate_pre : forall l l', alternate (l ++ l') -> alternate l.
Proof.
  intros l. remember (List.length l) as n. revert l Heqn. induction n as [n IH] using lt_wf_ind.
  intros [|x [|y l]] -> l' A; simpl in *; auto. destruct A as [A B]. split; auto. apply (IH (List.length l)) with (l' := l'); auto.
Qed.
Lemma add_all : forall es es0 r, inv r es0 -> (forall e, In e es -> exists a b, fst e = Line a b /\ lex_lt a b) ->
  (forall p, alternate (turns p (es0 ++ es))) ->
  exists r', fold_res (fun r e => add_edge r (fst e) (snd e)) r es = Ok r' /\ inv r' (es0 ++ es).
Proof.
  induction es as [|[l w] es IH]; intros es0 r I N A; simpl.
  - exists r. rewrite app_nil_r. auto.
  - destruct (N (l, w)) as [a [b [E L]]]; [left; auto|]. simpl in E. subst l.
    replace (es0 ++ (Line a b, w) :: es) with ((es0 ++ [(Line a b, w)]) ++ es) in * by (rewrite <- app_assoc; reflexivity).
    destruct (add_edge_inv r es0 a b w I) as [r' [E I']].
    + intros ->. clear - L. lord.
    + intros p. specialize (A p). rewrite turns_app in A. eapply alternate_pre; eauto.
    + rewrite E. simpl. apply IH; auto. intros e He. apply N. right. auto.
Qed.

Lemma inv_closed : forall r es, inv r es -> (forall p, Nat.even (List.length (turns p es)) = true) -> closed (rg_chains r).
Proof.
  intros r es I E i c f H N. destruct (next c f) as [b|] eqn:X.
  - destruct (i_sym _ _ I _ _ _ _ H X) as [d [A [B G]]]. exists b, d. split; auto. split; auto. split; auto.
    apply items_ne. apply (i_items _ _ I _ _ A).
  - exfalso. assert (G : map_get (rg_ends r) (end_pt c f) = Some (mkLink i f)) by (apply (i_open _ _ I); exists c; auto).
    pose proof (i_pend _ _ I (end_pt c f)) as P. rewrite G in P. destruct P as [d [l [_ [El Et]]]].
    specialize (E (end_pt c f)). rewrite Et, app_length, Nat.even_add, El in E. discriminate.
Qed.

Lemma assembled : forall es, ring_input es ->
  exists rs, rings_of es = Ok rs /\ Forall (fun r => proper_ring (r_coords r)) rs /\ Permutation (map directed es) (flat_map region_left rs).
Proof.
  intros es [N [F A]]. destruct (add_all es [] rings_default inv_start N) as [r [E I]].
  { intros p. apply A. }
  simpl in I. unfold rings_of. rewrite E. cbn [bind]. unfold finish.
  destruct (finish_ok (List.length (rg_chains r)) (rg_chains r) []) as [rs [E1 [E2 E3]]]; auto.
  - eapply inv_closed; eauto. intros p. apply A.
  - intros i c H _. apply (i_items _ _ I _ _ H).
  - intros i c K H. exfalso. apply nth_error_None in K. congruence.
  - eapply fop_perm; [apply touch_sym|apply (i_perm _ _ I)|auto].
  - apply (Permutation_Forall (i_perm _ _ I)). apply Forall_map. apply Forall_forall. intros [l w] He. destruct (N _ He) as [a [b [El L]]].
    simpl in El. subst l. assert (a <> b) by (intros ->; clear - L; lord). unfold directed. destruct w; simpl; congruence.
  - exists rs. split; [rewrite E1; reflexivity|]. split; auto. rewrite (i_perm _ _ I). auto.
Qed.

(** C45: no panic; all output rings are closed; directed so that the region is
    on their left, the edges of the output rings are exactly those of the input. *)
Theorem C45_every_edge_once : forall es, ring_input es ->
  exists rs, rings_of es = Ok rs /\ Forall (fun r => ls_is_closed (r_coords r) = true) rs /\
    Permutation (map directed es) (flat_map region_left rs).
Proof.
  intros es H. destruct (assembled es H) as [rs [E [P M]]]. exists rs. split; auto. split; auto.
  eapply Forall_impl; [|exact P]. intros r [p [l [-> _]]]. apply closed_pts.
Qed.
(** C46: every output ring goes through its vertices once; it has at least
    three, and a winding order. *)
Theorem C46_rings_repeat_no_vertex : forall es rs, ring_input es -> rings_of es = Ok rs ->
  Forall (fun r => proper_ring (r_coords r)) rs.
Proof. intros es rs H E. destruct (assembled es H) as [rs' [E' [P _]]]. congruence. Qed.


(** ** What ring assembly needs *)
Definition alternate_dec : forall l, {alternate l} + {~ alternate l}.
Proof.
  intros l. remember (List.length l) as n. revert l Heqn. induction n as [n IH] using lt_wf_rec.
  intros [|x [|y l]] ->; simpl; auto. destruct (bool_dec x y) as [E|E]; [right; tauto|].
  destruct (IH (List.length l)) with (l := l) as [A|A]; simpl; auto. right. tauto.
Qed.
Lemma alternate_even : forall l x, alternate l -> Nat.even (List.length l) = true -> alternate (l ++ [x]).
Proof.
  intros l. remember (List.length l) as n. revert l Heqn. induction n as [n IH] using lt_wf_ind.
  intros [|y [|z l]] -> x A E; simpl in *; auto; try discriminate. destruct A as [A B]. split; auto. apply (IH (List.length l)); auto.
Qed.
Lemma alternate_odd : forall l y x, alternate (l ++ [y]) -> Nat.even (List.length l) = true -> y <> x -> alternate ((l ++ [y]) ++ [x]).
Proof.
  intros l. remember (List.length l) as n. revert l Heqn. induction n as [n IH] using lt_wf_ind.
  intros [|u [|z l]] -> y x A E N; simpl in *; auto; try discriminate. destruct A as [A B]. split; auto. apply (IH (List.length l)); auto.
Qed.
Lemma push_link_bad : forall cs l q c w, nth_error cs (k_idx l) = Some c -> next c (k_front l) = None ->
  out_w c (k_front l) <> w -> exists m, push_link cs l q w = Panic m.
Proof.
  intros cs [i f] q c w H N W. simpl in *. unfold push_link, chain_at. simpl. rewrite H. simpl. destruct f; simpl in *.
  - unfold push_front. rewrite N. simpl. destruct (ch_winding c), w; simpl in *; try congruence; eauto.
  - unfold push_back. rewrite N. simpl. destruct (ch_winding c), w; simpl in *; try congruence; eauto.
Qed.
Lemma link_chains_bad : forall cs i j c d w, i <> j -> nth_error cs (k_idx i) = Some c -> next c (k_front i) = None ->
  nth_error cs (k_idx j) = Some d -> next d (k_front j) = None -> (out_w c (k_front i) <> w \/ out_w d (k_front j) <> winding_inverse w) ->
  exists m, link_chains cs i j w = Panic m.
Proof.
  intros cs i j c d w N Hc Nc Hd Nd B. unfold link_chains, chain_at. rewrite Hc. cbn [bind expect].
  destruct (out_w c (k_front i)) eqn:Wc, w; try (destruct (k_front i); simpl in *; [unfold link_front|unfold link_back]; rewrite Nc; simpl;
    destruct (ch_winding c); simpl in *; try discriminate; eauto; fail).
  - destruct B as [B|B]; [congruence|].
    assert (X : exists c', (if k_front i then let* c' := link_front c j in let* _ := check (winding_eqb (ch_winding c') (winding_inverse Cw)) "rings.rs:164 debug_assert_eq" in Ok (list_set (k_idx i) c' cs)
      else let* c' := link_back c j in let* _ := check (winding_eqb (ch_winding c') Cw) "rings.rs:167 debug_assert_eq" in Ok (list_set (k_idx i) c' cs)) = Ok (list_set (k_idx i) c' cs) /\
      c' = linked c (k_front i) j).
    { eexists. split; [|reflexivity]. destruct (k_front i); simpl in *; [unfold link_front|unfold link_back]; rewrite Nc; simpl; destruct (ch_winding c); try discriminate; reflexivity. }
    destruct X as [c' [-> ->]]. cbn [bind].
    destruct (Nat.eq_dec (k_idx j) (k_idx i)) as [E|E].
    + rewrite E, (set_nth_eq _ _ c) by auto. cbn [expect bind]. rewrite E, Hc in Hd. injection Hd as <-.
      assert (K : k_front j <> k_front i) by (intros K; apply N; destruct i, j; simpl in *; congruence).
      destruct (k_front j), (k_front i); try congruence; simpl in *; [unfold link_front|unfold link_back]; simpl; rewrite ?Nd; simpl; destruct (ch_winding c); simpl in *; try discriminate; try congruence; eauto.
    + rewrite set_nth_ne, Hd by auto. cbn [expect bind].
      destruct (k_front j); simpl in *; [unfold link_front|unfold link_back]; rewrite Nd; simpl; destruct (ch_winding d); simpl in *; try discriminate; try congruence; eauto.
  - destruct B as [B|B]; [congruence|].
    assert (X : exists c', (if k_front i then let* c' := link_front c j in let* _ := check (winding_eqb (ch_winding c') (winding_inverse Ccw)) "rings.rs:164 debug_assert_eq" in Ok (list_set (k_idx i) c' cs)
      else let* c' := link_back c j in let* _ := check (winding_eqb (ch_winding c') Ccw) "rings.rs:167 debug_assert_eq" in Ok (list_set (k_idx i) c' cs)) = Ok (list_set (k_idx i) c' cs) /\
      c' = linked c (k_front i) j).
    { eexists. split; [|reflexivity]. destruct (k_front i); simpl in *; [unfold link_front|unfold link_back]; rewrite Nc; simpl; destruct (ch_winding c); try discriminate; reflexivity. }
    destruct X as [c' [-> ->]]. cbn [bind].
    destruct (Nat.eq_dec (k_idx j) (k_idx i)) as [E|E].
    + rewrite E, (set_nth_eq _ _ c) by auto. cbn [expect bind]. rewrite E, Hc in Hd. injection Hd as <-.
      assert (K : k_front j <> k_front i) by (intros K; apply N; destruct i, j; simpl in *; congruence).
      destruct (k_front j), (k_front i); try congruence; simpl in *; [unfold link_front|unfold link_back]; simpl; rewrite ?Nd; simpl; destruct (ch_winding c); simpl in *; try discriminate; try congruence; eauto.
    + rewrite set_nth_ne, Hd by auto. cbn [expect bind].
      destruct (k_front j); simpl in *; [unfold link_front|unfold link_back]; rewrite Nd; simpl; destruct (ch_winding d); simpl in *; try discriminate; try congruence; eauto.
Qed.
(** At the end of the new edge where the order goes wrong a chain waits whose
    winding does not fit. *)
Lemma bad_end : forall r es e p x, inv r es -> turns p [e] = [x] -> alternate (turns p es) -> ~ alternate (turns p (es ++ [e])) ->
  exists i c, map_get (rg_ends r) p = Some i /\ nth_error (rg_chains r) (k_idx i) = Some c /\ next c (k_front i) = None /\
    winding_eqb (out_w c (k_front i)) Cw = x.
Proof.
  intros r es e p x I T A B. rewrite turns_app, T in B. pose proof (i_pend _ _ I p) as P.
  destruct (map_get (rg_ends r) p) as [i|] eqn:G; [|exfalso; apply B; apply alternate_even; auto].
  destruct P as [c [l [Hc [El Et]]]]. exists i, c. split; auto. split; auto. split.
  - apply (i_open _ _ I) in G. destruct G as [c' [Hc' [_ N]]]. congruence.
  - rewrite Et in A, B. destruct (bool_dec (winding_eqb (out_w c (k_front i)) Cw) x) as [E|E]; auto. exfalso. apply B. apply alternate_odd; auto.
Qed.
Lemma add_edge_bad : forall r es a b w p, inv r es -> a <> b -> (forall p, alternate (turns p es)) ->
  ~ alternate (turns p (es ++ [(Line a b, w)])) -> exists m, add_edge r (Line a b) w = Panic m.
Proof.
  intros r es a b w p I N A B. unfold add_edge. cbn [lop_first lop_second].
  assert (OPEN : forall q k, map_get (rg_ends r) q = Some k -> exists d, nth_error (rg_chains r) (k_idx k) = Some d /\ next d (k_front k) = None).
  { intros q k G. apply (i_open _ _ I) in G. destruct G as [d [X [_ Y]]]. eauto. }
  destruct (pt_dec p a) as [->|Na].
  - destruct (bad_end r es (Line a b, w) a (winding_eqb w Ccw) I) as [i [c [G [Hc [Nc W]]]]]; auto.
    { rewrite turns_new, peqb_refl; auto. }
    assert (W' : out_w c (k_front i) <> w) by (destruct (out_w c (k_front i)), w; simpl in W; congruence).
    rewrite G. destruct (map_get (rg_ends r) b) as [j|] eqn:Gb.
    + destruct (OPEN _ _ Gb) as [d [Hd Nd]]. destruct (link_chains_bad (rg_chains r) i j c d w) as [m ->]; auto; [|simpl; eauto].
      intros ->. assert (Some a = Some b); [|congruence]. apply (i_open _ _ I) in G. apply (i_open _ _ I) in Gb.
      destruct G as [? [? [? _]]], Gb as [? [? [? _]]]. congruence.
    + destruct (push_link_bad (rg_chains r) i b c w Hc Nc W') as [m ->]. simpl. eauto.
  - destruct (pt_dec p b) as [->|Nb].
    + destruct (bad_end r es (Line a b, w) b (winding_eqb w Cw) I) as [j [d [G [Hd [Nd W]]]]]; auto.
      { rewrite turns_new, peqb_refl; auto. replace (peqb a b) with false; auto. symmetry. apply peqb_neq. auto. }
      assert (W' : out_w d (k_front j) <> winding_inverse w) by (destruct (out_w d (k_front j)), w; simpl in *; congruence).
      rewrite G. destruct (map_get (rg_ends r) a) as [i|] eqn:Ga.
      * destruct (OPEN _ _ Ga) as [c [Hc Nc]]. destruct (link_chains_bad (rg_chains r) i j c d w) as [m ->]; auto; [|simpl; eauto].
        intros ->. assert (Some a = Some b); [|congruence]. apply (i_open _ _ I) in Ga. apply (i_open _ _ I) in G.
        destruct G as [? [? [? _]]], Ga as [? [? [? _]]]. congruence.
      * destruct (push_link_bad (rg_chains r) j a d (winding_inverse w) Hd Nd W') as [m ->]. simpl. eauto.
    + exfalso. apply B. rewrite turns_app, turns_new by auto. replace (peqb a p) with false by (symmetry; apply peqb_neq; auto).
      replace (peqb b p) with false by (symmetry; apply peqb_neq; auto). rewrite app_nil_r. auto.
Qed.
Lemma add_all_needs : forall es es0 r r', inv r es0 -> (forall e, In e es -> exists a b, fst e = Line a b /\ lex_lt a b) ->
  (forall p, alternate (turns p es0)) -> fold_res (fun r e => add_edge r (fst e) (snd e)) r es = Ok r' -> forall p, alternate (turns p (es0 ++ es)).
Proof.
  induction es as [|[l w] es IH]; intros es0 r r' I N A E p; simpl in E; [rewrite app_nil_r; auto|].
  destruct (N (l, w)) as [a [b [El L]]]; [left; auto|]. simpl in El. subst l. assert (NE : a <> b) by (intros ->; clear - L; lord).
  replace (es0 ++ (Line a b, w) :: es) with ((es0 ++ [(Line a b, w)]) ++ es) by (rewrite <- app_assoc; reflexivity).
  assert (A' : forall q, alternate (turns q (es0 ++ [(Line a b, w)]))).
  { intros q. destruct (alternate_dec (turns q (es0 ++ [(Line a b, w)]))) as [Y|Y]; auto. exfalso.
    destruct (add_edge_bad r es0 a b w q I NE A Y) as [m X]. rewrite X in E. discriminate. }
  destruct (add_edge_inv r es0 a b w I NE A') as [r1 [E1 I1]]. rewrite E1 in E. simpl in E.
  apply (IH _ r1 r'); auto. intros e He. apply N. right. auto.
Qed.
(** C52: conversely, ring assembly gets through only if at every vertex the
    first and the second edge, the third and the fourth, ... are one arriving
    and one leaving, in the order in which the edges were added. *)
Theorem C52_assembly_needs_alternation : forall es rs, (forall e, In e es -> exists a b, fst e = Line a b /\ lex_lt a b) ->
  rings_of es = Ok rs -> forall p, alternate (turns p es).
Proof.
  intros es rs N E p. unfold rings_of in E. destruct (fold_res _ rings_default es) as [r'| |] eqn:F; try discriminate.
  apply (add_all_needs es [] rings_default r'); auto using inv_start. intros q. simpl. auto.
Qed.

(** ** Examples *)
Section Examples.
Definition zq (n : Z) : Qc := Q2Qc (inject_Z n).
Definition pz (a b : Z) : pt := mkC (zq a) (zq b).
Definition lz (a b c d : Z) : lop := Line (pz a b) (pz c d).

(** Checking [ring_input] on literals. *)
Definition sorted_seg (e : pt * pt) : pt * pt := if pltb (fst e) (snd e) then e else reversed e.
Definition meet_once (p q a b : pt) : bool :=
  negb (qeqb (cross p q a) (cross p q b)) || negb (qeqb (cross p q a) 0) ||
  negb (pltb (if pltb p a then a else p) (if pltb q b then q else b)).
Definition seg_meet_once (e e' : pt * pt) : bool :=
  meet_once (fst (sorted_seg e)) (snd (sorted_seg e)) (fst (sorted_seg e')) (snd (sorted_seg e')).
Fixpoint all_pairs {A} (f : A -> A -> bool) (l : list A) : bool :=
  match l with [] => true | x :: l' => forallb (f x) l' && all_pairs f l' end.
Fixpoint alternateb (l : list bool) : bool := match l with a :: b :: l' => negb (eqb a b) && alternateb l' | _ => true end.
Definition at_vertices (f : pt -> bool) (es : list (lop * winding)) : bool :=
  forallb (fun e => forallb f [fst (directed e); snd (directed e)]) es.
Definition normalb (es : list (lop * winding)) : bool := forallb (fun e => match fst e with Line a b => pltb a b | _ => false end) es.
Definition ring_inputb (es : list (lop * winding)) : bool :=
  normalb es && all_pairs seg_meet_once (map directed es) &&
  at_vertices (fun p => Nat.even (List.length (turns p es)) && alternateb (turns p es)) es.

Lemma alternateb_ok : forall l, alternateb l = true -> alternate l.
Proof.
  intros l. remember (List.length l) as n. revert l Heqn. induction n as [n IH] using lt_wf_ind.
  intros [|x [|y l]] -> A; simpl in *; auto. apply andb_prop in A. destruct A as [A B]. split; [destruct x, y; simpl in *; congruence|].
  apply (IH (List.length l)); auto.
Qed.
Lemma meet_once_ok : forall p q a b, lex_lt p q -> lex_lt a b -> meet_once p q a b = true -> touch_only (p, q) (a, b).
Proof.
  intros p q a b PQ AB H r r' R1 R2 R3 R4. simpl in *. unfold meet_once in H. apply orb_prop in H. destruct H as [H|H]; [apply orb_prop in H; destruct H as [H|H]|].
  - apply (common_unique p q a b); auto using on_seg_cross. intros E. apply qeqb_iff in E. rewrite E in H. discriminate.
  - destruct (Qc_eq_dec (cross p q a) (cross p q b)) as [E|E].
    + exfalso. apply negb_true_iff in H. assert (cross p q a <> 0%Qc) by (intros X; apply qeqb_iff in X; congruence). apply H0.
      apply on_seg_cross in R1. destruct R2 as [t [_ [_ [X Y]]]]. unfold cross in *. rewrite X, Y in R1. rewrite <- R1.
      transitivity ((1 - t) * ((cx q - cx p) * (cy a - cy p) - (cy q - cy p) * (cx a - cx p)) + t * ((cx q - cx p) * (cy b - cy p) - (cy q - cy p) * (cx b - cx p)))%Qc; [rewrite <- E; ring|ring].
    + apply (common_unique p q a b); auto using on_seg_cross.
  - apply on_seg_iff in R1; auto. apply on_seg_iff in R2; auto. apply on_seg_iff in R3; auto. apply on_seg_iff in R4; auto.
    destruct R1 as [_ [L1 U1]], R2 as [_ [L2 U2]], R3 as [_ [L3 U3]], R4 as [_ [L4 U4]].
    apply negb_true_iff in H. assert (X : ~ lex_lt (if pltb p a then a else p) (if pltb q b then q else b)) by (intros X; apply pltb_iff in X; congruence).
    destruct (pltb p a), (pltb q b); clear H; lord.
Qed.
Lemma sorted_seg_ok : forall e, fst e <> snd e -> lex_lt (fst (sorted_seg e)) (snd (sorted_seg e)) /\ (sorted_seg e = e \/ sorted_seg e = reversed e).
Proof.
  intros [a b] N. unfold sorted_seg. simpl in *. destruct (pltb a b) eqn:E; simpl.
  - split; auto. apply pltb_iff. auto.
  - split; auto. destruct (pcmp_spec a b) as [C|C|C]; [congruence| |auto]. apply pltb_iff in C. congruence.
Qed.
Lemma seg_meet_once_ok : forall e e', fst e <> snd e -> fst e' <> snd e' -> seg_meet_once e e' = true -> touch_only e e'.
Proof.
  intros e e' N N' H. destruct (sorted_seg_ok e N) as [L E], (sorted_seg_ok e' N') as [L' E']. pose proof (meet_once_ok _ _ _ _ L L' H) as T.
  clear H L L'. intros r r' A B C G. destruct E as [E|E]; destruct E' as [E'|E']; rewrite E, E' in T; unfold reversed in T; simpl in T;
  apply (T r r'); simpl; auto using on_seg_sym.
Qed.
Lemma all_pairs_ok : forall l, all_pairs seg_meet_once l = true -> Forall (fun e => fst e <> snd e) l -> ForallOrdPairs touch_only l.
Proof.
  induction l as [|e l IH]; intros H F; [constructor|]. simpl in H. apply andb_prop in H. destruct H as [H1 H2]. inversion F as [|? ? F1 F2]; subst.
  constructor; auto. apply Forall_forall. intros e' I. rewrite forallb_forall in H1. rewrite Forall_forall in F2. apply seg_meet_once_ok; auto.
Qed.
Lemma at_vertices_ok : forall f es, at_vertices f es = true -> forall p, turns p es = [] \/ f p = true.
Proof.
  intros f es H p. unfold at_vertices in H. unfold turns. 
  assert (K : forall l, forallb (fun e => forallb f [fst (directed e); snd (directed e)]) l = true ->
    flat_map (fun e => (if pt_eqb (fst (directed e)) p then [true] else []) ++ (if pt_eqb (snd (directed e)) p then [false] else [])) l = [] \/ f p = true).
  { intros l. induction l as [|e l IH]; intros G; [left; auto|].
    cbn [forallb] in G. apply andb_prop in G. destruct G as [G1 G2]. apply andb_prop in G1. destruct G1 as [G1 G3]. apply andb_prop in G3. destruct G3 as [G3 _].
    cbn [flat_map]. destruct (pt_eqb (fst (directed e)) p) eqn:E1; [right; apply pt_eqb_iff in E1; rewrite <- E1; auto|].
    destruct (pt_eqb (snd (directed e)) p) eqn:E2; [right; apply pt_eqb_iff in E2; rewrite <- E2; auto|]. apply IH. auto. }
  apply K. auto.
Qed.
Lemma normalb_ok : forall es, normalb es = true -> forall e, In e es -> exists a b, fst e = Line a b /\ lex_lt a b.
Proof.
  intros es H [l w] I. unfold normalb in H. rewrite forallb_forall in H. specialize (H _ I). simpl in *. destruct l; try discriminate.
  eexists. eexists. split; [reflexivity|]. apply pltb_iff. auto.
Qed.
Lemma directed_proper : forall es, (forall e, In e es -> exists a b, fst e = Line a b /\ lex_lt a b) -> Forall (fun e => fst e <> snd e) (map directed es).
Proof.
  intros es N. apply Forall_map. apply Forall_forall. intros [l w] He. destruct (N _ He) as [a [b [El L]]].
  simpl in El. subst l. assert (a <> b) by (intros ->; clear - L; lord). unfold directed. destruct w; simpl; congruence.
Qed.
Lemma ring_inputb_ok : forall es, ring_inputb es = true -> ring_input es.
Proof.
  intros es H. unfold ring_inputb in H. apply andb_prop in H. destruct H as [H H3]. apply andb_prop in H. destruct H as [H1 H2].
  pose proof (normalb_ok es H1) as N. split; auto. split; [apply all_pairs_ok; auto; apply directed_proper; auto|].
  intros p. destruct (at_vertices_ok _ _ H3 p) as [->|E]; [simpl; auto|]. apply andb_prop in E. destruct E as [E1 E2]. split; auto. apply alternateb_ok. auto.
Qed.

Definition plain (r : ring) : list (Q * Q) * bool := (map (fun p => (this (cx p), this (cy p))) (r_coords r), r_hole r).
(** A square with a triangular hole that touches it; the square is broken where
    the hole touches it. *)
Definition holed_cut : list (lop * winding) :=
  [(lz 0 0 2 0, Ccw); (lz 0 0 0 4, Cw); (lz 0 4 4 4, Cw); (lz 1 1 2 0, Cw); (lz 1 1 3 1, Ccw); (lz 2 0 3 1, Cw); (lz 2 0 4 0, Ccw); (lz 4 0 4 4, Ccw)].
Example holed_cut_input : ring_input holed_cut.
Proof. apply ring_inputb_ok. vm_compute. reflexivity. Qed.
Example holed_cut_rings : exists rs, rings_of holed_cut = Ok rs /\ map plain rs =
  [([(2, 0); (1, 1); (3, 1); (2, 0)], true); ([(4, 4); (0, 4); (0, 0); (2, 0); (4, 0); (4, 4)], false)]%Q.
Proof. eexists. split; vm_compute; reflexivity. Qed.
(** Two triangles with a common vertex, given one after the other. *)
Definition apart : list (lop * winding) :=
  [(lz 0 0 1 (-2), Ccw); (lz 1 (-2) 5 (-1), Ccw); (lz 0 0 5 (-1), Cw); (lz 0 0 6 1, Ccw); (lz 6 1 7 3, Ccw); (lz 0 0 7 3, Cw)].
Example apart_input : ring_input apart.
Proof. apply ring_inputb_ok. vm_compute. reflexivity. Qed.

(** C52: the same kind of region, with its edges in the order in which a sweep
    from left to right finishes them, makes ring assembly fail, although every
    vertex has even degree and the region is on the correct side of every edge:
    the pairs at the common vertex are formed in order of insertion only. *)
Definition fan : list (lop * winding) :=
  [(lz 0 0 1 (-2), Ccw); (lz 0 0 2 1, Ccw); (lz 1 (-2) 5 (-1), Ccw); (lz 0 0 5 (-1), Cw); (lz 2 1 5 3, Ccw); (lz 0 0 5 3, Cw)].
Theorem C52_even_degrees_refuted : exists es,
  (forall e, In e es -> exists a b, fst e = Line a b /\ lex_lt a b) /\ ForallOrdPairs touch_only (map directed es) /\
  (forall p, count_occ bool_dec (turns p es) true = count_occ bool_dec (turns p es) false) /\
  Sorted (fun e e' => lex_le (lop_second (fst e)) (lop_second (fst e'))) es /\
  rings_of es = Panic "rings.rs:154 debug_assert_eq".
Proof.
  exists fan. assert (N : forall e, In e fan -> exists a b, fst e = Line a b /\ lex_lt a b) by (apply normalb_ok; vm_compute; reflexivity).
  split; auto. split; [apply all_pairs_ok; [vm_compute; reflexivity|apply directed_proper; auto]|]. split; [|split].
  - intros p. assert (H : at_vertices (fun p => Nat.eqb (count_occ bool_dec (turns p fan) true) (count_occ bool_dec (turns p fan) false)) fan = true) by (vm_compute; reflexivity).
    destruct (at_vertices_ok _ _ H p) as [->|E]; auto. apply Nat.eqb_eq. auto.
  - repeat constructor; unfold lex_le; simpl; try (right; reflexivity); left; left; vm_compute; reflexivity.
  - vm_compute. reflexivity.
Qed.
End Examples.
