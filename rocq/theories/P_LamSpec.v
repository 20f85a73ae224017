(** Polygon assembly on rings that are the boundary of a region. *)
Require Import List String Bool Arith Lia Permutation.
From Verif Require Import Base Scalar M_Events M_Geo M_LineOrPoint M_Sweep M_Crossings M_MonoPoly M_Rings M_Op M_Laminar.
From Verif Require Import S_Geo P_Geo P_LineOrPoint P_Tilt P_Order P_Inv P_Run P_Master S_Boundary P_Boundary.
From Verif Require Import S_Mono S_Rings P_Rings S_Op Props_Op1 P_OpLab P_OpPoint P_OpStep P_OpPlane P_OpPoly P_OpBoundary P_OpCount P_OpTotal Props_Op3 S_Laminar P_Laminar P_LamRun P_LamGeo.
Import Datatypes.
Import ListNotations.
Local Open Scope nat_scope.

Lemma nth_error_seq : forall s k i, i < k -> nth_error (seq s k) i = Some (s + i).
Proof.
  intros s k i L. rewrite (nth_error_nth' _ 0) by (rewrite seq_length; exact L). rewrite seq_nth by exact L. reflexivity.
Qed.
(** The normal form of an edge. *)
Definition und (e : pt * pt) : lop := lop_of_line (mkLine (fst e) (snd e)).
Lemma und_lt : forall x y, lex_lt x y -> und (x, y) = Line x y /\ und (y, x) = Line x y.
Proof.
  intros x y L. unfold und, lop_of_line. cbn [fst snd l_start l_end]. split.
  - destruct (pcmp_spec x y) as [Z|Z|Z]; [lord|reflexivity|lord].
  - destruct (pcmp_spec y x) as [Z|Z|Z]; [lord|lord|reflexivity].
Qed.
Lemma und_rev : forall e, und (reversed e) = und e.
Proof.
  intros [a b]. unfold reversed. cbn [fst snd]. destruct (lex_total a b) as [[L|Q]|L]; [|subst; reflexivity|].
  - destruct (und_lt a b L) as [-> ->]. reflexivity.
  - destruct (und_lt b a L) as [-> ->]. reflexivity.
Qed.
Lemma und_line : forall a b, a <> b -> exists x y, und (a, b) = Line x y /\ lex_lt x y /\ ((a, b) = (x, y) \/ (a, b) = (y, x)).
Proof.
  intros a b N. destruct (lex_total a b) as [[L|Q]|L]; [|contradiction|].
  - exists a, b. destruct (und_lt a b L) as [-> _]. auto.
  - exists b, a. destruct (und_lt b a L) as [_ ->]. auto.
Qed.
Lemma proper_closed : forall l, proper_ring l -> closed l.
Proof. intros l (p & l' & -> & _). unfold closed. rewrite app_comm_cons. apply last_last. Qed.
Lemma proper_neq : forall l a b, proper_ring l -> In (a, b) (edges l) -> a <> b.
Proof.
  intros l a b (p & l' & -> & N & Ln) I Q. subst b. apply edges_in in I as (x & y & Q). destruct x as [|z x].
  - cbn in Q. injection Q as <- Q. destruct l' as [|q l']; [cbn in Ln; lia|]. cbn in Q. injection Q as -> _. apply NoDup_cons_iff in N as [N _]. apply N. left; auto.
  - cbn in Q. injection Q as <- Q. apply NoDup_cons_iff in N as [Np N].
    assert (N' : NoDup (l' ++ [p])) by (apply (Permutation_NoDup (l := p :: l')); [apply Permutation_cons_append|constructor; auto]).
    rewrite Q in N'. apply NoDup_remove_2 in N'. apply N'. apply in_or_app. right. left; auto.
Qed.

(** The edges of all rings with the number of their ring. *)
Definition redges_from (i : nat) (rs : list ring) : list (nat * (pt * pt)) :=
  flat_map (fun kr => map (pair (fst kr)) (edges (r_coords (snd kr)))) (combine (seq i (List.length rs)) rs).
Definition redges (rs : list ring) : list (nat * (pt * pt)) := redges_from 0 rs.
Definition ledge_of (x : nat * (pt * pt)) : ledge := mkLedge (und (snd x)) (fst x) None.
Lemma redges_cons : forall i r rs, redges_from i (r :: rs) = map (pair i) (edges (r_coords r)) ++ redges_from (S i) rs.
Proof. reflexivity. Qed.
Lemma laminar_edges_ok : forall rs i, Forall (fun r => closed (r_coords r)) rs -> laminar_edges i rs = Ok (map ledge_of (redges_from i rs)).
Proof.
  induction rs as [|r rs IH]; intros i F; [reflexivity|]. inversion F as [|? ? C F']; subst. cbn [laminar_edges]. apply closed_iff in C. rewrite C. cbn [check bind].
  rewrite (IH (S i) F'). cbn [bind]. rewrite redges_cons, map_app, map_map, lines_edges, map_map. reflexivity.
Qed.
Lemma redges_in : forall rs k x, In (k, x) (redges rs) <-> exists r, nth_error rs k = Some r /\ In x (edges (r_coords r)).
Proof.
  intros rs k x. unfold redges, redges_from. fold (numbered rs). rewrite in_flat_map. split.
  - intros ([k' r] & I & J). apply numbered_in in I. cbn [fst snd] in J. apply in_map_iff in J as (y & Q & J). injection Q as <- <-. eauto.
  - intros (r & I & J). exists (k, r). split; [apply numbered_in; auto|]. apply in_map. auto.
Qed.
Lemma redges_und : forall rs i, map (fun x => und (snd x)) (redges_from i rs) = map und (flat_map region_left rs).
Proof.
  induction rs as [|r rs IH]; intros i; [reflexivity|]. rewrite redges_cons, map_app, map_map. cbn [flat_map]. rewrite map_app, IH. f_equal.
  unfold region_left. cbn [snd]. assert (Rv : forall l, map und (map reversed l) = map und l) by (intros l; rewrite map_map; apply map_ext; intros; apply und_rev).
  destruct (ls_winding_order (r_coords r)) as [[]|], (r_hole r); rewrite ?Rv; reflexivity.
Qed.

Section Inst.
Variables (E : list (pt * pt)) (inr : pt -> bool) (out : list (lop * winding)) (rs : list ring).
Hypothesis EP : forall a b, In (a, b) E -> a <> b.
Hypothesis Bd : boundary E inr out.
Hypothesis Enc : forall q, odd (map (fun pr => ray_crosses q (directed pr)) out) = inr q.
Hypothesis Pm : Permutation (map directed out) (flat_map region_left rs).
Hypothesis Pr : Forall (fun r => proper_ring (r_coords r)) rs.

Definition es : list ledge := map ledge_of (redges rs).
Definition n : nat := List.length (redges rs).
Definition ln : nat -> line := ledge_line es.
Definition rc (c : nat) : nat := match nth_error (redges rs) c with Some x => fst x | None => 0 end.
Definition tr (c : nat) : pt * pt := match nth_error (redges rs) c with Some x => snd x | None => (mkC 0%Qc 0%Qc, mkC 0%Qc 0%Qc) end.
Definition V : list pt := cands ln n.
Notation geo := (geo ln).
Notation ea := (ea ln).
Notation ez := (ez ln).
Notation thr := (thr ln).
Notation coords := (coords rs).
Notation ccw := (ccw rs).
Notation hole := (hole rs).

Lemma Pr_nth : forall k r, nth_error rs k = Some r -> proper_ring (r_coords r).
Proof. intros k r Q. apply nth_error_In in Q. rewrite Forall_forall in Pr. auto. Qed.
Lemma edges_ok : laminar_edges 0 rs = Ok es.
Proof. apply laminar_edges_ok. eapply Forall_impl; [|exact Pr]. intros r. apply proper_closed. Qed.
Lemma es_length : List.length es = n. Proof. apply map_length. Qed.
Lemma at_c : forall c, c < n -> exists r, nth_error (redges rs) c = Some (rc c, tr c) /\ nth_error rs (rc c) = Some r /\ In (tr c) (edges (r_coords r)).
Proof.
  intros c L. unfold rc, tr. destruct (nth_error (redges rs) c) as [[k x]|] eqn:Q; [|apply nth_error_None in Q; unfold n in L; lia]. cbn [fst snd].
  pose proof (nth_error_In _ _ Q) as I. apply redges_in in I as (r & I & J). exists r. auto.
Qed.
Lemma geo_c : forall c, c < n -> exists x y, geo c = Line x y /\ und (tr c) = Line x y /\ lex_lt x y /\ (tr c = (x, y) \/ tr c = (y, x)).
Proof.
  intros c L. destruct (at_c c L) as (r & Q & Qr & I). destruct (tr c) as [a b] eqn:Et. destruct (und_line a b) as (x & y & U & Lx & D).
  { apply (proper_neq _ a b (Pr_nth _ _ Qr)); auto. }
  exists x, y. split; [|auto]. unfold P_Inv.geo, ln, ledge_line, es. rewrite nth_error_map, Q. cbn [option_map ledge_of le_geom snd]. rewrite U. apply und_lt. exact Lx.
Qed.
Lemma HL : forall c, c < n -> exists a z, geo c = Line a z.
Proof. intros c L. destruct (geo_c c L) as (x & y & G & _). eauto. Qed.
Lemma geo_ends : forall c, c < n -> geo c = Line (ea c) (ez c) /\ lex_lt (ea c) (ez c) /\ (tr c = (ea c, ez c) \/ tr c = (ez c, ea c)).
Proof. intros c L. destruct (geo_c c L) as (x & y & G & _ & Lx & D). unfold P_OpLab.ea, P_OpLab.ez. rewrite G. cbn [lop_first lop_second]. auto. Qed.
Lemma Geo : forall c, c < n -> tr c = (ea c, ez c) \/ tr c = (ez c, ea c). Proof. intros c L. apply geo_ends; auto. Qed.
Lemma Rc : forall c, c < n -> rc c < List.length rs.
Proof. intros c L. destruct (at_c c L) as (r & _ & Q & _). apply nth_error_Some. congruence. Qed.
Lemma Tr : forall c, c < n -> In (tr c) (edges (coords (rc c))).
Proof. intros c L. destruct (at_c c L) as (r & _ & Q & I). unfold P_LamGeo.coords. rewrite Q. exact I. Qed.
Lemma Cov : forall R a, R < List.length rs -> In a (edges (coords R)) -> exists c, c < n /\ rc c = R /\ tr c = a.
Proof.
  intros R a L I. unfold P_LamGeo.coords in I. destruct (nth_error rs R) as [r|] eqn:Q; [|destruct I].
  assert (J : In (R, a) (redges rs)) by (apply redges_in; eauto). apply In_nth_error in J as (c & J). exists c. split; [apply nth_error_Some; congruence|]. unfold rc, tr. rewrite J. auto.
Qed.
Lemma Prp : forall R, R < List.length rs -> proper_ring (coords R).
Proof. intros R L. unfold P_LamGeo.coords. destruct (nth_error rs R) as [r|] eqn:Q; [apply (Pr_nth R); auto|apply nth_error_None in Q; lia]. Qed.
(** The edges are the pieces of the boundary. *)
Lemma geo_perm : Permutation (map fst out) (map geo (seq 0 n)).
Proof.
  assert (Q1 : map fst out = map und (map directed out)).
  { rewrite map_map. apply map_ext_in. intros [g w] I. destruct (bd_piece _ _ _ Bd g w I) as (x & y & -> & L & _). destruct (und_lt x y L) as [U1 U2].
    unfold directed. cbn [fst snd]. destruct w; cbn [lop_first lop_second]; congruence. }
  assert (Q2 : map geo (seq 0 n) = map (fun x => und (snd x)) (redges rs)).
  { apply nth_ext'. intros i. rewrite !nth_error_map. destruct (Nat.ltb_spec i n) as [L|L].
    - rewrite nth_error_seq by auto. destruct (at_c i L) as (r & Q & _). rewrite Q. cbn [option_map snd]. destruct (geo_c i L) as (x & y & G & U & _). cbn. congruence.
    - rewrite !(proj2 (nth_error_None _ _)); [reflexivity|exact L|rewrite seq_length; exact L]. }
  rewrite Q1, Q2. unfold redges. rewrite redges_und. apply Permutation_map. exact Pm.
Qed.
Lemma geo_inj : forall c c', c < n -> c' < n -> geo c = geo c' -> c = c'.
Proof.
  intros c c' L L' Q. pose proof (Permutation_NoDup geo_perm (bd_once _ _ _ Bd)) as N. eapply (proj1 (NoDup_nth_error (map geo (seq 0 n))) N).
  - rewrite map_length, seq_length. exact L.
  - rewrite !nth_error_map, !nth_error_seq by auto. cbn. congruence.
Qed.
Lemma Inj : forall c c', c < n -> c' < n -> rc c = rc c' -> tr c = tr c' -> c = c'.
Proof. intros c c' L L' _ Q. apply geo_inj; auto. destruct (geo_c c L) as (x & y & G & U & _). destruct (geo_c c' L') as (x' & y' & G' & U' & _). congruence. Qed.
Lemma geo_out : forall c, c < n -> exists w, In (Line (ea c) (ez c), w) out.
Proof.
  intros c L. assert (I : In (geo c) (map fst out)) by (apply (Permutation_in _ (Permutation_sym geo_perm)); apply in_map; apply in_seq; lia).
  apply in_map_iff in I as ([g w] & Q & I). cbn [fst] in Q. exists w. destruct (geo_ends c L) as (G & _). rewrite <- G, <- Q. exact I.
Qed.
Lemma meet : forall c c' r, c < n -> c' < n -> c <> c' -> thr r c -> thr r c' -> (r = ea c \/ r = ez c) /\ (r = ea c' \/ r = ez c').
Proof.
  intros c c' r L L' N T T'. destruct (geo_out c L) as (w & I). destruct (geo_out c' L') as (w' & I').
  apply (boundary_ends E inr out (Line (ea c) (ez c)) w (Line (ea c') (ez c')) w' _ _ _ _ r Bd); auto.
  intros Q. apply N. apply geo_inj; auto. destruct (geo_ends c L) as (-> & _). destruct (geo_ends c' L') as (-> & _). exact Q.
Qed.
Lemma NO : no_overlap ln n.
Proof.
  intros c c' r r' L L' N T T' S S'. destruct (meet c c' r L L' N T T') as [A A']. destruct (meet c c' r' L L' N S S') as [B B'].
  destruct (geo_ends c L) as (_ & L1 & _). destruct (geo_ends c' L') as (_ & L2 & _). destruct (pt_dec r r') as [Q|Q]; auto. exfalso.
  assert (Ne : ea c = ea c' -> ez c = ez c' -> False).
  { intros Q1 Q2. apply N. apply geo_inj; auto. destruct (geo_ends c L) as (-> & _). destruct (geo_ends c' L') as (-> & _). congruence. }
  destruct A as [-> | ->], B as [-> | ->]; try congruence; destruct A' as [A' | A'], B' as [B' | B']; try congruence; auto; rewrite A', B' in L1; lord.
Qed.
Lemma Ends : forall v c, c < n -> In v V -> thr v c -> v = ea c \/ v = ez c.
Proof.
  intros v c L I T.
  assert (G : forall c', c' < n -> v = ea c' \/ v = ez c' -> v = ea c \/ v = ez c).
  { intros c' L' D. destruct (Nat.eq_dec c c') as [->|N]; auto. apply (meet c c' v); auto. destruct D as [-> | ->]; [apply on_seg_start|apply on_seg_end]. }
  apply cands3 in I as [(c' & L' & Q)|[(c' & a & z & L' & Q & D)|(c1 & c2 & a & z & a' & z' & L1 & L2 & Q1 & Q2 & O1 & O2 & U)]].
  - destruct (HL c' L') as (a & z & Q'). fold geo in Q. congruence.
  - apply (G c' L'). destruct (geo_ends c' L') as (Q' & _). rewrite Q' in Q. injection Q as <- <-. exact D.
  - apply (G c1 L1). destruct (geo_ends c1 L1) as (Q1' & Lt & _). destruct (geo_ends c2 L2) as (Q2' & _). rewrite Q1' in Q1. rewrite Q2' in Q2. injection Q1 as <- <-. injection Q2 as <- <-.
    destruct (Nat.eq_dec c1 c2) as [->|N]; [|apply (meet c1 c2 v); auto]. exfalso.
    rewrite (U (ea c2)) in Lt by apply on_seg_start. rewrite (U (ez c2)) in Lt by apply on_seg_end. lord.
Qed.
(** Parities over edges and over rings. *)
Lemma odd_redges : forall (p : nat -> bool) (h : pt * pt -> bool) l i,
  odd (map (fun x => p (fst x) && h (snd x)) (redges_from i l)) = odd (map (fun kr => p (fst kr) && odd (map h (edges (r_coords (snd kr))))) (combine (seq i (List.length l)) l)).
Proof.
  intros p h l i. unfold redges_from. rewrite odd_flat. apply odd_ext. intros [k r] _. cbn [fst snd]. rewrite map_map. cbn [fst snd]. destruct (p k); cbn [andb]; [reflexivity|apply odd_none; auto].
Qed.
Lemma par_redges : forall (p : nat -> bool) (f : lop -> bool) (h : pt * pt -> bool), (forall x y, lex_lt x y -> h (x, y) = f (Line x y) /\ h (y, x) = f (Line x y)) ->
  par (fun c => p (rc c)) n true (fun c => f (geo c)) = odd (map (fun kr => p (fst kr) && odd (map h (edges (r_coords (snd kr))))) (numbered rs)).
Proof.
  intros p f h Hh. unfold numbered. rewrite <- odd_redges. fold (redges rs). unfold par, n.
  rewrite (odd_index (fun x => p (fst x) && h (snd x)) (redges rs) (0, (mkC 0%Qc 0%Qc, mkC 0%Qc 0%Qc))); [reflexivity|].
  intros c x Q. assert (L : c < n) by (apply nth_error_Some; congruence). destruct (at_c c L) as (r & Q' & _). rewrite Q in Q'. injection Q' as ->. cbn [fst snd].
  destruct (geo_c c L) as (u & v & G & _ & Lu & D). rewrite G. destruct (Hh u v Lu) as [H1 H2]. f_equal; [destruct (p (rc c)); reflexivity|]. destruct D as [-> | ->]; auto.
Qed.
Lemma bal : forall (p : nat -> bool) (g : pt -> bool), par (fun c => p (rc c)) n true (fun c => xorb (g (ea c)) (g (ez c))) = false.
Proof.
  intros p g. change (par (fun c => p (rc c)) n true (fun c => (fun l => xorb (g (lop_first l)) (g (lop_second l))) (geo c)) = false).
  rewrite (par_redges p _ (fun e => xorb (g (fst e)) (g (snd e)))).
  - apply odd_none. intros [k r] I. cbn [fst snd]. apply numbered_in in I. rewrite ring_balance; [apply andb_false_r|]. apply proper_closed. apply (Pr_nth k); auto.
  - intros x y L. cbn [fst snd lop_first lop_second]. rewrite (xorb_comm (g y)). auto.
Qed.
Lemma bal2 : forall (p : nat -> bool) b (g : pt -> bool), par (fun c => p (rc c)) n b (fun c => xorb (g (ea c)) (g (ez c))) = false.
Proof.
  intros p [] g; [apply bal|]. etransitivity; [|exact (bal (fun k => negb (p k)) g)]. unfold par. apply odd_ext. intros c _. f_equal. destruct (p (rc c)); reflexivity.
Qed.
Lemma HBt : forall b (g : pt -> bool), par (fun _ => true) n b (fun c => xorb (g (ea c)) (g (ez c))) = false.
Proof. intros b g. apply (bal2 (fun _ => true)). Qed.
Lemma HBr : forall R b (g : pt -> bool), par (fun c => rc c =? R) n b (fun c => xorb (g (ea c)) (g (ez c))) = false.
Proof. intros R b g. apply (bal2 (fun k => k =? R)). Qed.
Lemma ray_above : forall q x y, lex_lt x y -> ray_crosses q (x, y) = (fun l => above (lop_first l) (lop_second l) q) (Line x y) /\
  ray_crosses q (y, x) = (fun l => above (lop_first l) (lop_second l) q) (Line x y).
Proof. intros q x y L. apply above_ray. exact L. Qed.
Lemma par_ring : forall R q, par (fun c => rc c =? R) n true (fun c => above (ea c) (ez c) q) = ring_in (coords R) q.
Proof.
  intros R q. etransitivity; [exact (par_redges (fun k => k =? R) _ (ray_crosses q) (ray_above q))|]. unfold ring_in, P_LamGeo.coords.
  assert (G : forall l i, odd (map (fun kr => (fst kr =? i + R) && odd (map (ray_crosses q) (edges (r_coords (snd kr))))) (combine (seq i (List.length l)) l)) =
    odd (map (ray_crosses q) (edges match nth_error l R with Some r => r_coords r | None => [] end))).
  { clear. revert q. induction R as [|R IH]; intros q l i; (destruct l as [|r l]; [reflexivity|]); cbn [List.length seq combine map fst snd nth_error]; unfold odd at 1; cbn [fold_right]; fold (odd (map (fun kr : nat * ring => (fst kr =? i + 0) && odd (map (ray_crosses q) (edges (r_coords (snd kr))))) (combine (seq (S i) (List.length l)) l))).
    - rewrite Nat.add_0_r, Nat.eqb_refl. cbn [andb]. match goal with |- xorb _ ?b = _ => assert (Z : b = false) end; [|rewrite Z; apply xorb_false_r].
      apply odd_none. intros [k r'] I. apply in_combine_l in I. apply in_seq in I. cbn [fst]. destruct (Nat.eqb_spec k i); [lia|reflexivity].
    - destruct (Nat.eqb_spec i (i + S R)); [lia|]. cbn [andb]. rewrite xorb_false_l. rewrite <- (IH q l (S i)). unfold odd. f_equal. apply map_ext. intros kr. replace (i + S R) with (S i + R) by lia. reflexivity. }
  apply (G rs 0).
Qed.
Lemma par_all : forall q, par (fun _ => true) n true (fun c => above (ea c) (ez c) q) = inr q.
Proof.
  intros q. etransitivity; [exact (par_redges (fun _ => true) _ (ray_crosses q) (ray_above q))|]. rewrite <- Enc, <- (map_map directed (ray_crosses q)), (odd_perm _ _ (Permutation_map (ray_crosses q) Pm)), odd_flat.
  rewrite <- (numbered_snd rs) at 2. rewrite map_map. apply odd_ext. intros [k r] _. cbn [fst snd andb]. unfold region_left.
  assert (Rv : forall l, odd (map (ray_crosses q) (map reversed l)) = odd (map (ray_crosses q) l)).
  { intros l. rewrite map_map. apply odd_ext. intros [a b] _. apply ray_sym. }
  destruct (ls_winding_order (r_coords r)) as [[]|], (r_hole r); rewrite ?Rv; reflexivity.
Qed.
(** The direction of a piece. *)
Lemma turned : forall c w, c < n -> In (Line (ea c) (ez c), w) out -> ls_winding_order (coords (rc c)) <> None ->
  (w = Ccw <-> dirf tr c = xorb (ccw (rc c)) (hole (rc c))).
Proof.
  intros c w L I Wn. destruct (at_c c L) as (r & Q & Qr & Ie). destruct (geo_ends c L) as (G & Lt & D).
  assert (J : In (if xorb (ccw (rc c)) (hole (rc c)) then tr c else reversed (tr c)) (map directed out)).
  { apply (Permutation_in _ (Permutation_sym Pm)). apply in_flat_map. exists r. split; [apply (nth_error_In _ _ Qr)|].
    unfold region_left, P_LamGeo.ccw, P_LamRun.hole, P_LamGeo.coords in *. rewrite Qr in *. destruct (ls_winding_order (r_coords r)) as [[]|]; [| |congruence]; destruct (r_hole r); cbn [xorb]; auto; apply in_map; auto. }
  apply in_map_iff in J as ([g w'] & Q' & J). destruct (bd_piece _ _ _ Bd g w' J) as (x & y & -> & Lx & _).
  assert (Z : x = ea c /\ y = ez c /\ (w' = Ccw <-> dirf tr c = xorb (ccw (rc c)) (hole (rc c)))).
  { unfold dirf. set (k := xorb (ccw (rc c)) (hole (rc c))) in *. clearbody k. unfold directed in Q'. cbn [fst snd] in Q'. destruct D as [D|D]; rewrite D in *; cbn [fst snd reversed] in *.
    - assert (P : pltb (ea c) (ez c) = true) by (apply pltb_iff; auto). rewrite P. unfold reversed in Q'. destruct w', k; cbn [fst snd lop_first lop_second] in Q'; injection Q' as Qx Qy; rewrite Qx, Qy in Lx; try lord; repeat split; auto; congruence.
    - assert (P : pltb (ez c) (ea c) = false) by (destruct (pltb (ez c) (ea c)) eqn:Z; auto; apply pltb_iff in Z; lord). rewrite P. unfold reversed in Q'. destruct w', k; cbn [fst snd lop_first lop_second] in Q'; injection Q' as Qx Qy; rewrite Qx, Qy in Lx; try lord; repeat split; auto; congruence. }
  destruct Z as (-> & -> & Z). assert (w = w'); [|subst; exact Z].
  pose proof (bd_once _ _ _ Bd) as N. clear - N I J.
  assert (G : forall l g (a b : winding), NoDup (map fst l) -> In (g, a) l -> In ((g : lop), b) l -> a = b).
  { clear. induction l as [|[g' w'] l IH]; intros g a b N I J; [destruct I|]. cbn [map fst] in N. apply NoDup_cons_iff in N as [N1 N2].
    destruct I as [I|I], J as [J|J].
    - congruence.
    - injection I as -> ->. exfalso. apply N1. apply (in_map fst) in J. exact J.
    - injection J as -> ->. exfalso. apply N1. apply (in_map fst) in I. exact I.
    - eauto. }
  eapply G; eauto.
Qed.

Section At.
Variables (e : Qc) (V' : list pt) (s0 : pt).
Hypothesis HT' : tilts e (fun p => In p V').
Hypothesis HVV : incl V V'.
Hypothesis Vs0 : In s0 V'.
Hypothesis Ls0 : forall v, In v V -> lex_lt s0 v.
Hypothesis Mids : forall c, c < n -> exists m, In m V' /\ strictly_inside (ea c) (ez c) m.
Notation side := (side ln n e).
Let HV1 : forall c a z, c < n -> geo c = Line a z -> In a V /\ In z V. Proof. intros c a z. apply cands1. Qed.
Let HV2 : forall c c' a z a' z' r, c < n -> c' < n -> geo c = Line a z -> geo c' = Line a' z' ->
  on_seg a z r -> on_seg a' z' r -> (forall r', on_seg a z r' -> on_seg a' z' r' -> r' = r) -> In r V.
Proof. intros c c' a z a' z' r. apply (cands2 ln n). Qed.

Lemma side_all : forall c w, c < n -> In (Line (ea c) (ez c), w) out -> (side (fun _ => true) c = true <-> w = Ccw).
Proof.
  intros c w L I. destruct (bd_piece _ _ _ Bd _ _ I) as (x & y & Q & P). injection Q as <- <-. destruct (Mids c L) as (m & Vm & S).
  destruct (sides E EP _ _ m P S) as (d & t & t' & _ & _ & Vq & _ & U & _).
  rewrite (side_by ln n e V V' HT' HVV HV1 HV2 HL Ends (fun _ => true) HBt c m (shift m d t)); auto.
  - rewrite par_all. apply (bd_left _ _ _ Bd _ _ w m _ I S Vq U).
  - intros Im. destruct (Ends m c L Im (proj1 S)) as [Q|Q]; apply S in Q; auto.
  - apply S.
  - intros r Or Nr c' L' T. destruct (geo_out c' L') as (w' & I'). destruct (bd_piece _ _ _ Bd _ _ I') as (x & y & Q & P'). injection Q as <- <-.
    destruct P' as (_ & (a & b & Ie & O1 & O2) & _). apply (Vq r Or Nr a b Ie). apply (inner_on (ea c') (ez c') a b); auto.
Qed.
Lemma own : forall c, c < n -> side (fun c' => rc c' =? rc c) c = xorb (hole (rc c)) (side (fun _ => true) c).
Proof.
  intros c L. destruct (own_side ln n e V V' HT' HVV HV1 HV2 HL NO Ends s0 rs rc tr Vs0 Ls0 Rc Tr Geo Cov Inj Prp HBr c L) as [Wn ->].
  destruct (geo_out c L) as (w & I). pose proof (side_all c w L I) as S. pose proof (turned c w L I Wn) as T.
  destruct (side (fun _ => true) c), (dirf tr c), (ccw (rc c)), (hole (rc c)); cbn in *; auto; exfalso; intuition congruence.
Qed.
End At.

Lemma mids : exists M, forall c, c < n -> exists m, In m M /\ strictly_inside (ea c) (ez c) m.
Proof.
  assert (G : forall k, k <= n -> exists M, forall c, c < k -> exists m, In m M /\ strictly_inside (ea c) (ez c) m).
  { induction k as [|k IH]; intros Lk; [exists []; intros; lia|]. destruct IH as (M & HM); [lia|]. destruct (geo_ends k ltac:(lia)) as (_ & Lt & _). destruct (inner _ _ Lt) as (m & S).
    exists (m :: M). intros c Lc. destruct (Nat.eq_dec c k) as [->|N]; [exists m; split; [left; auto|auto]|]. destruct (HM c ltac:(lia)) as (m' & I & S'). exists m'. split; [right; auto|auto]. }
  apply G. lia.
Qed.
Lemma setup : forall q, exists e V' s0, tilts e (fun p => In p V') /\ incl V V' /\ In s0 V' /\ (forall v, In v V -> lex_lt s0 v) /\ In q V' /\
  forall c, c < n -> exists m, In m V' /\ strictly_inside (ea c) (ez c) m.
Proof.
  intros q. destruct mids as (M & HM). destruct (below_all V) as (s0 & B). destruct (tilt_list (s0 :: q :: V ++ M)) as (e & P & T). exists e, (s0 :: q :: V ++ M), s0.
  split; [apply (T e P (Qcle_refl e))|]. split; [intros v I; right; right; apply in_or_app; auto|]. split; [left; auto|]. split; [auto|]. split; [right; left; auto|].
  intros c L. destruct (HM c L) as (m & I & S). exists m. split; [right; right; apply in_or_app; auto|auto].
Qed.

(** * The rings in which the holes lie *)
Let HV1 : forall c a z, c < n -> geo c = Line a z -> In a V /\ In z V. Proof. intros c a z. apply cands1. Qed.
Let HV2 : forall c c' a z a' z' r, c < n -> c' < n -> geo c = Line a z -> geo c' = Line a' z' ->
  on_seg a z r -> on_seg a' z' r -> (forall r', on_seg a z r' -> on_seg a' z' r' -> r' = r) -> In r V.
Proof. intros c c' a z a' z' r. apply (cands2 ln n). Qed.
(** Ring [R'] goes around ring [R]. *)
Definition Jr (R R' : nat) : bool := if R =? R' then false else ring_in (coords R') (hd D (coords R)).
Lemma ring_edge : forall R, R < List.length rs -> exists c, c < n /\ rc c = R /\ (ea c = hd D (coords R) \/ ez c = hd D (coords R)).
Proof.
  intros R L. destruct (Prp R L) as (p & l' & Q & _ & Ln). destruct l' as [|b l']; [cbn in Ln; lia|].
  destruct (Cov R (p, b) L) as (c & Lc & Rcc & T); [rewrite Q; apply edges_in; exists [], (l' ++ [p]); reflexivity|].
  exists c. split; auto. split; auto. rewrite Q. cbn [hd]. destruct (Geo c Lc) as [Z|Z]; rewrite T in Z; injection Z as -> ->; auto.
Qed.
Lemma vertex_edge : forall R v, R < List.length rs -> In v (coords R) -> exists c, c < n /\ rc c = R /\ (ea c = v \/ ez c = v).
Proof.
  intros R v L I. assert (J : exists x y, In (x, y) (edges (coords R)) /\ (x = v \/ y = v)).
  { destruct (Prp R L) as (p & l' & Q & _ & Ln). rewrite Q in I |- *. destruct l' as [|b l']; [cbn in Ln; lia|].
    destruct I as [->|I]; [exists v, b; split; [|auto]; apply edges_in; exists [], (l' ++ [v]); reflexivity|].
    apply in_split in I as (x & y & Z). rewrite Z. destruct (exists_last (l := p :: x)) as (x' & a & Za); [discriminate|]. exists a, v. split; [|auto].
    apply edges_in. exists x', y. rewrite app_comm_cons, Za, <- app_assoc. reflexivity. }
  destruct J as (x & y & J & D). destruct (Cov R (x, y) L J) as (c & Lc & Rcc & T). exists c. split; auto. split; auto.
  destruct (Geo c Lc) as [Z|Z]; rewrite T in Z; injection Z as -> ->; tauto.
Qed.
Section Apart.
Hypothesis Dj : disjoint ln n rc.
Section At2.
Variables (e : Qc) (V' : list pt) (s0 : pt).
Hypothesis HT' : tilts e (fun p => In p V').
Hypothesis HVV : incl V V'.
Hypothesis Vs0 : In s0 V'.
Hypothesis Ls0 : forall v, In v V -> lex_lt s0 v.
Lemma vertex_in_ : forall R R' v, R < List.length rs -> R' <> R -> In v (coords R) -> ring_in (coords R') v = around ln n e rc R R'.
Proof.
  intros R R' v L N I. destruct (vertex_edge R v L I) as (c & Lc & <- & D).
  rewrite <- (around_under ln n e V V' HT' HVV HV1 HV2 HL Ends s0 rs rc tr Vs0 Ls0 Rc Tr Geo Cov Inj HBr Dj c v R' Lc D N), <- par_ring.
  apply par_ext. intros c' L'. symmetry. apply (under_above ln n e V V' HT' HVV HV1 HL). exact L'.
Qed.
Lemma Jr_around : forall R R', R < List.length rs -> around ln n e rc R R' = Jr R R'.
Proof.
  intros R R' L. unfold Jr. destruct (Nat.eqb_spec R R') as [->|N]; [apply around_self|]. symmetry. apply vertex_in_; auto.
  destruct (Prp R L) as (p & l' & -> & _). left; auto.
Qed.
End At2.
Lemma vertex_in : forall R R' v, R < List.length rs -> R' <> R -> In v (coords R) -> ring_in (coords R') v = Jr R R'.
Proof.
  intros R R' v L N I. destruct (setup v) as (e & V' & s0 & T & HVV & Vs & Ls & _). rewrite (vertex_in_ e V' s0 T HVV Vs Ls R R' v L N I). apply (Jr_around e V' s0); auto.
Qed.
End Apart.
Theorem parents_run : forall {ar : arith} {fa : faithful ar ln n} sm, (sm = true -> disjoint ln n rc) -> forall tie fuel, bound n V < fuel ->
  (exists parents, find_parents tie fuel rs = Ok parents /\ List.length parents = List.length rs /\
     forall R, R < List.length rs -> good_ring rs sm Jr R (nth R parents 0)) \/
  (sm = false /\ exists m, find_parents tie fuel rs = Panic m).
Proof.
  intros ar fa sm Dj tie fuel Fu. destruct (setup D) as (e & V' & s0 & T & HVV & Vs & Ls & _ & Md).
  destruct (lam_run ln tie n e V V' T HVV HV1 HV2 (cands3 ln n) HL rs rc (fun c => side ln n e (fun _ => true) c) sm Jr Rc NO Ends HBt HBr) with (s0 := s0) (es := es) (fuel := fuel) as (sw & Sw & R); auto.
  - intros c L. apply (own e V' s0 T HVV Vs Ls Md c L).
  - intros Sm c R L N. change (side ln n e (fun c0 => rc c0 =? R) c = Jr (rc c) R).
    rewrite (around_side ln n e V V' T HVV HV1 HV2 HL Ends s0 rs rc tr Vs Ls Rc Tr Geo Cov Inj HBr (Dj Sm) c R L N). apply (Jr_around (Dj Sm) e V' s0); auto. apply Rc; auto.
  - intros R. unfold Jr. rewrite Nat.eqb_refl. reflexivity.
  - intros Sm R R' N L L' A A'. rewrite <- (Jr_around (Dj Sm) e V' s0) in A, A' by auto.
    exact (around_anti ln n e V V' T HVV HV1 HV2 HL Ends s0 rs rc tr Vs Ls Rc Tr Geo Cov Inj Prp HBr (Dj Sm) R R' N L L' A A').
  - apply es_length.
  - intros c L. destruct (at_c c L) as (r & Q & _). exists (ledge_of (rc c, tr c)). split; [|reflexivity]. unfold es. rewrite nth_error_map, Q. reflexivity.
  - unfold find_parents. rewrite edges_ok. cbn [bind]. rewrite es_length. fold ln. rewrite Sw. cbn [bind]. destruct R as [(ps & R & Lp & G)|R]; [left|right; exact R].
    exists ps. split; [exact R|]. split; [exact Lp|]. intros R0 L0. destruct (ring_edge R0 L0) as (c & L & <- & _). apply G. exact L.
Qed.
(** The same parents in another arithmetic in which [next] returns whenever it
    does in a faithful one. *)
Theorem parents_same : forall {ar : arith} {fa : faithful ar ln n} (ar2 : arith) tie fuel, bound n V < fuel ->
  (forall sw r, ci_next (ar := ar) ln tie fuel sw = Ok r -> ci_next (ar := ar2) ln tie fuel sw = Ok r) ->
  find_parents (ar := ar2) tie fuel rs = find_parents (ar := ar) tie fuel rs.
Proof.
  intros ar fa ar2 tie fuel Fu Nx. destruct (setup D) as (e & V' & s0 & T & HVV & Vs & Ls & _ & Md).
  destruct (lam_same ln tie n e V V' T HVV HV1 HV2 (cands3 ln n) HL rs rc (fun c => side ln n e (fun _ => true) c) false Jr Rc NO Ends HBt HBr) with (ar2 := ar2) (s0 := s0) (es := es) (fuel := fuel) as (sw & Sw & R); auto.
  - intros c L. apply (own e V' s0 T HVV Vs Ls Md c L).
  - intros Sm. discriminate.
  - intros R. unfold Jr. rewrite Nat.eqb_refl. reflexivity.
  - intros Sm. discriminate.
  - apply es_length.
  - intros c L. destruct (at_c c L) as (r & Q & _). exists (ledge_of (rc c, tr c)). split; [|reflexivity]. unfold es. rewrite nth_error_map, Q. reflexivity.
  - unfold find_parents. rewrite edges_ok. cbn [bind]. rewrite es_length. fold ln. rewrite Sw. cbn [bind]. exact R.
Qed.
(** The rings around a point of the plane. *)
Theorem around_q : disjoint ln n rc -> forall parents, (forall R, R < List.length rs -> good_ring rs true Jr R (nth R parents 0)) ->
  forall q, exists inn, (forall R, ring_in (coords R) q = nest Jr inn R) /\ (forall i, inn = Some i -> i < List.length rs) /\
    inr q = match inn with Some i => negb (hole i) | None => false end.
Proof.
  intros Dj parents Gd q. destruct (setup q) as (e & V' & s0 & T & HVV & Vs & Ls & Vq & Md).
  assert (U : forall c, c < n -> P_OpStep.under ln e q c = above (ea c) (ez c) q) by (intros c L; apply (under_above ln n e V V' T HVV HV1 HL); auto).
  destruct (q_top ln n e V V' T HVV HV1 HV2 HL Ends q Vq) as [Z|(c & L & Uc & Tp)].
  - exists None. split; [|split; [discriminate|]].
    + intros R. rewrite <- par_ring. cbn. apply odd_none. intros c I. apply in_seq in I. rewrite <- U, Z by lia. apply andb_false_r.
    + rewrite <- par_all. apply odd_none. intros c I. apply in_seq in I. rewrite <- U, Z by lia. apply andb_false_r.
  - assert (Ring : forall R, ring_in (coords R) q = side ln n e (fun c0 => rc c0 =? R) c).
    { intros R. rewrite <- par_ring, <- (Tp _ (HBr R)). apply par_ext. intros c' L'. symmetry. apply U; auto. }
    assert (All : inr q = side ln n e (fun _ => true) c).
    { rewrite <- par_all, <- (Tp _ HBt). apply par_ext. intros c' L'. symmetry. apply U; auto. }
    pose proof (own e V' s0 T HVV Vs Ls Md c L) as Ow.
    assert (Oth : forall R, R <> rc c -> ring_in (coords R) q = Jr (rc c) R).
    { intros R N. rewrite Ring, (around_side ln n e V V' T HVV HV1 HV2 HL Ends s0 rs rc tr Vs Ls Rc Tr Geo Cov Inj HBr Dj c R L N). apply (Jr_around Dj e V' s0); auto. apply Rc; auto. }
    destruct (side ln n e (fun c0 => rc c0 =? rc c) c) eqn:Sd.
    + exists (Some (rc c)). split; [|split].
      * intros R. cbn [nest]. destruct (Nat.eqb_spec R (rc c)) as [->|N]; cbn [orb]; [rewrite Ring; exact Sd|apply Oth; auto].
      * intros i Q. injection Q as <-. apply Rc; auto.
      * rewrite All. destruct (hole (rc c)), (side ln n e (fun _ => true) c); cbn in *; congruence.
    + destruct (Gd (rc c) (Rc c L)) as [_ G2]. destruct (G2 eq_refl) as (inn & Nest & Dep & Ho). exists inn. split; [|split].
      * intros R. rewrite <- Nest. destruct (Nat.eq_dec R (rc c)) as [->|N]; [|apply Oth; auto]. rewrite Ring, Sd. unfold Jr. rewrite Nat.eqb_refl. reflexivity.
      * intros i Q. apply Dep; auto.
      * rewrite All. destruct inn as [i|].
        -- destruct (Dep i eq_refl) as [_ ->]. destruct (hole (rc c)), (side ln n e (fun _ => true) c); cbn in *; congruence.
        -- destruct (hole (rc c)); [discriminate (Ho eq_refl)|]. destruct (side ln n e (fun _ => true) c); cbn in *; congruence.
Qed.
End Inst.
