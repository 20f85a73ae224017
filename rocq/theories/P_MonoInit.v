(** Monotone decomposition: the arrangement of a valid polygon. *)
Require Import List String Bool Arith Lia Permutation Sorted.
From Verif Require Import Base Scalar M_Events M_Geo M_LineOrPoint M_MonoPoly M_Rings M_Op.
From Verif Require Import S_Geo P_Geo P_LineOrPoint P_Tilt P_Chain P_Bundle P_Order P_Inv P_Boundary S_Boundary.
From Verif Require Import S_Mono S_Rings P_Rings S_Op Props_Op1 P_OpLab P_OpPoint P_OpStep P_OpPlane P_OpPoly P_OpBoundary P_OpCount P_OpTotal S_Laminar P_Laminar P_LamRun P_LamGeo P_LamSpec.
From Verif Require Import P_MonoGeo S_Chains.
Import Datatypes.
Import ListNotations.
Local Open Scope nat_scope.

Lemma FOP_nth : forall {X} (R : X -> X -> Prop) l i j a b, ForallOrdPairs R l -> i < j -> nth_error l i = Some a -> nth_error l j = Some b -> R a b.
Proof.
  intros X R l i j a b F. revert i j. induction F as [|x l Fx F IH]; intros i j L A B; [destruct i; discriminate|].
  destruct j as [|j]; [lia|]. destruct i as [|i].
  - cbn in A, B. injection A as ->. rewrite Forall_forall in Fx. apply Fx. apply (nth_error_In _ _ B).
  - apply (IH i j); auto. lia.
Qed.
Lemma ring_both : forall l v, proper_ring l -> In v l -> exists a b, In (a, v) (edges l) /\ In (v, b) (edges l).
Proof.
  intros l v (p & l' & -> & N & Ln) I. destruct l' as [|x l1] eqn:El; [cbn in Ln; lia|]. rewrite <- El in *.
  assert (Q : v = p \/ In v l') by (destruct I as [<-|I]; auto; apply in_app_or in I as [I|[<-|[]]]; auto). destruct Q as [->|Q].
  - destruct (exists_last (l := l')) as (l2 & a & Z); [rewrite El; discriminate|]. exists a, x. split; apply edges_in.
    + exists (p :: l2), []. rewrite Z, <- app_assoc. reflexivity.
    + exists [], (l1 ++ [p]). rewrite El. reflexivity.
  - apply in_split in Q as (x1 & y1 & Z). destruct (exists_last (l := p :: x1)) as (x2 & a & Za); [discriminate|].
    assert (Zb : exists b y2, y1 ++ [p] = b :: y2) by (destruct y1 as [|b y1]; [exists p, []|exists b, (y1 ++ [p])]; reflexivity). destruct Zb as (b & y2 & Zb).
    exists a, b. rewrite Z. split; apply edges_in.
    + exists x2, (y1 ++ [p]). rewrite <- app_assoc. cbn [app]. rewrite app_comm_cons, Za, <- app_assoc. reflexivity.
    + exists (p :: x1), y2. rewrite <- app_assoc. cbn [app]. rewrite Zb. reflexivity.
Qed.
(** A parity over edges is the parity of the parities over the rings. *)
Lemma par_split : forall (rc : nat -> nat) (f : nat -> bool) m n, (forall c, c < n -> rc c < m) ->
  par (fun _ => true) n true f = odd (map (fun R => par (fun c => rc c =? R) n true f) (seq 0 m)).
Proof.
  intros rc f m n L. unfold par. cbn [Bool.eqb].
  assert (G : forall l, (forall c, In c l -> rc c < m) -> odd (map (fun c => true && f c) l) = odd (map (fun R => odd (map (fun c => Bool.eqb (rc c =? R) true && f c) l)) (seq 0 m))).
  { induction l as [|c l IH]; intros B; [symmetry; apply odd_none; reflexivity|]. cbn [map]. rewrite (odd_ext _ (fun R => xorb ((rc c =? R) && f c) (odd (map (fun c => Bool.eqb (rc c =? R) true && f c) l)))).
    - rewrite odd_xor, <- IH by (intros; apply B; right; auto). rewrite (odd_one _ (rc c)).
      + rewrite Nat.eqb_refl. reflexivity.
      + apply seq_NoDup.
      + apply in_seq. split; [lia|]. apply B. left; auto.
      + intros x _ N. destruct (Nat.eqb_spec (rc c) x); [congruence|reflexivity].
    - intros R _. cbn [odd fold_right]. f_equal. destruct (rc c =? R); reflexivity. }
  apply G. intros c I. apply in_seq in I. apply L. lia.
Qed.

Section Poly.
Variable P : polygon.
Hypothesis VP : valid_polygon P.
Definition prs : list ring := mkRing (pg_exterior P) false :: map (fun h => mkRing h true) (pg_interiors P).
Notation rs := prs.
Notation n := (n prs).
Notation ln := (ln prs).
Notation rc := (rc prs).
Notation tr := (tr prs).
Notation ea := (ea ln).
Notation ez := (ez ln).
Notation thr := (thr ln).
Notation coords := (coords prs).
Notation ccw := (ccw prs).
Notation hole := (hole prs).

Lemma prs_rings : map r_coords rs = rings_in [P].
Proof. unfold prs, rings_in. cbn [map flat_map r_coords]. rewrite app_nil_r, map_map. cbn [r_coords]. rewrite map_id. reflexivity. Qed.
Lemma Pr : Forall (fun r => proper_ring (r_coords r)) rs.
Proof. apply Forall_forall. intros r I. apply (vp_rings _ VP). rewrite <- prs_rings. apply in_map. exact I. Qed.
Lemma coords_nth : forall R, nth_error (rings_in [P]) R = option_map r_coords (nth_error rs R).
Proof. intros R. rewrite <- prs_rings. apply nth_error_map. Qed.
Lemma coords_at : forall R, R < length rs -> nth_error (rings_in [P]) R = Some (coords R).
Proof. intros R L. rewrite coords_nth. unfold P_LamGeo.coords. destruct (nth_error rs R) eqn:E; auto. apply nth_error_None in E. lia. Qed.
Lemma edges_all : map snd (redges rs) = all_edges [P].
Proof.
  unfold all_edges. rewrite <- prs_rings. unfold redges. generalize 0. induction rs as [|r l IH]; intros i; [reflexivity|].
  rewrite redges_cons, map_app, map_map, (IH (S i)). cbn [snd map flat_map]. rewrite map_id. reflexivity.
Qed.
Lemma edge_at : forall c, c < n -> nth_error (all_edges [P]) c = Some (tr c).
Proof. intros c L. destruct (at_c rs c L) as (r & Q & _). rewrite <- edges_all, nth_error_map, Q. reflexivity. Qed.
Lemma pmeet : forall c c' r, c < n -> c' < n -> c <> c' -> thr r c -> thr r c' -> (r = ea c \/ r = ez c) /\ (r = ea c' \/ r = ez c').
Proof.
  assert (G : forall c c' r, c < c' -> c' < n -> thr r c -> thr r c' -> (r = ea c \/ r = ez c) /\ (r = ea c' \/ r = ez c')).
  { intros c c' r Lc L' T T'. assert (L : c < n) by lia. pose proof (FOP_nth _ _ _ _ _ _ (vp_edges _ VP) Lc (edge_at c L) (edge_at c' L') r) as M.
    assert (On : forall x, x < n -> thr r x -> on_seg (fst (tr x)) (snd (tr x)) r) by (intros x Lx Tx; destruct (Geo rs Pr x Lx) as [Z|Z]; rewrite Z; cbn [fst snd]; [exact Tx|apply on_seg_sym; exact Tx]).
    assert (En : forall x, x < n -> r = fst (tr x) \/ r = snd (tr x) -> r = ea x \/ r = ez x) by (intros x Lx Ex; destruct (Geo rs Pr x Lx) as [Z|Z]; rewrite Z in Ex; cbn [fst snd] in Ex; tauto).
    destruct M as [M1 M2]; auto. }
  intros c c' r L L' N T T'. destruct (Nat.lt_total c c') as [Q|[Q|Q]]; [apply G; auto|contradiction|]. destruct (G c' c r Q L T' T); auto.
Qed.
Lemma plt : forall c, c < n -> lex_lt (ea c) (ez c). Proof. intros c L. apply (geo_ends rs Pr c L). Qed.
Lemma pdiff : forall c c', c < n -> c' < n -> ea c = ea c' -> ez c = ez c' -> c = c'.
Proof.
  intros c c' L L' A B. destruct (Nat.eq_dec c c') as [|N]; auto. exfalso. destruct (inner _ _ (plt c L)) as (m & S). destruct S as (S1 & S2 & S3).
  destruct (pmeet c c' m L L' N) as [[Q|Q] _]; auto. unfold P_OpLab.thr. rewrite <- A, <- B. exact S1.
Qed.
Lemma pNO : no_overlap ln n.
Proof.
  intros c c' r r' L L' N T T' S S'. destruct (pmeet c c' r L L' N T T') as [A A']. destruct (pmeet c c' r' L L' N S S') as [B B'].
  pose proof (plt c L) as L1. pose proof (plt c' L') as L2. destruct (pt_dec r r') as [Q|Q]; auto. exfalso.
  assert (Ne : ea c = ea c' -> ez c = ez c' -> False) by (intros Q1 Q2; apply N; apply pdiff; auto).
  destruct A as [-> | ->], B as [-> | ->]; try congruence; destruct A' as [A' | A'], B' as [B' | B']; try congruence; auto; rewrite A', B' in L1; lord.
Qed.
Lemma pInj : forall c c', c < n -> c' < n -> rc c = rc c' -> tr c = tr c' -> c = c'.
Proof.
  intros c c' L L' _ Q. pose proof (plt c L) as L1. pose proof (plt c' L') as L2. apply pdiff; auto; destruct (Geo rs Pr c L) as [Z|Z], (Geo rs Pr c' L') as [Z'|Z']; rewrite Q, Z' in Z; injection Z as A B; congruence || (rewrite A, B in L2; lord).
Qed.
Definition pV : list pt := flat_map (fun c => [ea c; ez c]) (seq 0 n).
Lemma in_pV : forall v, In v pV <-> exists c, c < n /\ (ea c = v \/ ez c = v).
Proof.
  intros v. unfold pV. rewrite in_flat_map. split.
  - intros (c & I & J). apply in_seq in I. exists c. split; [lia|]. destruct J as [J|[J|[]]]; auto.
  - intros (c & L & J). exists c. split; [apply in_seq; lia|]. destruct J; cbn; auto.
Qed.
Lemma pHL : forall c, c < n -> exists a z, geo ln c = Line a z. Proof. exact (HL rs Pr). Qed.
Lemma pHV1 : forall c a z, c < n -> geo ln c = Line a z -> In a pV /\ In z pV.
Proof. intros c a z L E. destruct (geo_ends rs Pr c L) as (Q & _). rewrite E in Q. injection Q as -> ->. split; apply in_pV; eauto. Qed.
Lemma pHV2 : forall c c' a z a' z' r, c < n -> c' < n -> geo ln c = Line a z -> geo ln c' = Line a' z' ->
  on_seg a z r -> on_seg a' z' r -> (forall r', on_seg a z r' -> on_seg a' z' r' -> r' = r) -> In r pV.
Proof.
  intros c c' a z a' z' r L L' Q Q' O O' U. destruct (geo_ends rs Pr c L) as (E & Lc & _). destruct (geo_ends rs Pr c' L') as (E' & _). rewrite Q in E. rewrite Q' in E'. injection E as -> ->. injection E' as -> ->.
  destruct (Nat.eq_dec c c') as [->|N].
  - exfalso. rewrite (U (ea c')) in Lc by apply on_seg_start. rewrite (U (ez c')) in Lc by apply on_seg_end. lord.
  - destruct (pmeet c c' r L L' N O O') as [D _]. apply in_pV. exists c. split; auto. destruct D; auto.
Qed.
Lemma pEnds : forall v c, c < n -> In v pV -> thr v c -> v = ea c \/ v = ez c.
Proof.
  intros v c L I T. apply in_pV in I as (c' & L' & D). destruct (Nat.eq_dec c c') as [->|N]; [destruct D; auto|]. apply (pmeet c c' v); auto. destruct D as [<- | <-]; [apply on_seg_start|apply on_seg_end].
Qed.
Lemma vertex_coords : forall c v, c < n -> ea c = v \/ ez c = v -> In v (coords (rc c)).
Proof.
  intros c v L D. pose proof (Tr rs c L) as T. destruct (Geo rs Pr c L) as [Z|Z]; rewrite Z in T; apply edges_mem in T as [T1 T2]; destruct D as [<-|<-]; auto.
Qed.
Lemma pDj : disjoint ln n rc.
Proof.
  intros c c' u L L' N D D'. pose proof (vertex_coords c u L D) as I. pose proof (vertex_coords c' u L' D') as I'.
  pose proof (coords_at _ (Rc rs c L)) as Q. pose proof (coords_at _ (Rc rs c' L')) as Q'.
  destruct (Nat.lt_total (rc c) (rc c')) as [Z|[Z|Z]]; [|contradiction|].
  - apply (FOP_nth _ _ _ _ _ _ (vp_apart _ VP) Z Q Q' u); auto.
  - apply (FOP_nth _ _ _ _ _ _ (vp_apart _ VP) Z Q' Q u); auto.
Qed.
Lemma pdeg : forall v, In v pV -> exists c1 c2, c1 < n /\ c2 < n /\ c1 <> c2 /\ inc ln v c1 /\ inc ln v c2 /\ forall c, c < n -> inc ln v c -> c = c1 \/ c = c2.
Proof.
  intros v I. apply in_pV in I as (c0 & L0 & D0). pose proof (vertex_coords c0 v L0 D0) as I. pose proof (Rc rs c0 L0) as LR. pose proof (Prp rs Pr _ LR) as Pp.
  destruct (ring_both _ _ Pp I) as (a & b & Ia & Ib). destruct (Cov rs _ _ LR Ia) as (c1 & L1 & R1 & T1). destruct (Cov rs _ _ LR Ib) as (c2 & L2 & R2 & T2).
  exists c1, c2. split; auto. split; auto. split.
  - intros ->. rewrite T1 in T2. injection T2 as -> ->. apply (proper_neq _ _ _ Pp Ia). reflexivity.
  - split; [|split].
    + destruct (Geo rs Pr c1 L1) as [Z|Z]; rewrite T1 in Z; injection Z as -> ->; unfold inc; auto.
    + destruct (Geo rs Pr c2 L2) as [Z|Z]; rewrite T2 in Z; injection Z as -> ->; unfold inc; auto.
    + intros c L J. apply (at_vertex ln n rs rc tr (Rc rs) (Tr rs) (Geo rs Pr) pInj (Prp rs Pr) c1 c2 c a v b); auto; [congruence|]. rewrite R1.
      destruct (Nat.eq_dec (rc c) (rc c0)) as [|N]; auto. exfalso. apply (pDj c c0 v); auto.
Qed.

(** The edges with the interior below them. *)
Definition ptop (c : nat) : bool := negb (Bool.eqb (dirf tr c) (xorb (ccw (rc c)) (hole (rc c)))).
Lemma hole_0 : hole 0 = false. Proof. reflexivity. Qed.
Lemma hole_S : forall R, S R < length rs -> hole (S R) = true.
Proof.
  intros R L. unfold P_LamRun.hole, prs. cbn [nth_error]. rewrite nth_error_map. destruct (nth_error (pg_interiors P) R) eqn:E; auto.
  apply nth_error_None in E. unfold prs in L. cbn [length] in L. rewrite map_length in L. lia.
Qed.
Lemma coords_S : forall R, S R < length rs -> nth_error (pg_interiors P) R = Some (coords (S R)).
Proof.
  intros R L. unfold P_LamGeo.coords, prs. cbn [nth_error]. rewrite nth_error_map. destruct (nth_error (pg_interiors P) R) eqn:E; auto.
  apply nth_error_None in E. unfold prs in L. cbn [length] in L. rewrite map_length in L. lia.
Qed.

Section At.
Variables (e : Qc) (V' : list pt) (s0 : pt).
Hypothesis HT' : tilts e (fun p => In p V').
Hypothesis HVV : incl pV V'.
Hypothesis Vs0 : In s0 V'.
Hypothesis Ls0 : forall v, In v pV -> lex_lt s0 v.
Notation side := (side ln n e).
Notation around := (around ln n e rc).
Lemma in_around : forall R R' v, R < length rs -> R' <> R -> In v (coords R) -> ring_in (coords R') v = around R R'.
Proof.
  intros R R' v L N I. destruct (vertex_edge rs Pr R v L I) as (c & Lc & <- & D).
  rewrite <- (around_under ln n e pV V' HT' HVV pHV1 pHV2 pHL pEnds s0 rs rc tr Vs0 Ls0 (Rc rs) (Tr rs) (Geo rs Pr) (Cov rs) pInj (HBr rs Pr) pDj c v R' Lc D N), <- (par_ring rs Pr).
  apply par_ext. intros c' L'. symmetry. apply (under_above ln n e pV V' HT' HVV pHV1 pHL). exact L'.
Qed.
Lemma some_vertex : forall R, R < length rs -> exists v, In v (coords R).
Proof. intros R L. destruct (Prp rs Pr R L) as (p & l' & -> & _). exists p. left; auto. Qed.
Lemma hole_in : forall R, S R < length rs -> around (S R) 0 = true.
Proof.
  intros R L. destruct (some_vertex _ L) as (v & I). rewrite <- (in_around (S R) 0 v L) by auto. change (coords 0) with (pg_exterior P). apply (vp_in _ VP (coords (S R))); auto. apply (nth_error_In _ _ (coords_S R L)).
Qed.
Lemma ext_out : forall R, S R < length rs -> around 0 (S R) = false.
Proof.
  intros R L. destruct (around 0 (S R)) eqn:Q; auto. exfalso.
  apply (around_anti ln n e pV V' HT' HVV pHV1 pHV2 pHL pEnds s0 rs rc tr Vs0 Ls0 (Rc rs) (Tr rs) (Geo rs Pr) (Cov rs) pInj (Prp rs Pr) (HBr rs Pr) pDj 0 (S R)); auto; [lia|apply hole_in; auto].
Qed.
Lemma hole_out : forall R R', S R < length rs -> S R' < length rs -> R <> R' -> around (S R) (S R') = false.
Proof.
  intros R R' L L' N. destruct (some_vertex _ L) as (v & I). rewrite <- (in_around (S R) (S R') v L) by auto. pose proof (coords_S R L) as Q. pose proof (coords_S R' L') as Q'.
  apply nth_error_split in Q as (A & B & E & La). apply (vp_out _ VP A (coords (S R)) B v E I). rewrite E in Q'. apply in_or_app.
  destruct (Nat.lt_ge_cases R' (length A)) as [Z|Z]; [left; rewrite nth_error_app1 in Q' by auto; apply (nth_error_In _ _ Q')|right].
  rewrite nth_error_app2 in Q' by auto. destruct (R' - length A) as [|k] eqn:Ek; [lia|]. cbn [nth_error] in Q'. apply (nth_error_In _ _ Q').
Qed.
Lemma side_all : forall c, c < n -> side (fun _ => true) c = Bool.eqb (dirf tr c) (xorb (ccw (rc c)) (hole (rc c))).
Proof.
  intros c L. unfold P_LamGeo.side. rewrite (par_split rc _ (length rs) n (Rc rs)).
  destruct (own_side ln n e pV V' HT' HVV pHV1 pHV2 pHL pNO pEnds s0 rs rc tr Vs0 Ls0 (Rc rs) (Tr rs) (Geo rs Pr) (Cov rs) pInj (Prp rs Pr) (HBr rs Pr) c L) as [_ Ow]. unfold P_LamGeo.side in Ow.
  assert (Oth : forall R, R <> rc c -> par (fun c0 => rc c0 =? R) n true (upto ln e (ea c) c) = around (rc c) R)
    by (intros R N; exact (around_side ln n e pV V' HT' HVV pHV1 pHV2 pHL pEnds s0 rs rc tr Vs0 Ls0 (Rc rs) (Tr rs) (Geo rs Pr) (Cov rs) pInj (HBr rs Pr) pDj c R L N)).
  pose proof (Rc rs c L) as LR. destruct (rc c) as [|R] eqn:ER.
  - rewrite (odd_one _ 0); [|apply seq_NoDup|apply in_seq; lia|].
    + rewrite Ow, hole_0, xorb_false_r. reflexivity.
    + intros R I N. apply in_seq in I. rewrite Oth by auto. destruct R as [|R]; [contradiction|]. apply ext_out. lia.
  - assert (E : length rs = S (length rs - 1)) by lia. rewrite E. cbn [seq map odd fold_right]. rewrite Oth by discriminate. rewrite (hole_in R LR).
    match goal with |- xorb true ?b = _ => assert (Z : b = Bool.eqb (dirf tr c) (ccw (S R))) end.
    { rewrite <- Ow. apply (odd_one (fun R0 => par (fun c0 => rc c0 =? R0) n true (upto ln e (ea c) c)) (S R)); [apply seq_NoDup|apply in_seq; lia|].
      intros k I N. apply in_seq in I. rewrite Oth by auto. destruct k as [|k]; [lia|]. apply hole_out; lia. }
    rewrite Z, (hole_S R LR). destruct (dirf tr c), (ccw (S R)); reflexivity.
Qed.
Theorem poly_geo : mono_geo ln n e pV V' ptop.
Proof.
  constructor.
  - exact HT'.
  - exact HVV.
  - exact pHV1.
  - exact pHV2.
  - exact pHL.
  - exact pNO.
  - exact pEnds.
  - exact pdeg.
  - intros b g. apply (HBt rs Pr).
  - intros c L. unfold ptop. rewrite (side_all c L). reflexivity.
Qed.
Lemma wound : forall R, R < length rs -> ls_winding_order (coords R) = Some (if ccw R then Ccw else Cw).
Proof.
  intros R L. destruct (ring_edge rs Pr R L) as (c & Lc & <- & _).
  destruct (own_side ln n e pV V' HT' HVV pHV1 pHV2 pHL pNO pEnds s0 rs rc tr Vs0 Ls0 (Rc rs) (Tr rs) (Geo rs Pr) (Cov rs) pInj (Prp rs Pr) (HBr rs Pr) c Lc) as [Nn _].
  unfold P_LamGeo.ccw. destruct (ls_winding_order (coords (rc c))) as [[]|]; auto. congruence.
Qed.
End At.
Lemma psetup : forall q, exists e V' s0, tilts e (fun p => In p V') /\ incl pV V' /\ In s0 V' /\ (forall v, In v pV -> lex_lt s0 v) /\ In q V'.
Proof.
  intros q. destruct (below_all pV) as (s0 & B). destruct (tilt_list (s0 :: q :: pV)) as (e & Pe & T). exists e, (s0 :: q :: pV), s0.
  split; [apply (T e Pe (Qcle_refl e))|]. split; [intros v I; right; right; auto|]. split; [left; auto|]. split; [auto|]. right; left; auto.
Qed.
End Poly.
