(** C84: the result of a boolean operation does not depend on how the operands are
    written, nor on the order of equal events. *)
Require Import List String Bool Arith Lia Permutation.
From Verif Require Import Base Scalar M_Events M_Geo M_LineOrPoint M_Sweep M_Crossings M_Rings M_Op M_Laminar.
From Verif Require Import S_Geo P_Geo P_LineOrPoint P_Run P_Master S_Boundary P_Boundary.
From Verif Require Import M_MonoPoly S_Mono S_Rings P_RingWalk P_Rings Props_Rings S_Op Props_Op1 P_OpPoint P_OpPoly Props_Op2 Props_Op3 S_Laminar P_Laminar Props_Laminar P_LamRun P_LamGeo P_LamSpec P_LamCount P_LamSimple Props_Laminar2.
From Verif Require Import M_MonoSweep M_Chains S_Chains P_MonoTotal Props_Chains Props_Decomp Props_Area S_Cells P_Cells P_CellPieces S_Multi Props_Valid Props_OpArea Props_Expr S_Written P_Cycles P_Layout.
Import Datatypes.
Import ListNotations.
Local Open Scope list_scope.
Local Open Scope nat_scope.

(** ** How the polygons of a result are laid out *)
Section Operation.
Variables (tie : nat -> nat) (presort : list (M_Sweep.crossing nat) -> list (M_Sweep.crossing nat)) (fuel : nat) (tie' : nat -> nat) (fuel' : nat).
Variables (ty : op_type) (A B : list polygon).
Hypothesis CA : all_closed A.
Hypothesis CB : all_closed B.
Hypothesis So : sort_ok presort A B.
Hypothesis Fu : steps_bound (List.length (edges_of A B)) < fuel.
Hypothesis Fu' : enough ty A B fuel'.
Hypothesis Si : simple_vertices ty A B.

Lemma run_laid_out : forall mp, boolean_op tie presort fuel tie' fuel' ty A B = Ok mp -> exists out, boundary (edges_of A B) (in_result ty A B) out /\ laid_out out mp /\ not_mutual mp /\ nested mp.
Proof.
  intros mp R. pose proof (C68_results_are_valid tie presort fuel tie' fuel' ty A B mp CA CB So Fu Fu' Si R) as VM.
  destruct (C58_returned_rings_are_the_boundary tie presort fuel tie' fuel' ty A B mp CA CB So Fu Fu' R) as (_ & Pp & out0 & Bd0 & gs & Pg & Nf).
  rewrite boolean_op_split in R. destruct (operate tie presort fuel ty A B) as [rs|m|] eqn:Op; try discriminate. cbn [bind] in R.
  destruct (parents_found tie presort fuel tie' fuel' ty A B CA CB So Fu Fu' rs Op true (fun _ => Si)) as [(ps & _ & Po & As & G)|(Z & _)]; [|discriminate].
  rewrite R in As. injection As as ->. destruct (ring_facts tie presort fuel fuel' ty A B CA CB So Fu Fu' rs Op) as (out & Bd & Pm & Pr & _).
  pose proof (rings_apart tie presort fuel tie' fuel' ty A B CA CB So Fu Fu' rs Op Si) as Dj.
  assert (P0 : Permutation out0 out) by (apply (C49_boundary_is_unique (edges_of A B) (edges_of A B) (in_result ty A B)); auto; [apply edges_of_neq|tauto]).
  exists out. split; auto.
  assert (Hole : forall k r R, nth_error rs k = Some r -> r_hole r && (nth k ps 0 =? R) = true -> k < List.length rs /\ hole rs k = true /\ (forall R', Jr rs k R' = nest (Jr rs) (Some R) R')).
  { intros k r R0 Ik Hk. apply andb_true_iff in Hk as [Hk E]. apply Nat.eqb_eq in E. assert (Lk : k < List.length rs) by (apply nth_error_Some; congruence). assert (Hk' : hole rs k = true) by (unfold hole; rewrite Ik; auto).
    split; auto. split; auto. destruct (G k Lk) as [_ G2]. destruct (G2 eq_refl) as (inn & Ne & _ & Ho). specialize (Ho Hk'). rewrite E in Ho. subst inn. auto. }
  assert (Anti : forall R R', R <> R' -> R < List.length rs -> R' < List.length rs -> Jr rs R R' = true -> Jr rs R' R = true -> False).
  { intros R0 R' N L L' J J'. destruct (setup rs Pr (mkC 0%Qc 0%Qc)) as (e & V' & s0 & T & HVV & Vs & Ls & _).
    rewrite <- (Jr_around _ _ out rs Bd Pm Pr Dj e V' s0) in J, J' by auto.
    refine (around_anti (ln rs) (n rs) e (V rs) V' T HVV _ _ (HL rs Pr) (Ends _ _ out rs Bd Pm Pr) s0 rs (rc rs) (tr rs) Vs Ls (Rc rs) (Tr rs) (Geo rs Pr) (Cov rs) (Inj _ _ out rs Bd Pm Pr) (Prp rs Pr) (HBr rs Pr) Dj R0 R' N L L' J J').
    + intros c a z. apply cands1.
    + intros c c' a z a' z' r. apply cands2. }
  assert (Vin : forall k R v r' r, nth_error rs k = Some r' -> nth_error rs R = Some r -> R <> k -> In v (r_coords r') -> ring_in (r_coords r) v = Jr rs k R).
  { intros k R0 v r' r Ik IR N I. assert (Lk : k < List.length rs) by (apply nth_error_Some; congruence). pose proof (vertex_in _ _ out rs Bd Pm Pr Dj k R0 v Lk N) as Z. unfold coords in Z. rewrite Ik, IR in Z. auto. }
  (* the polygons by the numbers of their rings *)
  assert (Pol : forall p, In p (polygons_of rs ps) -> exists R r, nth_error rs R = Some r /\ r_hole r = false /\ p = mkPolygon (r_coords r) (holes_of rs ps R)).
  { intros p I. unfold polygons_of in I. apply in_map_iff in I as ([R0 r] & <- & I). apply filter_In in I as [I H]. apply numbered_in in I. cbn [fst snd] in *. exists R0, r. apply negb_true_iff in H. auto. }
  assert (Hol : forall R h, In h (holes_of rs ps R) -> exists k r, nth_error rs k = Some r /\ r_hole r = true /\ r_hole r && (nth k ps 0 =? R) = true /\ h = r_coords r).
  { intros R0 h I. unfold holes_of in I. apply in_map_iff in I as ([k r] & <- & I). apply filter_In in I as [I H]. apply numbered_in in I. cbn [fst snd] in *. exists k, r. pose proof H as H'. apply andb_true_iff in H' as [H' _]. auto. }
  assert (Rin : forall r, In r (rings_in (polygons_of rs ps)) -> exists k x, nth_error rs k = Some x /\ r = r_coords x).
  { intros r I. apply in_rings in I as (p & I & J). destruct (Pol p I) as (R0 & r0 & Q & _ & ->). destruct J as [<-|J]; [cbn; eauto|]. cbn [pg_interiors] in J. destruct (Hol R0 r J) as (k & x & Qk & _ & _ & ->). eauto. }
  split; [|split].
  2:{ intros r s v w I J N Iv Iw E1 E2. destruct (Rin r I) as (k & x & Q & ->). destruct (Rin s J) as (k' & x' & Q' & ->).
      assert (Nk : k <> k') by (intros ->; rewrite Q in Q'; injection Q' as ->; apply N; reflexivity). rewrite (Vin k k' v x x' Q Q') in E1 by auto. rewrite (Vin k' k w x' x Q' Q) in E2 by auto.
      apply (Anti k k'); auto; apply nth_error_Some; congruence. }
  2:{ intros p h s v I Ih J N Iv W. destruct (Pol p I) as (R0 & r & Q & H & ->). cbn [pg_interiors pg_exterior] in *. destruct (Hol R0 h Ih) as (k & r' & Q' & H' & Hk & ->). destruct (Hole k r' R0 Q' Hk) as (Lk & Hh & Ne).
      destruct (Rin s J) as (k1 & x & Q1 & ->). assert (Nk : k1 <> k) by (intros ->; rewrite Q' in Q1; injection Q1 as ->; apply N; reflexivity).
      rewrite (Vin k k1 v r' x Q' Q1 Nk Iv), Ne. unfold nest. destruct (Nat.eqb_spec k1 R0) as [->|N1]; auto. cbn [orb].
      destruct (some_vertex (r_coords r)) as (w & Ww); [rewrite Forall_forall in Pr; apply Pr; eapply nth_error_In; eauto|]. rewrite <- (Vin R0 k1 w r x Q Q1 N1 Ww). auto. }
  constructor.
  - intros r I. split; auto. apply in_rings in I as (p & I & J). pose proof (vm_each _ VM p I) as Vp.
    assert (J' : In r (rings_in [p])) by (apply in_rings; exists p; split; [left; auto|auto]). apply (simple_area r (ring_valid p r Vp J')).
  - apply (vm_apart _ VM).
  - intros g. assert (K : In g gs <-> exists e, In e (all_edges (polygons_of rs ps)) /\ und e = g).
    { clear - Nf. induction Nf as [|e g' es gs' (x & y & -> & L & D) F IH]; [split; [intros []|intros (e & [] & _)]|].
      assert (U : und e = Line x y) by (destruct D as [-> | ->]; destruct (und_lt x y L); auto). cbn [In]. rewrite IH. split.
      - intros [<-|(e' & I & E)]; [exists e; auto|exists e'; auto].
      - intros (e' & [<-|I] & E); [left; congruence|right; eauto]. }
    rewrite <- K. split; apply Permutation_in; [symmetry|]; rewrite Pg; apply Permutation_map; auto.
  - intros p e I J. destruct (Pol p I) as (R0 & r & Q & H & ->). cbn [pg_exterior] in J. apply (Permutation_in _ (Permutation_sym Pm)). apply in_flat_map. exists r. split; [eapply nth_error_In; eauto|]. rewrite <- H in J. destruct r; exact J.
  - intros p h e I Ih J. destruct (Pol p I) as (R0 & r & Q & H & ->). cbn [pg_interiors] in Ih. destruct (Hol R0 h Ih) as (k & r' & Q' & H' & _ & ->).
    apply (Permutation_in _ (Permutation_sym Pm)). apply in_flat_map. exists r'. split; [eapply nth_error_In; eauto|]. rewrite <- H' in J. destruct r'; exact J.
  - intros p h v I Ih Iv. destruct (Pol p I) as (R0 & r & Q & H & ->). cbn [pg_interiors pg_exterior] in *. destruct (Hol R0 h Ih) as (k & r' & Q' & H' & Hk & ->). destruct (Hole k r' R0 Q' Hk) as (Lk & Hh & Ne).
    assert (Other : forall R1 r1, nth_error rs R1 = Some r1 -> r_hole r1 = false -> ring_in (r_coords r1) v = (R1 =? R0) || Jr rs R0 R1).
    { intros R1 r1 Q1 H1. rewrite (Vin k R1 v r' r1 Q' Q1); auto; [rewrite Ne; reflexivity|]. intros ->. congruence. }
    split; [rewrite (Other R0 r Q H), Nat.eqb_refl; reflexivity|]. intros p' I' In'. destruct (Pol p' I') as (R1 & r1 & Q1 & H1 & ->). cbn [pg_exterior] in *. rewrite (Other R1 r1 Q1 H1) in In'.
    destruct (Nat.eqb_spec R1 R0) as [->|N]; [left; rewrite Q in Q1; injection Q1 as ->; reflexivity|]. right. intros w W. rewrite (Vin R0 R1 w r r1 Q Q1 N W). exact In'.
  - intros p p' v v' I I' N Iv Iv' E1 E2. destruct (Pol p I) as (R0 & r & Q & H & ->). destruct (Pol p' I') as (R1 & r1 & Q1 & H1 & ->). cbn [pg_exterior] in *.
    assert (NR : R0 <> R1) by (intros ->; rewrite Q in Q1; injection Q1 as ->; apply N; reflexivity). rewrite (Vin R0 R1 v r r1 Q Q1) in E1 by auto. rewrite (Vin R1 R0 v' r1 r Q1 Q) in E2 by auto.
    apply (Anti R0 R1); auto; apply nth_error_Some; congruence.
Qed.
End Operation.

(** ** The same operands written differently *)
Definition same_sides (E E' : list (pt * pt)) : Prop := forall a b, In (a, b) E -> In (a, b) E' \/ In (b, a) E'.
Lemma boundary_sides : forall E E' inr inr' out, same_sides E E' -> same_sides E' E -> (forall q, inr q = inr' q) -> boundary E inr out -> boundary E' inr' out.
Proof.
  assert (Pl : forall E E', same_sides E E' -> same_sides E' E -> forall m, S_Boundary.plain E m -> S_Boundary.plain E' m).
  { intros E E' H H' m [P1 P2]. split.
    - intros a b I. destruct (H' a b I) as [J|J]; destruct (P1 _ _ J); auto.
    - assert (K : forall a b, In (a, b) E' -> on_seg a b m -> exists c d, In (c, d) E /\ on_seg c d m /\ forall r, on_seg c d r <-> on_seg a b r).
      { intros a b I O. destruct (H' a b I) as [J|J]; [exists a, b; repeat split; auto|exists b, a]. split; auto. split; [apply on_seg_sym; auto|]. intros r. split; apply on_seg_sym. }
      intros a b a' b' I I' O O'. destruct (K a b I O) as (c & d & J & O1 & W). destruct (K a' b' I' O') as (c' & d' & J' & O1' & W').
      destruct (P2 c d c' d' J J' O1 O1') as (r & N & A & B). exists r. split; auto. split; [apply W; auto|apply W'; auto]. }
  assert (Vi : forall E E', same_sides E' E -> forall m q, S_Boundary.visible E m q -> S_Boundary.visible E' m q).
  { intros E E' H' m q Vq r O N a b I J. destruct (H' a b I) as [K|K]; [apply (Vq r O N _ _ K); auto|apply (Vq r O N _ _ K), on_seg_sym; auto]. }
  intros E E' inr inr' out H H' Eq [b1 b2 b3 b4 b5]. constructor; auto.
  - intros g w I. destruct (b1 g w I) as (x & y & -> & L & (a & b & Ie & O1 & O2) & N1 & N2 & P). exists x, y. split; auto. split; auto. split.
    + destruct (H a b Ie) as [J|J]; [exists a, b; auto|exists b, a; split; auto; split; apply on_seg_sym; auto].
    + split; [intros Q; apply N1, (Pl E' E); auto|]. split; [intros Q; apply N2, (Pl E' E); auto|]. intros m M. apply (Pl E E'); auto.
  - intros x y w m q I M Vq C. rewrite <- Eq. apply (b3 x y w m q I M); auto. apply (Vi E' E); auto.
  - intros x y w m q I M Vq C. rewrite <- Eq. apply (b4 x y w m q I M); auto. apply (Vi E' E); auto.
  - intros a b m q q' I O P Vq Vq' C C' N. rewrite <- !Eq in N. destruct (H' a b I) as [J|J].
    + apply (b5 a b m q q' J O); auto; [apply (Pl E' E)|apply (Vi E' E)|apply (Vi E' E)]; auto.
    + apply (b5 b a m q' q J); auto; [apply on_seg_sym|apply (Pl E' E)|apply (Vi E' E)|apply (Vi E' E)| |]; auto.
      * unfold cross in *. qcl.
      * unfold cross in *. qcl.
Qed.
Lemma inside_same : forall A A' q, same_rings A A' -> inside A q = inside A' q.
Proof.
  intros A A' q (rs & P & F). unfold inside, all_edges. rewrite !odd_flat. rewrite <- (Props_Op3.odd_perm _ _ (Permutation_map (fun r => odd (map (ray_crosses q) (edges r))) P)). f_equal. clear P.
  induction F as [|r r' l l' S F IH]; [reflexivity|]. cbn [map]. f_equal; auto. apply (ring_in_same r r' q S).
Qed.
Lemma forall2_l : forall {X} (S : X -> X -> Prop) l l', Forall2 S l l' -> forall r, In r l -> exists r', In r' l' /\ S r r'.
Proof. intros X S l l' F. induction F as [|x y l l' H F IH]; intros r; [intros []|]. intros [<-|R]; [exists y; split; [left|]; auto|]. destruct (IH r R) as (r' & I & S'). exists r'. split; [right|]; auto. Qed.
Lemma forall2_r : forall {X} (S : X -> X -> Prop) l l', Forall2 S l l' -> forall r, In r l' -> exists r', In r' l /\ S r' r.
Proof. intros X S l l' F. induction F as [|x y l l' H F IH]; intros r; [intros []|]. intros [<-|R]; [exists x; split; [left|]; auto|]. destruct (IH r R) as (r' & I & S'). exists r'. split; [right|]; auto. Qed.
Lemma sides_same : forall A A', same_rings A A' -> same_sides (proper_edges A) (proper_edges A') /\ same_sides (proper_edges A') (proper_edges A).
Proof.
  intros A A' (rs & P & F). unfold proper_edges.
  assert (Q : forall r r', same_ring r r' -> same_sides (ring_edges r) (ring_edges r') /\ same_sides (ring_edges r') (ring_edges r)).
  { intros r r' S. unfold ring_edges. rewrite (same_length _ _ S). destruct (List.length r' <=? 3); [split; intros a b []|].
    assert (Sy : forall a b, negb (pt_eqb a b) = negb (pt_eqb b a)) by (intros a b; f_equal; apply Bool.eq_iff_eq_true; rewrite !pt_eqb_iff; split; auto).
    split; intros a b I; apply filter_In in I as [I N]; cbn [fst snd] in N; destruct (same_edges _ _ S) as [K|K].
    - left. apply filter_In. split; auto. apply (Permutation_in _ K); auto.
    - right. apply (Permutation_in _ K) in I. apply in_map_iff in I as ([c d] & Z & I). injection Z as -> ->. apply filter_In. split; auto. cbn [fst snd]. rewrite Sy. auto.
    - left. apply filter_In. split; auto. apply (Permutation_in _ (Permutation_sym K)); auto.
    - right. apply filter_In. split; [|cbn [fst snd]; rewrite Sy; auto]. apply (Permutation_in _ (Permutation_sym K)). apply in_map_iff. exists (a, b). auto. }
  split; intros a b I; apply in_flat_map in I as (r & R & I).
  - assert (exists r', In r' rs /\ same_ring r r') as (r' & R' & S) by (apply (forall2_l _ _ _ F r R)).
    apply (Permutation_in _ P) in R'. destruct (proj1 (Q _ _ S) a b I); [left|right]; apply in_flat_map; eauto.
  - apply (Permutation_in _ (Permutation_sym P)) in R. assert (exists r', In r' (rings_in A) /\ same_ring r' r) as (r' & R' & S) by (apply (forall2_r _ _ _ F r R)).
    destruct (proj2 (Q _ _ S) a b I); [left|right]; apply in_flat_map; eauto.
Qed.
Lemma closed_same : forall A A', same_rings A A' -> all_closed A -> all_closed A'.
Proof.
  intros A A' (rs & P & F) C r R. apply (Permutation_in _ (Permutation_sym P)) in R. assert (exists r', In r' (rings_in A) /\ same_ring r' r) as (r' & R' & S) by (apply (forall2_r _ _ _ F r R)).
  apply (same_closed r' r); auto.
Qed.

(** ** C84 *)
Section Same.
Variables (ty ty' : op_type) (A B A' B' : list polygon).
Hypothesis CA : all_closed A.
Hypothesis CB : all_closed B.
Hypothesis CA' : all_closed A'.
Hypothesis CB' : all_closed B'.
Hypothesis HS : same_sides (edges_of A B) (edges_of A' B').
Hypothesis HS' : same_sides (edges_of A' B') (edges_of A B).
Hypothesis HI : forall q, in_result ty A B q = in_result ty' A' B' q.

Lemma boundary_moved : forall out, boundary (edges_of A B) (in_result ty A B) out -> boundary (edges_of A' B') (in_result ty' A' B') out.
Proof. intros out. apply boundary_sides; auto. Qed.
Lemma boundary_back : forall out, boundary (edges_of A' B') (in_result ty' A' B') out -> boundary (edges_of A B) (in_result ty A B) out.
Proof. intros out. apply boundary_sides; auto. Qed.
Lemma returned_laid : forall out mp, boundary (edges_of A B) (in_result ty A B) out -> (forall p, List.length (S_Rings.turns p out) <= 2) -> laid_out out mp ->
  forall tie presort fuel tie' fuel', sort_ok presort A' B' -> steps_bound (List.length (edges_of A' B')) < fuel -> enough ty' A' B' fuel' ->
  exists mp', boolean_op tie presort fuel tie' fuel' ty' A' B' = Ok mp' /\ same_polygons mp mp'.
Proof.
  intros out mp Bd T La tie presort fuel tie' fuel' So1 Fu1 Fu1'.
  assert (Si1 : simple_vertices ty' A' B') by (exists out; split; auto; apply boundary_moved; auto).
  destruct (C59_simple_vertices_return tie presort fuel tie' fuel' ty' A' B' CA' CB' So1 Fu1 Fu1' Si1) as (mp' & R' & _). exists mp'. split; auto.
  destruct (run_laid_out tie presort fuel tie' fuel' ty' A' B' CA' CB' So1 Fu1 Fu1' Si1 mp' R') as (out' & Bd' & La' & _).
  apply boundary_back in Bd'.
  assert (P : Permutation out' out) by (apply (C49_boundary_is_unique (edges_of A B) (edges_of A B) (in_result ty A B)); auto; [apply edges_of_neq|tauto]).
  apply (same_layout out mp mp'); auto.
  - intros g w I. destruct (bd_piece _ _ _ Bd g w I) as (x & y & -> & Pc). exists x, y. split; auto. apply Pc.
  - apply (bd_once _ _ _ Bd).
  - apply (laid_perm out' out); auto.
Qed.
Lemma returned_same : forall mp, returns ty A B mp -> forall tie presort fuel tie' fuel', sort_ok presort A' B' -> steps_bound (List.length (edges_of A' B')) < fuel -> enough ty' A' B' fuel' ->
  exists mp', boolean_op tie presort fuel tie' fuel' ty' A' B' = Ok mp' /\ same_polygons mp mp'.
Proof.
  intros mp (t0 & p0 & f0 & t0' & f0' & So & Fu & Fu' & Si & R) tie presort fuel tie' fuel' So1 Fu1 Fu1'.
  destruct (run_laid_out t0 p0 f0 t0' f0' ty A B CA CB So Fu Fu' Si mp R) as (out & Bd & La & _). apply (returned_laid out mp); auto.
  intros p. destruct Si as (out1 & Bd1 & T). assert (P1 : Permutation out1 out) by (apply (C49_boundary_is_unique (edges_of A B) (edges_of A B) (in_result ty A B)); auto; [apply edges_of_neq|tauto]).
  rewrite <- (Permutation_length (turns_perm p _ _ P1)). apply T.
Qed.
Lemma computed_same : forall mp mp', computes ty A B mp -> computes ty' A' B' mp' ->
  exists gs gs', Forall2 normal_form (all_edges mp) gs /\ Forall2 normal_form (all_edges mp') gs' /\ Permutation gs gs'.
Proof.
  intros mp mp' (t & p & f & t' & f' & So & Fu & Fu' & R) (t1 & p1 & f1 & t1' & f1' & So1 & Fu1 & Fu1' & R1).
  destruct (C58_returned_rings_are_the_boundary t p f t' f' ty A B mp CA CB So Fu Fu' R) as (_ & _ & out & Bd & gs & Pg & Nf).
  destruct (C58_returned_rings_are_the_boundary t1 p1 f1 t1' f1' ty' A' B' mp' CA' CB' So1 Fu1 Fu1' R1) as (_ & _ & out' & Bd' & gs' & Pg' & Nf').
  apply boundary_back in Bd'. exists gs, gs'. split; auto. split; auto. rewrite Pg, Pg'. apply Permutation_map.
  apply (C49_boundary_is_unique (edges_of A B) (edges_of A B) (in_result ty A B)); auto; [apply edges_of_neq|tauto].
Qed.
End Same.

Lemma sides_app : forall E1 E2 F1 F2, same_sides E1 F1 -> same_sides E2 F2 -> same_sides (E1 ++ E2) (F1 ++ F2).
Proof. intros E1 E2 F1 F2 H1 H2 a b I. apply in_app_iff in I as [I|I]; [destruct (H1 _ _ I)|destruct (H2 _ _ I)]; [left|right|left|right]; apply in_app_iff; auto. Qed.
Lemma sides_swap : forall E F, same_sides (E ++ F) (F ++ E).
Proof. intros E F a b I. left. apply in_app_iff in I as [I|I]; apply in_app_iff; auto. Qed.
Lemma same_result : forall ty A B A' B' q, same_rings A A' -> same_rings B B' -> in_result ty A B q = in_result ty A' B' q.
Proof. intros ty A B A' B' q SA SB. unfold in_result. rewrite (inside_same A A' q SA), (inside_same B B' q SB). reflexivity. Qed.

(** Writing the rings of the operands from another vertex, in the other direction,
    in another order or in other polygons changes neither that there is a result
    nor, up to the same differences, which polygons it consists of. *)
Theorem C84_written_differently : forall ty A B A' B' mp, all_closed A -> all_closed B -> same_rings A A' -> same_rings B B' -> returns ty A B mp ->
  forall tie presort fuel tie' fuel', sort_ok presort A' B' -> steps_bound (List.length (edges_of A' B')) < fuel -> enough ty A' B' fuel' ->
    exists mp', boolean_op tie presort fuel tie' fuel' ty A' B' = Ok mp' /\ same_polygons mp mp'.
Proof.
  intros ty A B A' B' mp CA CB SA SB R tie presort fuel tie' fuel' So Fu Fu'. destruct (sides_same _ _ SA) as [A1 A2]. destruct (sides_same _ _ SB) as [B1 B2].
  apply (returned_same ty ty A B A' B'); auto; try (eapply closed_same; eauto; fail); [apply sides_app; auto|apply sides_app; auto|].
  intros q. apply same_result; auto.
Qed.
Lemma same_rings_refl : forall A, same_rings A A.
Proof. intros A. exists (rings_in A). split; auto. induction (rings_in A); constructor; auto. exists a. auto. Qed.
(** Two runs on the same operands, whatever the order among equal events and
    whatever the sort does with equal crossings, return the same polygons. *)
Theorem C84_order_of_events : forall ty A B mp mp', all_closed A -> all_closed B -> returns ty A B mp -> returns ty A B mp' -> same_polygons mp mp'.
Proof.
  intros ty A B mp mp' CA CB R (t & p & f & t' & f' & So & Fu & Fu' & _ & R'). destruct (C84_written_differently ty A B A B mp CA CB (same_rings_refl A) (same_rings_refl B) R t p f t' f' So Fu Fu') as (m & Em & S).
  rewrite R' in Em. injection Em as ->. exact S.
Qed.
(** The operands of union, intersection and symmetric difference can be exchanged. *)
Theorem C84_operands_exchanged : forall ty A B mp, ty <> Difference -> all_closed A -> all_closed B -> returns ty A B mp ->
  forall tie presort fuel tie' fuel', sort_ok presort B A -> steps_bound (List.length (edges_of B A)) < fuel -> enough ty B A fuel' ->
    exists mp', boolean_op tie presort fuel tie' fuel' ty B A = Ok mp' /\ same_polygons mp mp'.
Proof.
  intros ty A B mp N CA CB R tie presort fuel tie' fuel' So Fu Fu'. apply (returned_same ty ty A B B A); auto; try apply sides_swap.
  intros q. unfold in_result. destruct ty; cbn [result]; auto using orb_comm, andb_comm, xorb_comm. contradiction.
Qed.
(** Also where boundaries touch in a vertex, the edges of the result are the same. *)
Theorem C84_same_edges : forall ty A B A' B' mp mp', all_closed A -> all_closed B -> same_rings A A' -> same_rings B B' -> computes ty A B mp -> computes ty A' B' mp' ->
  exists gs gs', Forall2 normal_form (all_edges mp) gs /\ Forall2 normal_form (all_edges mp') gs' /\ Permutation gs gs'.
Proof.
  intros ty A B A' B' mp mp' CA CB SA SB R R'. destruct (sides_same _ _ SA) as [A1 A2]. destruct (sides_same _ _ SB) as [B1 B2].
  apply (computed_same ty ty A B A' B'); auto; try (eapply closed_same; eauto; fail); [apply sides_app; auto|apply sides_app; auto|].
  intros q. apply same_result; auto.
Qed.

(** A square written from another corner and clockwise. *)
Definition low_square' : list polygon := [mkPolygon (ringz [(6, 6); (6, 0); (0, 0); (0, 6); (6, 6)]%Z) []].
Example C84_example : all_closed low_square /\ all_closed high_square /\ low_square <> low_square' /\ same_rings low_square low_square' /\
  (exists D, returns Difference low_square high_square D /\ List.length D = 1) /\
  (exists D', returns Difference low_square' high_square D' /\ List.length D' = 1).
Proof.
  split; [intros r [<-|[]]; vm_compute; reflexivity|]. split; [intros r [<-|[]]; vm_compute; reflexivity|].
  split; [intros E; apply (f_equal (fun l => match l with p :: _ => match pg_exterior p with c :: _ => qeqb (cx c) 0%Qc | [] => false end | [] => false end)) in E; vm_compute in E; discriminate|].
  split.
  - exists (rings_in low_square'). split; auto. constructor; [|constructor]. exists (ringz [(6, 6); (0, 6); (0, 0); (6, 0); (6, 6)]%Z). split; [right|right; vm_compute; reflexivity].
    exists (pz 0 0), [pz 6 0], (pz 6 6), [pz 0 6]. split; vm_compute; reflexivity.
  - split; by_check.
Qed.
