(** The polygons that boolean operations return are valid; areas. *)
Require Import List String Bool Arith Lia Permutation.
From Verif Require Import Base Scalar M_Events M_Geo M_LineOrPoint M_Sweep M_Crossings M_Rings M_Op M_Laminar.
From Verif Require Import S_Geo P_Geo P_LineOrPoint P_Run P_Master S_Boundary P_Boundary.
From Verif Require Import M_MonoPoly S_Mono S_Rings P_RingWalk P_Rings Props_Rings S_Op Props_Op1 P_OpPoint P_OpPoly Props_Op2 Props_Op3 S_Laminar P_Laminar Props_Laminar P_LamRun P_LamGeo P_LamSpec P_LamCount P_LamSimple Props_Laminar2.
From Verif Require Import M_MonoSweep M_Chains S_Chains P_MonoTotal Props_Chains Props_Decomp Props_Area S_Cells P_Cells P_CellPieces S_Multi.
Import Datatypes.
Import ListNotations.
Local Open Scope list_scope.
Local Open Scope nat_scope.
Local Notation sum := S_Mono.sum.

Lemma meet_sym : forall e e', meet_at_ends e e' -> meet_at_ends e' e.
Proof. intros e e' M r A B. destruct (M r B A). auto. Qed.
Lemma apart_sym : forall l l', apart l l' -> apart l' l.
Proof. intros l l' A v I J. apply (A v J I). Qed.
Lemma fop_index : forall {X} (R : X -> X -> Prop) l, (forall i j x y, i < j -> nth_error l i = Some x -> nth_error l j = Some y -> R x y) -> ForallOrdPairs R l.
Proof.
  intros X R l. induction l as [|a l IH]; intros H; constructor.
  - apply Forall_forall. intros y I. apply In_nth_error in I as (j & J). apply (H 0 (S j)); auto. lia.
  - apply IH. intros i j x y L A B. apply (H (S i) (S j)); auto. lia.
Qed.

(** ** C68 *)
Section Operation.
Variables (tie : nat -> nat) (presort : list (M_Sweep.crossing nat) -> list (M_Sweep.crossing nat)) (fuel : nat) (tie' : nat -> nat) (fuel' : nat).
Variables (ty : op_type) (A B : list polygon).
Hypothesis CA : all_closed A.
Hypothesis CB : all_closed B.
Hypothesis So : sort_ok presort A B.
Hypothesis Fu : steps_bound (List.length (edges_of A B)) < fuel.
Hypothesis Fu' : enough ty A B fuel'.
Hypothesis Si : simple_vertices ty A B.
Variable rs : list ring.
Hypothesis Op : operate tie presort fuel ty A B = Ok rs.
Let Dj := rings_apart tie presort fuel tie' fuel' ty A B CA CB So Fu Fu' rs Op Si.

Lemma rs_apart : ForallOrdPairs apart (map r_coords rs).
Proof.
  destruct (ring_facts tie presort fuel fuel' ty A B CA CB So Fu Fu' rs Op) as (out & Bd & Pm & Pr & _).
  apply fop_index. intros i j l l' Lt I J v Vi Vj. rewrite nth_error_map in I, J. destruct (nth_error rs i) as [r|] eqn:Qi; [|discriminate]. destruct (nth_error rs j) as [r'|] eqn:Qj; [|discriminate]. injection I as <-. injection J as <-.
  assert (Li : i < List.length rs) by (apply nth_error_Some; congruence). assert (Lj : j < List.length rs) by (apply nth_error_Some; congruence).
  destruct (vertex_edge rs Pr i v Li) as (c & L1 & R1 & D1); [unfold coords; rewrite Qi; auto|]. destruct (vertex_edge rs Pr j v Lj) as (c' & L2 & R2 & D2); [unfold coords; rewrite Qj; auto|].
  apply (Dj c c' v L1 L2); auto. lia.
Qed.
Lemma rs_edges : ForallOrdPairs meet_at_ends (flat_map edges (map r_coords rs)).
Proof.
  destruct (ring_facts tie presort fuel fuel' ty A B CA CB So Fu Fu' rs Op) as (out & Bd & Pm & Pr & _).
  assert (Q : flat_map edges (map r_coords rs) = map snd (redges rs)).
  { unfold redges. generalize 0 as i. clear. induction rs as [|r l IH]; intros i; [reflexivity|]. rewrite redges_cons, map_app, map_map. cbn [map flat_map snd]. rewrite map_id, (IH (S i)). reflexivity. }
  rewrite Q. apply fop_index. intros i j e e' Lt I J. rewrite nth_error_map in I, J. destruct (nth_error (redges rs) i) as [x|] eqn:Qi; [|discriminate]. destruct (nth_error (redges rs) j) as [y|] eqn:Qj; [|discriminate]. cbn [option_map] in I, J. injection I as <-. injection J as <-.
  assert (Li : i < n rs) by (apply nth_error_Some; congruence). assert (Lj : j < n rs) by (apply nth_error_Some; congruence).
  assert (Ti : tr rs i = snd x) by (unfold tr; rewrite Qi; auto). assert (Tj : tr rs j = snd y) by (unfold tr; rewrite Qj; auto).
  intros r A1 A2.
  assert (K : forall c, c < n rs -> forall x, tr rs c = x -> on_seg (fst x) (snd x) r -> P_OpLab.thr (ln rs) r c).
  { intros c L z <- O. unfold P_OpLab.thr. destruct (Geo rs Pr c L) as [Z|Z]; rewrite Z in O; cbn [fst snd] in O; auto. apply on_seg_sym; auto. }
  assert (M : i <> j) by lia. destruct (meet _ _ out rs Bd Pm Pr i j r Li Lj M (K i Li _ Ti A1) (K j Lj _ Tj A2)) as [D1 D2].
  rewrite <- Ti, <- Tj. destruct (Geo rs Pr i Li) as [Z|Z], (Geo rs Pr j Lj) as [Z'|Z']; rewrite Z, Z'; cbn [fst snd]; tauto.
Qed.
Lemma results_valid : forall ps, parents_ok rs ps -> (forall R, R < List.length rs -> good_ring rs true (Jr rs) R (nth R ps 0)) -> forall p, In p (polygons_of rs ps) -> valid_polygon p.
Proof.
  intros ps Po G p Ip. destruct (ring_facts tie presort fuel fuel' ty A B CA CB So Fu Fu' rs Op) as (out & Bd & Pm & Pr & _). pose proof (rings_placed rs ps Po) as P.
  pose proof (fop_perm _ _ _ apart_sym (Permutation_sym P) rs_apart) as Fa. pose proof (fop_perm _ _ _ meet_sym (Permutation_sym (Permutation_flat_map edges P)) rs_edges) as Fe.
  pose proof Ip as Ip'. apply in_split in Ip' as (l1 & l2 & Q).
  assert (Hole : forall k r R, nth_error rs k = Some r -> r_hole r && (nth k ps 0 =? R) = true -> k < List.length rs /\ hole rs k = true /\ (forall R', Jr rs k R' = nest (Jr rs) (Some R) R')).
  { intros k r R Ik Hk. apply andb_true_iff in Hk as [Hk E]. apply Nat.eqb_eq in E. assert (Lk : k < List.length rs) by (apply nth_error_Some; congruence). assert (Hk' : hole rs k = true) by (unfold hole; rewrite Ik; auto).
    split; auto. split; auto. destruct (G k Lk) as [_ G2]. destruct (G2 eq_refl) as (inn & Ne & _ & Ho). specialize (Ho Hk'). rewrite E in Ho. subst inn. auto. }
  assert (Anti : forall R R', R <> R' -> R < List.length rs -> R' < List.length rs -> Jr rs R R' = true -> Jr rs R' R = true -> False).
  { intros R0 R' N L L' J J'. destruct (setup rs Pr (mkC 0%Qc 0%Qc)) as (e & V' & s0 & T & HVV & Vs & Ls & _).
    rewrite <- (Jr_around _ _ out rs Bd Pm Pr Dj e V' s0) in J, J' by auto.
    refine (around_anti (ln rs) (n rs) e (V rs) V' T HVV _ _ (HL rs Pr) (Ends _ _ out rs Bd Pm Pr) s0 rs (rc rs) (tr rs) Vs Ls (Rc rs) (Tr rs) (Geo rs Pr) (Cov rs) (Inj _ _ out rs Bd Pm Pr) (Prp rs Pr) (HBr rs Pr) Dj R0 R' N L L' J J').
    + intros c a z. apply cands1.
    + intros c c' a z a' z' r. apply cands2. }
  assert (Vin : forall k R v r' r, nth_error rs k = Some r' -> nth_error rs R = Some r -> R <> k -> In v (r_coords r') -> ring_in (r_coords r) v = Jr rs k R).
  { intros k R v r' r Ik IR N I. assert (Lk : k < List.length rs) by (apply nth_error_Some; congruence). pose proof (vertex_in _ _ out rs Bd Pm Pr Dj k R v Lk N) as Z. unfold coords in Z. rewrite Ik, IR in Z. auto. }
  assert (Rp : forall l, In l (rings_in [p]) -> proper_ring l).
  { intros l I. assert (I' : In l (rings_in (polygons_of rs ps))). { rewrite Q. unfold rings_in. rewrite flat_map_app. apply in_or_app. right. cbn [flat_map]. apply in_or_app. left. cbn [rings_in flat_map] in I. rewrite app_nil_r in I. auto. }
    apply (Permutation_in _ P) in I'. apply in_map_iff in I' as (r' & <- & I'). rewrite Forall_forall in Pr. auto. }
  assert (Fa' : ForallOrdPairs apart (rings_in [p])).
  { rewrite Q in Fa. unfold rings_in in Fa |- *. rewrite flat_map_app in Fa. cbn [flat_map] in Fa |- *. rewrite app_nil_r. apply FOP_incl in Fa. auto. }
  assert (Fe' : ForallOrdPairs meet_at_ends (all_edges [p])).
  { rewrite Q in Fe. unfold all_edges, rings_in in Fe |- *. rewrite flat_map_app in Fe. cbn [flat_map] in Fe |- *. rewrite app_nil_r. rewrite !flat_map_app in Fe. apply FOP_incl in Fe. auto. }
  clear Fa Fe Q l1 l2. unfold polygons_of in Ip. apply in_map_iff in Ip as ([R r] & <- & Ip). apply filter_In in Ip as [Ip Hr]. apply numbered_in in Ip. cbn [fst snd] in *.
  assert (LR : R < List.length rs) by (apply nth_error_Some; congruence).
  constructor; auto; cbn [pg_interiors pg_exterior].
  - intros h v Ih Iv. unfold holes_of in Ih. apply in_map_iff in Ih as ([k r'] & <- & Ih). apply filter_In in Ih as [Ih Hh]. apply numbered_in in Ih. cbn [fst snd] in *.
    destruct (Hole k r' R Ih Hh) as (Lk & Hk & Ne). assert (N : R <> k) by (intros ->; rewrite Ip in Ih; injection Ih as ->; apply andb_true_iff in Hh as [Hh _]; rewrite Hh in Hr; discriminate).
    rewrite (Vin k R v r' r Ih Ip N Iv), Ne. cbn [nest]. rewrite Nat.eqb_refl. reflexivity.
  - intros H1 h H2 v E Iv h' Ih'. unfold holes_of in E. set (F := filter (fun kr => r_hole (snd kr) && (nth (fst kr) ps 0 =? R)) (numbered rs)) in E.
    apply map_eq_app in E as (F1 & F2 & EF & <- & E2). apply map_eq_cons in E2 as ([k r1] & F3 & -> & <- & <-). cbn [snd] in Iv.
    rewrite <- map_app in Ih'. apply in_map_iff in Ih' as ([k' r2] & <- & Ih'). cbn [snd].
    assert (Ik : In (k, r1) F) by (rewrite EF; apply in_elt). assert (Ik' : In (k', r2) F) by (rewrite EF; apply in_app_iff in Ih' as [I|I]; apply in_or_app; [left|right; right]; auto).
    assert (ND : NoDup F). { apply NoDup_filter. apply (NoDup_map_inv fst). unfold numbered. assert (Z : forall (l : list nat) (m : list ring), List.length l = List.length m -> map fst (combine l m) = l) by (clear; induction l as [|x l IH]; intros [|y m] L; try discriminate; cbn; auto; rewrite IH; auto). rewrite Z by apply seq_length. apply seq_NoDup. }
    assert (N : k <> k').
    { intros <-. rewrite EF in ND. apply NoDup_remove_2 in ND. apply ND. unfold F in Ik, Ik'. apply filter_In in Ik as [Ik _], Ik' as [Ik' _]. apply numbered_in in Ik, Ik'. rewrite Ik in Ik'. injection Ik' as <-. auto. }
    unfold F in Ik, Ik'. apply filter_In in Ik as [Ik Hk], Ik' as [Ik' Hk']. apply numbered_in in Ik, Ik'. cbn [fst snd] in *.
    destruct (Hole k r1 R Ik Hk) as (Lk & Hh & Ne). destruct (Hole k' r2 R Ik' Hk') as (Lk' & Hh' & Ne').
    rewrite (Vin k k' v r1 r2 Ik Ik') by auto. rewrite Ne. cbn [nest].
    assert (NR : k' <> R) by (intros ->; rewrite Ip in Ik'; injection Ik' as ->; apply andb_true_iff in Hk' as [Hk' _]; rewrite Hk' in Hr; discriminate).
    destruct (Nat.eqb_spec k' R) as [Z|_]; [contradiction|]. cbn [orb]. destruct (Jr rs R k') eqn:J; auto. exfalso. apply (Anti R k'); auto. rewrite Ne'. cbn [nest]. rewrite Nat.eqb_refl. reflexivity.
Qed.
End Operation.

(** ** The even-odd rule for a valid polygon *)
Local Open Scope Qc_scope.
Lemma b2q_inj : forall x y, b2q x = b2q y -> x = y. Proof. intros [|] [|] E; auto; discriminate E. Qed.
Lemma count_nonneg : forall {X} (f : X -> bool) l, 0 <= sum (fun x => b2q (f x)) l.
Proof. intros X f l. induction l as [|x l IH]; [apply Qcle_refl|]. rewrite sum_cons. destruct (f x); cbn [b2q]; qcl. Qed.
Lemma count_some : forall {X} (f : X -> bool) l, sum (fun x => b2q (f x)) l < 1 -> forall x, In x l -> f x = false.
Proof.
  intros X f l. induction l as [|x l IH]; intros L y I; [destruct I|]. rewrite sum_cons in L. pose proof (count_nonneg f l) as N. destruct (f x) eqn:E; cbn [b2q] in L; [exfalso; qcl|].
  destruct I as [<- |I]; auto. apply IH; auto. qcl.
Qed.
Lemma rings_wind : forall P q, valid_polygon P -> b2q (inside [P] q) = b2q (ring_in (pg_exterior P) q) - sum (fun h => b2q (ring_in h q)) (pg_interiors P).
Proof.
  intros P q VP.
  assert (R : forall l, In l (rings_in [P]) -> b2q (ring_in l q) = (if turned l false then sum (crossf q) (edges l) else - sum (crossf q) (edges l)) /\
    b2q (ring_in l q) = - (if turned l true then sum (crossf q) (edges l) else - sum (crossf q) (edges l))).
  { intros l I. pose proof (ring_valid P l VP I) as VL. destruct (simple_area l VL) as [W _]. pose proof (valid_wind _ q VL) as V. unfold wind in V. change (sum (crossf q) (map reversed (region_right (mkPolygon l []))) = b2q (inside [mkPolygon l []] q)) in V.
    rewrite part_rings in V by apply cross_turns. cbn [pg_exterior pg_interiors sum fold_right] in V.
    assert (Q : inside [mkPolygon l []] q = ring_in l q) by (unfold inside, ring_in, all_edges, rings_in; cbn [flat_map pg_exterior pg_interiors app]; rewrite app_nil_r; reflexivity).
    rewrite Q in V. rewrite <- V. split; [ring|]. unfold turned. destruct (ls_winding_order l) as [[|]|]; [| |contradiction]; ring. }
  rewrite <- (valid_wind P q VP). unfold wind. change (sum (crossf q) (map reversed (region_right P)) = b2q (ring_in (pg_exterior P) q) - sum (fun h => b2q (ring_in h q)) (pg_interiors P)).
  rewrite part_rings by apply cross_turns. rewrite (proj1 (R (pg_exterior P) (or_introl eq_refl))).
  rewrite (sum_same (fun h => b2q (ring_in h q)) (fun h => (- (1)) * (if turned h true then sum (crossf q) (edges h) else - sum (crossf q) (edges h)))).
  - rewrite sum_scale. ring.
  - intros h I. rewrite (proj2 (R h (or_intror (in_or_app _ [] _ (or_introl I))))). ring.
Qed.
(** A point is in a valid polygon by the even-odd rule over all its rings exactly if it is
    inside the exterior ring and in no interior ring; then it is in at most one interior
    ring, and interior rings do not reach out of the exterior ring. *)
Theorem C68_even_odd_rule : forall P q, valid_polygon P ->
  inside [P] q = polygon_in P q /\
  (forall h, In h (pg_interiors P) -> ring_in h q = true -> ring_in (pg_exterior P) q = true) /\
  (List.length (filter (fun h => ring_in h q) (pg_interiors P)) <= 1)%nat.
Proof.
  intros P q VP. pose proof (rings_wind P q VP) as W. unfold polygon_in. pose proof (count_nonneg (fun h => ring_in h q) (pg_interiors P)) as N.
  assert (S1 : sum (fun h => b2q (ring_in h q)) (pg_interiors P) = b2q (ring_in (pg_exterior P) q) - b2q (inside [P] q)) by (rewrite W; ring).
  assert (Le : (List.length (filter (fun h => ring_in h q) (pg_interiors P)) <= 1)%nat).
  { destruct (count_sum (fun h => ring_in h q) (pg_interiors P)) as [_|C]; [|].
    - assert (Gen : forall l, sum (fun h => b2q (ring_in h q)) l <= 1 -> (List.length (filter (fun h => ring_in h q) l) <= 1)%nat).
      { induction l as [|h l IH]; intros L; [cbn; lia|]. rewrite sum_cons in L. cbn [filter]. destruct (ring_in h q) eqn:E; cbn [b2q] in L; [|apply IH; qcl].
        cbn [List.length]. enough (Z : filter (fun h => ring_in h q) l = []) by (rewrite Z; auto). assert (L' : sum (fun h => b2q (ring_in h q)) l < 1) by qcl. pose proof (count_some (fun h => ring_in h q) l L') as K. clear - K.
        induction l as [|h l IH]; auto. cbn [filter]. rewrite (K h) by (left; auto). apply IH. intros; apply K; right; auto. }
      apply Gen. rewrite S1. destruct (ring_in (pg_exterior P) q), (inside [P] q); cbn [b2q]; qcl.
    - exfalso. clear W. assert (Gen : forall l, (1 < List.length (filter (fun h => ring_in h q) l))%nat -> 1 < sum (fun h => b2q (ring_in h q)) l).
      { induction l as [|h l IH]; intros L; [cbn in L; lia|]. rewrite sum_cons. cbn [filter] in L. destruct (ring_in h q) eqn:E; cbn [b2q]; [|specialize (IH L); qcl].
        cbn [List.length] in L. enough (0 < sum (fun h => b2q (ring_in h q)) l) by qcl. apply Qcnot_le_lt. intros Z. assert (L' : sum (fun h => b2q (ring_in h q)) l < 1) by qcl. pose proof (count_some (fun h => ring_in h q) l L') as K.
        destruct (filter (fun h => ring_in h q) l) as [|x f] eqn:F; [cbn in L; lia|]. assert (I : In x (filter (fun h => ring_in h q) l)) by (rewrite F; left; auto). apply filter_In in I as [I J]. rewrite (K x I) in J. discriminate. }
      apply Gen in C. rewrite S1 in C. destruct (ring_in (pg_exterior P) q), (inside [P] q); cbn [b2q] in C; qcl. }
  destruct (ring_in (pg_exterior P) q) eqn:E; cbn [andb].
  - split; [|split; auto]. destruct (inside [P] q) eqn:I; symmetry.
    + apply forallb_forall. intros h J. rewrite (count_some (fun h => ring_in h q) (pg_interiors P)); auto. rewrite S1. cbn [b2q]. qcl.
    + apply not_true_iff_false. intros F. rewrite forallb_forall in F. rewrite sum_zero in S1; [cbn [b2q] in S1; discriminate S1|]. intros h J. specialize (F h J). destruct (ring_in h q); [discriminate|reflexivity].
  - split; [destruct (inside [P] q); auto; exfalso; cbn [b2q] in S1; qcl|]. split; auto. intros h J R. rewrite (count_some (fun h => ring_in h q) (pg_interiors P)) in R; auto. rewrite S1. destruct (inside [P] q); cbn [b2q]; qcl.
Qed.
Local Open Scope nat_scope.
(** If no more than two pieces of the boundary of the result meet at a vertex, the
    polygons that are returned are valid, do not overlap, have no vertices in common and
    no edges that meet. *)
Theorem C68_results_are_valid : forall tie presort fuel tie' fuel' ty A B mp, all_closed A -> all_closed B -> sort_ok presort A B ->
  steps_bound (List.length (edges_of A B)) < fuel -> enough ty A B fuel' -> simple_vertices ty A B ->
  boolean_op tie presort fuel tie' fuel' ty A B = Ok mp -> valid_multi mp.
Proof.
  intros tie presort fuel tie' fuel' ty A B mp CA CB So Fu Fu' Si R. pose proof R as R0. rewrite boolean_op_split in R. destruct (operate tie presort fuel ty A B) as [rs|m|] eqn:Op; try discriminate. cbn [bind] in R.
  destruct (parents_found tie presort fuel tie' fuel' ty A B CA CB So Fu Fu' rs Op true (fun _ => Si)) as [(ps & _ & Po & As & G)|(Z & _)]; [|discriminate].
  rewrite R in As. injection As as ->. pose proof (rings_placed rs ps Po) as P.
  assert (Each : forall p, In p (polygons_of rs ps) -> valid_polygon p) by (apply (results_valid tie presort fuel tie' fuel' ty A B CA CB So Fu Fu' Si rs Op ps Po G)).
  constructor; auto.
  - apply (fop_perm _ _ _ meet_sym (Permutation_sym (Permutation_flat_map edges P))). apply (rs_edges tie presort fuel fuel' ty A B CA CB So Fu Fu' rs Op).
  - apply (fop_perm _ _ _ apart_sym (Permutation_sym P)). apply (rs_apart tie presort fuel tie' fuel' ty A B CA CB So Fu Fu' Si rs Op).
  - intros q. pose proof (C60_one_polygon_at_every_point tie presort fuel tie' fuel' ty A B _ q CA CB So Fu Fu' Si R0) as C.
    rewrite (filter_ext_in (fun p => inside [p] q) (fun p => polygon_in p q)) by (intros p I; apply (C68_even_odd_rule p q); auto). rewrite C. destruct (in_result ty A B q); lia.
Qed.
