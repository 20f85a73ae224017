(** Sums over the boundaries of the pieces of a decomposition. *)
Require Import List Bool Arith Lia Sorted Permutation.
From Verif Require Import Base Scalar M_Events M_Geo M_MonoPoly S_Geo P_Geo S_Mono P_Mono Props_Mono S_Raster P_RasterArea M_Raster Props_Raster M_Rings M_Op S_Rings S_Op P_OpLab P_OpPoly M_MonoSweep M_Chains Props_Chains.
From Verif Require Import S_Laminar S_Chains P_MonoAbove P_MonoTotal P_EdgeTotal Props_Decomp Props_Area S_Cells P_Cells.
Import Datatypes.
Import ListNotations.
Local Open Scope list_scope.
Local Open Scope Qc_scope.
Local Notation sum := S_Mono.sum.

(** ** Quantities that change sign with the direction of an edge *)
Definition turns (f : pt * pt -> Qc) : Prop := forall e, f (reversed e) = - f e.
Lemma rev_twice : forall e, reversed (reversed e) = e. Proof. intros [a b]. reflexivity. Qed.
Lemma turns_flat : forall f a, turns f -> f (a, a) = 0.
Proof. intros f a T. specialize (T (a, a)). change (reversed (a, a)) with (a, a) in T. set (x := f (a, a)) in *. clearbody x. qcl. Qed.
Lemma turns_rev : forall f l, turns f -> sum f (map reversed l) = - sum f l.
Proof. intros f l T. induction l as [|e l IH]; [cbn; ring|]. cbn [map]. rewrite !sum_cons, IH, T. ring. Qed.
Lemma turns_real : forall f l, turns f -> sum f (filter real_edge l) = sum f l.
Proof.
  intros f l T. induction l as [|[a b] l IH]; auto. cbn [filter]. rewrite sum_cons. destruct (real_edge (a, b)) eqn:R; [rewrite sum_cons; congruence|].
  unfold real_edge in R. cbn [fst snd] in R. apply negb_false_iff, peqb_iff in R. subst b. rewrite IH, turns_flat by auto. ring.
Qed.
Definition between (f : pt * pt -> Qc) (m : mono_poly) : Qc := sum f (edges (mp_bot m)) - sum f (edges (mp_top m)).
Lemma turns_pieces : forall f presort pick P ms, turns f -> (forall l, Permutation (presort l) l) -> monotone_chains presort pick P = Ok ms ->
  sum (between f) ms = sum f (map reversed (region_right P)).
Proof.
  intros f presort pick P ms T Ps E. destruct (C42_edges_of_the_pieces presort pick P ms Ps E) as (d & Pm). apply (sum_perm f) in Pm. rewrite sum_flat, !sum_app, turns_rev, turns_real in Pm by auto.
  rewrite turns_rev by auto. assert (Z : sum (between f) ms = - sum (fun a => sum f (piece_edges a)) ms).
  { clear - T. induction ms as [|m ms IH]; [cbn; ring|]. rewrite !sum_cons, IH. unfold between, piece_edges. rewrite sum_app, turns_rev by auto. ring. }
  rewrite Z, Pm. ring.
Qed.
Lemma qleb_false : forall a b, qleb a b = false -> b < a.
Proof. intros a b E. apply Qcnot_le_lt. intros L. apply qleb_iff in L. congruence. Qed.
Lemma signed_turns : forall a b c, turns (signed_over a b c).
Proof.
  intros a b c [p q]. unfold signed_over. change (reversed (p, q)) with (q, p). change (reversed (q, p)) with (p, q). cbn [fst snd].
  assert (V : forall u v : pt, cx u = cx v -> over_edge a b c (u, v) = 0).
  { intros u v E. unfold over_edge. cbn [fst snd]. destruct (qltb_case (qmax a (cx u)) (qmin b (cx v))) as [[K ->]|[K ->]]; auto. exfalso. rewrite <- E in K. destruct (qmax_case a (cx u)) as [[A E1]|[A E1]], (qmin_case b (cx u)) as [[B E2]|[B E2]]; rewrite E1, E2 in K; qcl. }
  destruct (qleb (cx q) (cx p)) eqn:E1, (qleb (cx p) (cx q)) eqn:E2; try ring.
  - apply qleb_iff in E1. apply qleb_iff in E2. rewrite !V by (apply Qcle_antisym; auto). ring.
  - exfalso. apply qleb_false in E1. apply qleb_false in E2. apply (Qclt_not_le _ _ E1), Qclt_le_weak, E2.
Qed.
Definition cellf (a b c d : Qc) (e : pt * pt) : Qc := signed_over a b d e - signed_over a b c e.
Lemma cellf_turns : forall a b c d, turns (cellf a b c d).
Proof. intros a b c d e. unfold cellf. rewrite !signed_turns. ring. Qed.
Definition crossf (q : pt) (e : pt * pt) : Qc := sgn e * b2q (ray_crosses q e).
Lemma cross_turns : forall q, turns (crossf q).
Proof.
  intros q [a b]. change (reversed (a, b)) with (b, a). unfold crossf, sgn. cbn [fst snd]. rewrite (ray_sym q b a). destruct (qleb (cx b) (cx a)) eqn:E1, (qleb (cx a) (cx b)) eqn:E2; try ring.
  - apply qleb_iff in E1. apply qleb_iff in E2. assert (E : cx a = cx b) by (apply Qcle_antisym; auto). unfold ray_crosses. rewrite E.
    assert (Z : qleb (cx b) (cx q) && qltb (cx q) (cx b) = false) by (apply not_true_iff_false; intros Z; apply andb_true_iff in Z as [Z1 Z2]; apply qleb_iff in Z1; apply qltb_iff in Z2; apply (Qclt_not_le _ _ Z2 Z1)). rewrite !Z. cbn. ring.
  - exfalso. apply qleb_false in E1. apply qleb_false in E2. apply (Qclt_not_le _ _ E1), Qclt_le_weak, E2.
Qed.

(** ** The boundary runs once around every point of the polygon *)
Lemma b2q_one : forall (l : list (pt * pt)) (f : pt * pt -> bool), NoDup l -> (forall e e', In e l -> In e' l -> f e = true -> f e' = true -> e = e') -> sum (fun e => b2q (f e)) l = b2q (odd (map f l)).
Proof.
  induction l as [|e l IH]; intros f Nd U; auto. inversion Nd as [|? ? N Nd']; subst. rewrite sum_cons. cbn [map]. change (odd (f e :: map f l)) with (xorb (f e) (odd (map f l))). destruct (f e) eqn:F.
  - rewrite sum_zero, odd_none; [cbn; ring| |]; intros x I; destruct (f x) eqn:G; auto; exfalso; apply N; rewrite (U e x); auto; [left; auto|right; auto|left; auto|right; auto].
  - rewrite IH; auto; [destruct (odd _); cbn; ring|]. intros a b A B. apply U; right; auto.
Qed.
Lemma ray_x : forall q a b, cx a <= cx b -> ray_crosses q (a, b) = true -> cx a <= cx q /\ cx q < cx b /\ 0 < cross a b q.
Proof.
  intros q a b L R. unfold ray_crosses in R. destruct (qleb (cx a) (cx q) && qltb (cx q) (cx b)) eqn:E.
  - apply andb_true_iff in E as [E1 E2]. apply qleb_iff in E1. apply qltb_iff in E2. apply qltb_iff in R. auto.
  - destruct (qleb (cx b) (cx q) && qltb (cx q) (cx a)) eqn:E'; [|discriminate]. apply andb_true_iff in E' as [E1 E2]. apply qleb_iff in E1. apply qltb_iff in E2. exfalso. qcl.
Qed.
Lemma x_ray : forall q a b, cx a <= cx q -> cx q < cx b -> 0 < cross a b q -> ray_crosses q (a, b) = true.
Proof. intros q a b L1 L2 C. unfold ray_crosses. rewrite (proj2 (qleb_iff _ _) L1), (proj2 (qltb_iff _ _) L2). cbn [andb]. apply qltb_iff. auto. Qed.
Lemma chain_cross : forall l q, increasing l -> sum (crossf q) (edges l) = b2q (odd (map (ray_crosses q) (edges l))).
Proof.
  intros l q I. rewrite <- b2q_one; [|apply inc_nodup; auto|].
  - apply sum_same. intros [a b] J. unfold crossf, sgn. cbn [fst snd]. rewrite (proj2 (qleb_iff _ _) (lex_x _ _ (lex_lt_le _ _ (inc_edge l a b I J)))). ring.
  - intros [a b] [c d] J K R1 R2. apply ray_x in R1 as (A1 & A2 & _); [|apply lex_x, lex_lt_le, (inc_edge l); auto]. apply ray_x in R2 as (B1 & B2 & _); [|apply lex_x, lex_lt_le, (inc_edge l); auto].
    destruct (inc_order l a b c d I J K) as [Q|[Q|Q]]; auto; exfalso; apply lex_x in Q; qcl.
Qed.
Lemma chain_span : forall l p q x, starts_at l p -> ends_at l q -> cx p <= x -> x < cx q -> exists a b, In (a, b) (edges l) /\ cx a <= x /\ x < cx b.
Proof.
  intros l p q x [k ->]. revert p. induction k as [|v k IH]; intros p [k' E] L1 L2.
  - exfalso. destruct k' as [|y k']; [|destruct k'; discriminate]. injection E as ->. qcl.
  - destruct (Qclt_le_dec x (cx v)) as [L|L].
    + exists p, v. split; [rewrite edges_cons; left; auto|auto].
    + destruct (IH v) as (a & b & I & A & B); auto.
      * destruct k' as [|y k']; [discriminate|]. injection E as _ E. exists k'. auto.
      * exists a, b. split; auto. rewrite edges_cons. right; auto.
Qed.
Lemma odd_true : forall {X} (f : X -> bool) l, odd (map f l) = true -> exists x, In x l /\ f x = true.
Proof. intros X f l O. destruct (existsb f l) eqn:E; [apply existsb_exists in E; auto|]. rewrite odd_none in O; [discriminate|]. intros x I. destruct (f x) eqn:F; auto. rewrite <- E. symmetry. apply existsb_exists; eauto. Qed.
Lemma span_on : forall (a b : pt) x, cx a <= x -> x < cx b -> on_seg a b (mkC x (height_at (a, b) x)).
Proof.
  intros a b x L1 L2. exists ((x - cx a) / (cx b - cx a)). assert (N : cx b - cx a <> 0) by (apply pos_ne; qcl). assert (Z : (x - cx a) / (cx b - cx a) * (cx b - cx a) = x - cx a) by (apply div_mul; auto).
  unfold height_at. cbn [cx cy fst snd]. set (t := (x - cx a) / (cx b - cx a)) in *. clearbody t. assert (W : 0 < cx b - cx a) by qcl. set (w := cx b - cx a) in *. set (y := x - cx a) in *. assert (Y1 : 0 <= y) by (unfold y; qcl). assert (Y2 : y < w) by (unfold y, w; qcl).
  split; [|split; [|split; [|reflexivity]]].
  - clearbody w y. clear - Z W Y1. apply Qcnot_lt_le. intros K. qc.
  - clearbody w y. clear - Z W Y2. apply Qcnot_lt_le. intros K. qc.
  - rewrite Z. unfold y. ring.
Qed.
Lemma cross_height : forall (a b q : pt), cx a < cx b -> cross a b q = (cx b - cx a) * (cy q - height_at (a, b) (cx q)).
Proof. intros a b q L. unfold cross, height_at. cbn [fst snd]. field. apply pos_ne. qcl. Qed.
Lemma piece_wind : forall m q, mono_pair (mp_top m) (mp_bot m) -> S_Mono.above (mp_top m) (mp_bot m) -> between (crossf q) m = b2q (piece_in m q).
Proof.
  intros m q (p & e & S1 & S2 & E1 & E2 & N & I1 & I2) A. unfold between, piece_in. rewrite !chain_cross, map_app, odd_app by auto.
  destruct (odd (map (ray_crosses q) (edges (mp_top m)))) eqn:T, (odd (map (ray_crosses q) (edges (mp_bot m)))) eqn:B; cbn; try ring. exfalso.
  apply odd_true in T as ([a b] & J & R). pose proof (lex_x _ _ (lex_lt_le _ _ (inc_edge _ a b I1 J))) as X. apply ray_x in R as (R1 & R2 & R3); auto.
  destruct (chain_bounds _ p e a I1 S1 E1) as [B1 _]; [exists a, b; split; auto; apply on_seg_start|]. destruct (chain_bounds _ p e b I1 S1 E1) as [_ B2]; [exists a, b; split; auto; apply on_seg_end|]. apply lex_x in B1. apply lex_x in B2.
  destruct (chain_span (mp_bot m) p e (cx q) S2 E2) as (c & d & K & K1 & K2); [qcl|qcl|].
  assert (H : height_at (c, d) (cx q) <= height_at (a, b) (cx q)) by (apply (A (mkC (cx q) (height_at (a, b) (cx q))) (mkC (cx q) (height_at (c, d) (cx q)))); auto; [exists a, b|exists c, d]; auto using span_on).
  assert (R : ray_crosses q (c, d) = true).
  { apply x_ray; auto. rewrite cross_height in R3 |- * by qcl. assert (W1 : 0 < cx b - cx a) by qcl. assert (W2 : 0 < cx d - cx c) by qcl.
    assert (Y : 0 < cy q - height_at (a, b) (cx q)). { set (w := cx b - cx a) in *. set (y := cy q - height_at (a, b) (cx q)) in *. clearbody w y. clear - R3 W1. apply Qcnot_le_lt. intros Z. qc. }
    assert (Y' : 0 < cy q - height_at (c, d) (cx q)) by qcl. set (w := cx d - cx c) in *. set (y := cy q - height_at (c, d) (cx q)) in *. clearbody w y. clear - W2 Y'. qc. }
  assert (Z : sum (crossf q) (edges (mp_bot m)) = 0) by (rewrite chain_cross, B by auto; reflexivity).
  rewrite (sum_one _ _ (c, d)) in Z; [|apply inc_nodup; auto|auto|].
  - unfold crossf, sgn in Z. cbn [fst snd] in Z. rewrite R in Z. destruct (qleb (cx c) (cx d)); discriminate Z.
  - intros [u v] J' Ne. unfold crossf. destruct (ray_crosses q (u, v)) eqn:R'; [|cbn; ring]. exfalso. apply Ne. apply ray_x in R' as (U1 & U2 & _); [|apply lex_x, lex_lt_le, (inc_edge (mp_bot m)); auto].
    destruct (inc_order _ u v c d I2 J' K) as [Q|[Q|Q]]; auto; exfalso; apply lex_x in Q; qcl.
Qed.
Lemma count_sum : forall {X} (f : X -> bool) l, sum (fun x => b2q (f x)) l = b2q (length (filter f l) =? 1)%nat \/ (1 < length (filter f l))%nat.
Proof.
  intros X f l. induction l as [|x l IH]; [left; reflexivity|]. rewrite sum_cons. cbn [filter]. destruct (f x); cbn [b2q length].
  - destruct IH as [IH|IH]; [|right; lia]. destruct (length (filter f l)) as [|[|k]] eqn:L; [left|right; lia|right; lia]. rewrite IH. cbn. ring.
  - destruct IH as [IH|IH]; [left|right; lia]. rewrite IH. ring.
Qed.
Theorem valid_wind : forall P q, valid_polygon P -> wind (map reversed (region_right P)) q = b2q (inside [P] q).
Proof.
  intros P q VP. set (presort := fun l : list event => l). set (pick := fun (_ : list nat) (_ _ : nat) => 0%nat).
  assert (Ps : forall l, Permutation (presort l) l) by (intros; apply Permutation_refl).
  destruct (C61_decomposition_succeeds presort pick _ Ps VP) as (ms & E). unfold wind. fold (crossf q).
  change (sum (crossf q) (map reversed (region_right P)) = b2q (inside [P] q)). rewrite <- (turns_pieces _ presort pick P ms (cross_turns q) Ps E).
  rewrite (sum_same _ (fun m => b2q (piece_in m q))).
  2:{ intros m I. apply piece_wind; [apply (C41_pieces_are_monotone _ _ _ _ E m I)|apply (C63_top_over_bottom _ _ _ _ Ps VP E m I)]. }
  pose proof (C62_each_point_in_one_piece presort pick P ms Ps VP E q) as C. destruct (count_sum (fun m => piece_in m q) ms) as [-> | K]; [rewrite C; destruct (inside [P] q); reflexivity|]. rewrite C in K. destruct (inside [P] q); lia.
Qed.

(** ** The area of a valid polygon in a rectangle *)
Lemma ring_turned : forall f l hole, turns f -> sum f (map reversed (map reversed (region_left (mkRing l hole)))) = if turned l hole then sum f (edges l) else - sum f (edges l).
Proof. intros f l hole T. unfold region_left, turned. cbn [r_coords r_hole]. destruct (ls_winding_order l) as [[|]|], hole; rewrite !turns_rev by auto; ring. Qed.
Lemma part_rings : forall f P, turns f -> sum f (map reversed (region_right P)) =
  (if turned (pg_exterior P) false then sum f (edges (pg_exterior P)) else - sum f (edges (pg_exterior P))) +
  sum (fun h => if turned h true then sum f (edges h) else - sum f (edges h)) (pg_interiors P).
Proof.
  intros f P T. unfold region_right. cbn [flat_map]. rewrite map_app, sum_app, ring_turned by auto. f_equal. rewrite turns_rev, sum_flat, sum_map by auto.
  rewrite (sum_same (fun h => if turned h true then sum f (edges h) else - sum f (edges h)) (fun h => (- (1)) * sum f (map reversed (region_left (mkRing h true))))).
  - rewrite sum_scale. ring.
  - intros h _. rewrite <- ring_turned, turns_rev by auto. ring.
Qed.
Definition region (P : polygon) : list (pt * pt) := map reversed (region_right P).
Lemma wind01 : forall P, valid_polygon P -> forall q, wind (region P) q = 0 \/ wind (region P) q = 1.
Proof. intros P VP q. unfold region. rewrite valid_wind by auto. destruct (inside [P] q); auto. Qed.
Lemma part_nonneg : forall P a b c d, valid_polygon P -> a <= b -> c <= d -> 0 <= part (region P) a b c d.
Proof.
  intros P a b c d VP L1 L2. apply Qcle_lt_or_eq in L1 as [L1| ->].
  - apply Qcle_lt_or_eq in L2 as [L2| ->]; [apply (part_ok _ (wind01 P VP) a b c d L1 L2)|]. unfold part. rewrite sum_zero; [apply Qcle_refl|]. intros; ring.
  - unfold part. rewrite sum_zero; [apply Qcle_refl|]. intros e _. rewrite !signed_sgn, !over_nil. ring.
Qed.
Lemma cell_part : forall P a b c d, valid_polygon P -> a <= b -> c <= d -> cell_area P a b c d = part (region P) a b c d.
Proof.
  intros P a b c d VP L1 L2. unfold part, region. fold (cellf a b c d). change (cell_area P a b c d = sum (cellf a b c d) (map reversed (region_right P))). rewrite part_rings by apply cellf_turns.
  assert (R : forall l, In l (rings_in [P]) -> ring_cell a b c d l = (if turned l false then sum (cellf a b c d) (edges l) else - sum (cellf a b c d) (edges l)) /\
    ring_cell a b c d l = - (if turned l true then sum (cellf a b c d) (edges l) else - sum (cellf a b c d) (edges l))).
  { intros l I. pose proof (ring_valid P l VP I) as VL. destruct (simple_area l VL) as [W _]. pose proof (part_nonneg _ a b c d VL L1 L2) as N. unfold part, region in N. fold (cellf a b c d) in N.
    change (0 <= sum (cellf a b c d) (map reversed (region_right (mkPolygon l [])))) in N. rewrite part_rings in N by apply cellf_turns. cbn [pg_exterior pg_interiors sum fold_right] in N.
    assert (M : ring_cell a b c d l = if turned l false then sum (cellf a b c d) (edges l) else - sum (cellf a b c d) (edges l)).
    { unfold ring_cell. fold (cellf a b c d). change (magnitude (sum (cellf a b c d) (edges l)) = if turned l false then sum (cellf a b c d) (edges l) else - sum (cellf a b c d) (edges l)).
      set (s := sum (cellf a b c d) (edges l)) in *. clearbody s. unfold magnitude. destruct (turned l false), (qleb 0 s) eqn:Q; auto.
      - apply qleb_false in Q. exfalso. qcl.
      - apply qleb_iff in Q. apply Qcle_antisym; qcl. }
    split; auto. rewrite M. unfold turned. destruct (ls_winding_order l) as [[|]|]; [| |contradiction]; ring. }
  unfold cell_area. rewrite (proj1 (R (pg_exterior P) (or_introl eq_refl))). rewrite (sum_same (ring_cell a b c d) (fun h => (- (1)) * (if turned h true then sum (cellf a b c d) (edges h) else - sum (cellf a b c d) (edges h)))).
  - rewrite sum_scale. ring.
  - intros h I. rewrite (proj2 (R h (or_intror (in_or_app _ [] _ (or_introl I))))). ring.
Qed.
