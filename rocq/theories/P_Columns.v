(** Columns of a piece: where the scanner stands, and that every point of the piece is in one
    of the trapezoids it yields. *)
Require Import List Bool Arith Lia Sorted Permutation ZArith QArith.
From Verif Require Import Base Scalar M_Events M_Geo M_MonoPoly S_Geo P_Geo S_Mono P_Mono Props_Mono S_Raster P_Raster P_RasterArea M_Raster Props_Raster M_Rings M_Op S_Rings S_Op P_OpLab P_OpPoly Props_Op3 M_MonoSweep M_Chains Props_Chains.
From Verif Require Import S_Laminar S_Chains P_MonoAbove P_MonoTotal P_EdgeTotal Props_Decomp Props_Area S_Cells P_Cells P_CellPieces M_RasterUse Props_Cells M_RasterBounds.
Import Datatypes.
Import ListNotations.
Local Open Scope list_scope.
Local Open Scope Qc_scope.
Local Notation sum := S_Mono.sum.

(** ** Where the scanner stands *)
Lemma ends_le : forall top bot p q, mono_pair top bot -> starts_at top p -> ends_at top q -> cx p <= cx q.
Proof.
  intros top bot p q MP Sp Eq. pose proof MP as (p' & q' & S1 & S2 & T1 & T2 & N & I1 & I2). destruct (chain_bounds _ p q p I1 Sp Eq) as [_ B]; [|apply P_MonoAbove.lex_x; auto]. apply (vertex_on_chain _ p' q'); auto. destruct Sp as [k ->]. left; auto.
Qed.
Lemma scan_col : forall m p q s a u, mono_pair (mp_top m) (mp_bot m) -> starts_at (mp_top m) p -> ends_at (mp_top m) q ->
  scan_reach m s -> t_x (sc_curr s) = cl (cx p) (cx q) a -> a <= u ->
  exists s' zs, advance_to s u = Ok (s', zs) /\ scan_reach m s' /\ t_x (sc_curr s') = cl (cx p) (cx q) u /\
    gap_free (cl (cx p) (cx q) a) (cl (cx p) (cx q) u) zs /\ Forall (between_chains (mp_top m) (mp_bot m)) zs.
Proof.
  intros m p q s a u MP Sp Eq R X L.
  assert (E : mp_new (mp_top m) (mp_bot m) = Ok m) by (apply mp_new_ok; split; auto; destruct m; reflexivity).
  destruct (C36_scan_is_gap_free _ _ m s u q E Eq R) as (s' & zs & E1 & R' & G & F & X1 & X2).
  pose proof (ends_le _ _ p q MP Sp Eq) as PQ.
  assert (X' : t_x (sc_curr s') = cl (cx p) (cx q) u).
  { destruct (Qclt_le_dec (t_x (sc_curr s)) u) as [K|K].
    - rewrite (X1 K). rewrite X in K. destruct (cl_case (cx p) (cx q) a PQ) as [[A1 E0]|[[A1 [A1' E0]]|[A1 E0]]], (cl_case (cx p) (cx q) u PQ) as [[A0 E9]|[[A0 [A0' E9]]|[A0 E9]]]; rewrite E0 in K; rewrite E9; destruct (qmin_case u (cx q)) as [[Z ->]|[Z ->]]; auto; try (exfalso; qcl); apply Qcle_antisym; qcl.
    - destruct (X2 K) as [-> _]. rewrite X in K |- *. destruct (cl_case (cx p) (cx q) a PQ) as [[A1 E0]|[[A1 [A1' E0]]|[A1 E0]]], (cl_case (cx p) (cx q) u PQ) as [[A0 E9]|[[A0 [A0' E9]]|[A0 E9]]]; rewrite E0 in K |- *; rewrite E9; auto; apply Qcle_antisym; qcl. }
  exists s', zs. split; auto. split; auto. split; auto. rewrite <- X, <- X'. auto.
Qed.

(** ** Points of a piece and trapezoids *)
Lemma gap_find : forall a b zs x, gap_free a b zs -> a <= x -> x < b -> exists z, In z zs /\ t_x (z_left z) <= x /\ x < t_x (z_right z).
Proof.
  intros a b zs x G. induction G as [a|z a b l E L G IH]; intros H1 H2; [exfalso; qcl|].
  destruct (Qclt_le_dec x (t_x (z_right z))) as [K|K]; [exists z; split; [left; auto|]; split; auto; rewrite E; auto|].
  destruct (IH K H2) as (z' & I & J). exists z'. split; [right; auto|auto].
Qed.
Lemma odd_cons : forall b l, odd (b :: l) = xorb b (odd l). Proof. reflexivity. Qed.
(** Exactly one edge of a chain is above or below a point that is not beyond its ends. *)
Lemma chain_ray : forall l q p r, increasing l -> In (p, r) (edges l) -> cx p <= cx q -> cx q < cx r ->
  odd (map (ray_crosses q) (edges l)) = qltb 0 (cross p r q).
Proof.
  intros l q p r I J H1 H2. induction l as [|v l IH]; [destruct J|]. destruct l as [|w l]; [destruct J|]. rewrite edges_cons in J |- *. cbn [map].
  inversion I as [|? ? I' F]; subst. rewrite odd_cons. destruct J as [J|J].
  - injection J as -> ->. replace (odd (map (ray_crosses q) (edges (r :: l)))) with false.
    + unfold ray_crosses. rewrite (proj2 (qleb_iff _ _) H1), (proj2 (qltb_iff _ _) H2). cbn [andb]. destruct (qltb 0 (cross p r q)); reflexivity.
    + symmetry. assert (K : forall e, In e (edges (r :: l)) -> ray_crosses q e = false).
      { intros [a b] Je. pose proof (in_combine_l _ _ _ _ Je) as Ia. pose proof (in_combine_r _ _ _ _ Je) as Ib. cbn [tl] in Ib.
        assert (La : cx r <= cx a). { destruct Ia as [<- |Ia]; [apply Qcle_refl|]. inversion I' as [|? ? I'' F']; subst. rewrite Forall_forall in F'. apply lex_lt_x; auto. }
        assert (Lb : cx r <= cx b). { inversion I' as [|? ? I'' F']; subst. rewrite Forall_forall in F'. apply lex_lt_x; auto. }
        unfold ray_crosses. rewrite (proj2 (P_Raster.qleb_false _ _)), (proj2 (P_Raster.qleb_false (cx b) _)) by qcl. reflexivity. }
      clear - K. induction (edges (r :: l)) as [|e es IH]; [reflexivity|]. cbn [map]. rewrite odd_cons, K by (left; auto). rewrite IH by (intros; apply K; right; auto). reflexivity.
  - replace (ray_crosses q (v, w)) with false; [rewrite IH by auto; destruct (qltb 0 (cross p r q)); reflexivity|].
    pose proof (in_combine_l _ _ _ _ J) as Ip. assert (Lw : cx w <= cx p). { destruct Ip as [<- |Ip]; [apply Qcle_refl|]. inversion I' as [|? ? I'' F']; subst. rewrite Forall_forall in F'. apply lex_lt_x; auto. }
    assert (Lv : cx v <= cx w). { rewrite Forall_forall in F. apply lex_lt_x, F. left; auto. }
    symmetry. unfold ray_crosses. assert (Z1 : qltb (cx q) (cx w) = false) by (apply not_true_iff_false; rewrite qltb_iff; apply Qcle_not_lt; qcl). assert (Z2 : qltb (cx q) (cx v) = false) by (apply not_true_iff_false; rewrite qltb_iff; apply Qcle_not_lt; qcl). rewrite Z1, Z2, !andb_false_r. reflexivity.
Qed.
(** The side of a trapezoid on a chain decides on which side of the chain a point is. *)
Lemma side_ray : forall l u v q t, increasing l -> on_one_edge l u v -> cx u <= cx q -> cx q < cx v -> cx q = mix (cx u) (cx v) t ->
  odd (map (ray_crosses q) (edges l)) = qltb (mix (cy u) (cy v) t) (cy q).
Proof.
  intros l u v q t I (p & r & J & Su & Sv) H1 H2 T.
  assert (LP : cx p <= cx r) by (apply lex_lt_x, (inc_edge l); auto).
  pose proof (on_seg_x p r u LP Su) as [U1 U2]. pose proof (on_seg_x p r v LP Sv) as [V1 V2].
  rewrite (chain_ray l q p r I J) by qcl.
  destruct Su as (a & A1 & A2 & A3 & A4), Sv as (b & B1 & B2 & B3 & B4).
  assert (W : cx p < cx r) by qcl.
  assert (E : cross p r q = (cx r - cx p) * (cy q - mix (cy u) (cy v) t)).
  { unfold cross, mix in *. rewrite T. rewrite A3, A4, B3, B4. ring. }
  rewrite E. set (d := cx r - cx p) in *. assert (D : 0 < d) by (unfold d; qcl). set (y := mix (cy u) (cy v) t) in *. clearbody d y. clear - D.
  destruct (qltb y (cy q)) eqn:K.
  - apply qltb_iff in K. apply qltb_iff. set (c := cy q) in *. clearbody c. assert (0 < c - y) by qcl. set (e := c - y) in *. clearbody e. clear K. qc.
  - apply not_true_iff_false. rewrite qltb_iff. apply not_true_iff_false in K. rewrite qltb_iff in K. intros Z. apply K. set (c := cy q) in *. clearbody c.
    destruct (Qclt_le_dec y c) as [L|L]; auto. exfalso. assert (c - y <= 0) by qcl. set (e := c - y) in *. clearbody e. clear K L. qc.
Qed.
Lemma piece_scanned : forall m a b zs q, mono_pair (mp_top m) (mp_bot m) -> S_Mono.above (mp_top m) (mp_bot m) ->
  gap_free a b zs -> Forall (between_chains (mp_top m) (mp_bot m)) zs -> a <= cx q -> cx q < b -> piece_in m q = true ->
  exists z t, In z zs /\ 0 <= t /\ t <= 1 /\ cx q = mix (t_x (z_left z)) (t_x (z_right z)) t /\
    mix (t_bot (z_left z)) (t_bot (z_right z)) t < cy q /\ cy q <= mix (t_top (z_left z)) (t_top (z_right z)) t.
Proof.
  intros m a b zs q MP A G F H1 H2 P. destruct MP as (p' & q' & S1 & S2 & E1 & E2 & N & I1 & I2).
  destruct (gap_find a b zs (cx q) G H1 H2) as (z & Iz & L & R). rewrite Forall_forall in F. destruct (F z Iz) as [Ft Fb].
  set (t := (cx q - t_x (z_left z)) / (t_x (z_right z) - t_x (z_left z))).
  assert (D : 0 < t_x (z_right z) - t_x (z_left z)) by qcl.
  assert (T : t * (t_x (z_right z) - t_x (z_left z)) = cx q - t_x (z_left z)) by (unfold t; apply div_mul; intros Z; rewrite Z in D; discriminate D).
  assert (T0 : 0 <= t). { clearbody t. set (d := t_x (z_right z) - t_x (z_left z)) in *. set (e := cx q - t_x (z_left z)) in *. assert (0 <= e) by (unfold e; qcl). clearbody d e. clear - D T H. qc. }
  assert (T1 : t <= 1). { clearbody t. set (d := t_x (z_right z) - t_x (z_left z)) in *. set (e := cx q - t_x (z_left z)) in *. assert (e < d) by (unfold e, d; qcl). clearbody d e. clear - D T H. qc. }
  assert (X : cx q = mix (t_x (z_left z)) (t_x (z_right z)) t) by (unfold mix; rewrite T; ring).
  unfold piece_in in P. rewrite map_app, odd_app in P.
  rewrite (side_ray _ (top_of (z_left z)) (top_of (z_right z)) q t I1 Ft L R X), (side_ray _ (bot_of (z_left z)) (bot_of (z_right z)) q t I2 Fb L R X) in P. cbn [top_of bot_of cx cy] in P.
  pose proof (above_area m z A (conj Ft Fb)) as (_ & Z1 & Z2). clearbody t.
  set (yt := mix (t_top (z_left z)) (t_top (z_right z)) t) in *. set (yb := mix (t_bot (z_left z)) (t_bot (z_right z)) t) in *.
  assert (O : yb <= yt). { unfold yt, yb, mix. set (lb := t_bot (z_left z)) in *. set (lt := t_top (z_left z)) in *. set (rb := t_bot (z_right z)) in *. set (rt := t_top (z_right z)) in *. clearbody lb lt rb rt. clear - T0 T1 Z1 Z2. qc. }
  assert (G2 : yb < cy q /\ cy q <= yt).
  { clearbody yt yb. clear - O P. destruct (qltb yt (cy q)) eqn:K1, (qltb yb (cy q)) eqn:K2; try discriminate P.
    - apply qltb_iff in K1. apply not_true_iff_false in K2. rewrite qltb_iff in K2. exfalso. apply K2. qcl.
    - apply qltb_iff in K2. split; auto. apply not_true_iff_false in K1. rewrite qltb_iff in K1. apply Qcnot_lt_le; auto. }
  exists z, t. destruct G2. auto 10.
Qed.
