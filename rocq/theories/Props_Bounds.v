(** Rows and columns reached by a polygon: what the loops over [cross_ubounds] and
    [cross_bounds] return for the pieces of a valid polygon. *)
Require Import String List Bool Arith Lia Sorted Permutation ZArith QArith.
From Verif Require Import Base Scalar M_Events M_Geo M_MonoPoly S_Geo P_Geo S_Mono P_Mono Props_Mono S_Raster P_Raster P_RasterArea M_Raster Props_Raster M_Rings M_Op S_Rings S_Op P_OpLab P_OpPoly Props_Op3 M_MonoSweep M_Chains Props_Chains.
From Verif Require Import S_Laminar S_Chains P_MonoAbove P_MonoTotal P_EdgeTotal Props_Decomp Props_Area S_Cells P_Cells P_CellPieces M_RasterUse Props_Cells M_RasterBounds P_Columns P_Vertices.
Import Datatypes.
Import ListNotations.
Local Open Scope list_scope.
Local Open Scope Qc_scope.
Local Notation sum := S_Mono.sum.

(** ** The calls of [cross_ubounds] *)
Lemma sorted_head : forall (a : Qc) u l, StronglySorted Qcle (a :: u :: l) -> a <= u /\ StronglySorted Qcle (u :: l).
Proof. intros a u l S. inversion S as [|? ? S' F]; subst. inversion F; subst. auto. Qed.
Lemma ubounds_ok : forall m p q lo hi n, mono_pair (mp_top m) (mp_bot m) -> S_Mono.above (mp_top m) (mp_bot m) -> starts_at (mp_top m) p -> ends_at (mp_top m) q -> lo < hi -> (1 <= n)%nat ->
  forall rights s a, scan_reach m s -> t_x (sc_curr s) = cl (cx p) (cx q) a -> StronglySorted Qcle (a :: rights) ->
  exists bs, ubounds_cols lo hi n s rights = Ok bs /\ List.length bs = List.length rights /\
    forall i, (i < List.length rights)%nat -> exists zs,
      gap_free (cl (cx p) (cx q) (nth i (a :: rights) 0)) (cl (cx p) (cx q) (nth i rights 0)) zs /\ Forall (between_chains (mp_top m) (mp_bot m)) zs /\
      ((misses_band zs lo hi /\ nth i bs (n, 0%nat) = (n, 0%nat)) \/ (~ misses_band zs lo hi /\ rows_of zs lo hi n (fst (nth i bs (n, 0%nat))) (snd (nth i bs (n, 0%nat))))).
Proof.
  intros m p q lo hi n MP A Sp Eq LH N. assert (E : mp_new (mp_top m) (mp_bot m) = Ok m) by (apply mp_new_ok; split; auto; destruct m; reflexivity).
  induction rights as [|u rights IH]; intros s a R X So; [exists []; split; [reflexivity|]; split; [reflexivity|]; intros i L; inversion L|].
  apply sorted_head in So as [L So]. destruct (scan_col m p q s a u MP Sp Eq R X L) as (s' & zs & E1 & R' & X' & G & F).
  destruct (IH s' u R' X' So) as (bs & E2 & Le & V).
  assert (C : exists b, cross_ubounds s u lo hi n = Ok (s', b) /\ ((misses_band zs lo hi /\ b = (n, 0%nat)) \/ (~ misses_band zs lo hi /\ rows_of zs lo hi n (fst b) (snd b)))).
  { destruct (C39_cross_ubounds _ _ m s u lo hi n E A R LH N) as (s1 & zs1 & E1' & C). rewrite E1 in E1'. injection E1' as <- <-.
    destruct C as [[M C]|[M (j & k & C & Rw)]]; [exists (n, 0%nat)|exists (j, k)]; auto. }
  destruct C as (b & C & H). exists (b :: bs). cbn [ubounds_cols]. rewrite C. cbn [bind]. rewrite E2. cbn [bind]. split; auto. split; [cbn; lia|].
  intros [|i] Hi; cbn [nth]; [exists zs; auto|]. apply V. cbn in Hi. lia.
Qed.
Lemma in_row_band : forall lo hi n j y, lo < hi -> (1 <= n)%nat -> in_row lo hi n j y -> y <= hi.
Proof.
  intros lo hi n j y LH N (J & _ & [K|[_ ->]]); [|apply Qcle_refl]. pose proof (row_le lo hi n LH N (S j) n J) as Z. rewrite row_n in Z by auto. qcl.
Qed.
Lemma piece_ubounds_ok : forall m lo hi n left rights, mono_pair (mp_top m) (mp_bot m) -> S_Mono.above (mp_top m) (mp_bot m) -> lo < hi -> (1 <= n)%nat -> StronglySorted Qcle (left :: rights) ->
  exists bs, piece_ubounds lo hi n left rights m = Ok bs /\ List.length bs = List.length rights /\
    forall i, (i < List.length rights)%nat -> exists p q zs, starts_at (mp_top m) p /\ ends_at (mp_top m) q /\
      gap_free (cl (cx p) (cx q) (nth i (left :: rights) 0)) (cl (cx p) (cx q) (nth i rights 0)) zs /\ Forall (between_chains (mp_top m) (mp_bot m)) zs /\
      ((misses_band zs lo hi /\ nth i bs (n, 0%nat) = (n, 0%nat)) \/ (~ misses_band zs lo hi /\ rows_of zs lo hi n (fst (nth i bs (n, 0%nat))) (snd (nth i bs (n, 0%nat))))).
Proof.
  intros m lo hi n left rights MP A LH N So. pose proof MP as (p & q & S1 & S2 & E1 & E2 & Ne & I1 & I2).
  assert (E : mp_new (mp_top m) (mp_bot m) = Ok m) by (apply mp_new_ok; split; auto; destruct m; reflexivity).
  destruct (C36_scan_lines _ _ m left p q E S1 E1) as (s & Es & R & X).
  destruct (ubounds_ok m p q lo hi n MP A S1 E1 LH N rights s left R X So) as (bs & B1 & B2 & B3).
  exists bs. unfold piece_ubounds. rewrite Es. cbn [bind]. split; auto. split; auto. intros i Hi. destruct (B3 i Hi) as (zs & Z). exists p, q, zs. tauto.
Qed.
Lemma nth_le : forall l (a : Qc) i, StronglySorted Qcle (a :: l) -> (i < List.length l)%nat -> nth i (a :: l) 0 <= nth i l 0.
Proof.
  induction l as [|u l IH]; intros a i So Hi; [cbn in Hi; lia|]. apply sorted_head in So as [L So]. destruct i as [|i]; cbn [nth]; auto. apply (IH u i); auto. cbn in Hi. lia.
Qed.
Lemma cl_id : forall x1 x2 x y, x1 <= x2 -> x1 <= x -> x < x2 -> (y <= x -> cl x1 x2 y <= x) /\ (x < y -> x < cl x1 x2 y).
Proof.
  intros x1 x2 x y L L1 L2. destruct (cl_case x1 x2 y L) as [[A ->]|[[A [A' ->]]|[A ->]]]; split; intros; auto; qcl.
Qed.
(** A point in a piece is not beyond the ends of the piece. *)
Lemma piece_range : forall m p q r, mono_pair (mp_top m) (mp_bot m) -> starts_at (mp_top m) p -> ends_at (mp_top m) q -> piece_in m r = true -> cx p <= cx r /\ cx r < cx q.
Proof.
  intros m p q r MP Sp Eq P. destruct MP as (p' & q' & S1 & S2 & E1 & E2 & N & I1 & I2).
  assert (p' = p) by (destruct S1 as [k1 K1], Sp as [k2 K2]; congruence). assert (q' = q) by (destruct E1 as [k1 K1], Eq as [k2 K2]; rewrite K1 in K2; apply app_inj_tail in K2; tauto). subst p' q'.
  assert (K : forall l, increasing l -> starts_at l p -> ends_at l q -> forall e, In e (edges l) -> ray_crosses r e = true -> cx p <= cx r /\ cx r < cx q).
  { intros l I S E [a b] J C. pose proof (in_combine_l _ _ _ _ J) as Ia. pose proof (in_combine_r _ _ _ _ J) as Ib. assert (Ib' : In b l) by (destruct l; [destruct Ib|right; auto]).
    destruct (chain_bounds l p q a I S E) as [A1 A2]; [apply (vertex_on_chain l p q); auto|]. destruct (chain_bounds l p q b I S E) as [B1 B2]; [apply (vertex_on_chain l p q); auto|].
    apply P_MonoAbove.lex_x in A1, A2, B1, B2.
    unfold ray_crosses in C. destruct (qleb (cx a) (cx r) && qltb (cx r) (cx b)) eqn:C1.
    - apply andb_true_iff in C1 as [C1 C2]. apply qleb_iff in C1. apply qltb_iff in C2. split; qcl.
    - destruct (qleb (cx b) (cx r) && qltb (cx r) (cx a)) eqn:C3; [|discriminate]. apply andb_true_iff in C3 as [C3 C2]. apply qleb_iff in C3. apply qltb_iff in C2. split; qcl. }
  unfold piece_in in P. assert (X : exists e, In e (edges (mp_top m) ++ edges (mp_bot m)) /\ ray_crosses r e = true).
  { clear - P. induction (edges (mp_top m) ++ edges (mp_bot m)) as [|e l IH]; [discriminate|]. cbn [map] in P. rewrite odd_cons in P. destruct (ray_crosses r e) eqn:C; [exists e; split; [left; auto|auto]|]. rewrite xorb_false_l in P. destruct (IH P) as (e' & I & C'). exists e'. split; [right; auto|auto]. }
  destruct X as (e & I & C). apply in_app_iff in I as [I|I]; [apply (K (mp_top m)) with e; auto|apply (K (mp_bot m)) with e; auto].
Qed.
(** ** C70 *)
(** Whoever asks all pieces of a valid polygon for the rows of all columns never meets a
    panic, and gets for every column and every point of the polygon in it the row of the
    point from some piece. *)
Theorem C70_no_cell_is_missed : forall presort pick P ms left rights lo hi n, (forall l, Permutation (presort l) l) -> valid_polygon P ->
  monotone_chains presort pick P = Ok ms -> StronglySorted Qcle (left :: rights) -> lo < hi -> (1 <= n)%nat ->
  exists bss, Forall2 (fun m bs => piece_ubounds lo hi n left rights m = Ok bs /\ List.length bs = List.length rights) ms bss /\
    forall q i j, inside [P] q = true -> (i < List.length rights)%nat -> nth i (left :: rights) 0 <= cx q -> cx q < nth i rights 0 ->
      lo < cy q -> in_row lo hi n j (cy q) ->
      exists bs jmin jmax, In bs bss /\ nth_error bs i = Some (jmin, jmax) /\ (jmin <= j)%nat /\ (j <= jmax)%nat.
Proof.
  intros presort pick P ms left rights lo hi n Ps VP E So LH N.
  assert (Hm : forall m, In m ms -> mono_pair (mp_top m) (mp_bot m) /\ S_Mono.above (mp_top m) (mp_bot m)) by (intros m I; split; [apply (C41_pieces_are_monotone _ _ _ _ E m I)|apply (C63_top_over_bottom _ _ _ _ Ps VP E m I)]).
  set (ok := fun m bs => piece_ubounds lo hi n left rights m = Ok bs /\ List.length bs = List.length rights).
  assert (Bs : exists bss, Forall2 ok ms bss).
  { clear - Hm So LH N. induction ms as [|m ms IH]; [exists []; constructor|]. destruct IH as (bss & F); [intros; apply Hm; right; auto|]. destruct (Hm m) as [MP A]; [left; auto|].
    destruct (piece_ubounds_ok m lo hi n left rights MP A LH N So) as (bs & B1 & B2 & _). exists (bs :: bss). constructor; auto. split; auto. }
  destruct Bs as (bss & F). exists bss. split; auto. intros q i j In_ Hi X1 X2 Y J.
  pose proof (C62_each_point_in_one_piece presort pick P ms Ps VP E q) as One. rewrite In_ in One.
  destruct (filter (fun m => piece_in m q) ms) as [|m ?] eqn:Fi; [discriminate|]. assert (Im : In m (filter (fun m => piece_in m q) ms)) by (rewrite Fi; left; auto). apply filter_In in Im as [Im Pm].
  destruct (Hm m Im) as [MP A]. assert (Ib : exists bs, In bs bss /\ ok m bs). { clear - F Im. induction F as [|m' bs ms bss O F IH]; [destruct Im|]. destruct Im as [<- |Im]; [exists bs; split; [left; auto|auto]|]. destruct (IH Im) as (b & I & K). exists b. split; [right; auto|auto]. }
  destruct Ib as (bs & Ib & O1 & O2). destruct (piece_ubounds_ok m lo hi n left rights MP A LH N So) as (bs' & B1 & B2 & B3). rewrite O1 in B1. injection B1 as <-.
  destruct (B3 i Hi) as (p & r & zs & Sp & Er & G & Fz & H). destruct (piece_range m p r q MP Sp Er Pm) as [R1 R2]. pose proof (ends_le _ _ p r MP Sp Er) as PR.
  destruct (piece_scanned m _ _ zs q MP A G Fz) as (z & t & Iz & T0 & T1 & Xq & Yb & Yt); auto; [apply (cl_id _ _ (cx q)); auto|apply (cl_id _ _ (cx q)); auto|].
  assert (Sq : scanned zs q) by (exists z; split; auto; exists t; split; auto; split; auto; split; auto; split; auto; apply Qclt_le_weak; auto).
  exists bs. destruct (nth i bs (n, 0%nat)) as [jmin jmax] eqn:Nb. exists jmin, jmax. split; auto. split; [rewrite (nth_error_nth' bs (n, 0%nat)) by lia; rewrite Nb; auto|].
  destruct H as [[M _]|[M (_ & _ & Rw & _)]]; [exfalso|apply (Rw q j); auto].
  set (q' := mkC (cx q) (mix (t_bot (z_left z)) (t_bot (z_right z)) t)).
  assert (Sq' : scanned zs q') by (exists z; split; auto; exists t; split; auto; split; auto; split; auto; cbn [cy q']; split; [apply Qcle_refl|]; qcl).
  pose proof (in_row_band lo hi n j (cy q) LH N J) as Hb. destruct M as [M|[M|M]].
  - pose proof (M q q' Sq Sq') as Z. cbn [cy q'] in Z. rewrite <- Z in Yb. exact (Qclt_not_eq _ _ Yb eq_refl).
  - pose proof (M q Sq). qcl.
  - pose proof (M q' Sq') as Z. cbn [cy q'] in Z. qcl.
Qed.

(** ** C71 *)
(** The piece consists of points of the polygon: no vertex is new. *)
Theorem C73_no_new_vertices : forall presort pick P ms, (forall l, Permutation (presort l) l) -> monotone_chains presort pick P = Ok ms ->
  forall m v, In m ms -> In v (mp_top m) \/ In v (mp_bot m) -> exists r, In r (pg_exterior P :: pg_interiors P) /\ In v r.
Proof.
  intros presort pick P ms Ps E m v I J.
  destruct (pieces_vertices (fun v => exists r, In r (pg_exterior P :: pg_interiors P) /\ In v r) presort pick P ms Ps (fun r v A B => ex_intro _ r (conj A B)) E m I) as [A B].
  rewrite Forall_forall in A, B. destruct J; auto.
Qed.
Lemma row_find : forall lo hi n y, lo < hi -> (1 <= n)%nat -> lo <= y -> y <= hi -> exists i, in_row lo hi n i y.
Proof.
  intros lo hi n y LH N A B. destruct (index_ok lo hi n LH N y _ (or_introl eq_refl)) as (k & _ & K & R & _ & U). exists k. split; auto. split; auto.
  destruct U as [U|U]; auto. destruct (Qclt_le_dec y hi) as [L|L]; [left|right; split; auto; apply Qcle_antisym; auto]. rewrite U, row_n; auto.
Qed.
(** Trapezoids with given bounds on their heights. *)
Lemma gap_le : forall a b zs, gap_free a b zs -> a <= b.
Proof. intros a b zs G. induction G as [|z a b l E L G IH]; [apply Qcle_refl|]. qcl. Qed.
Lemma qmul_pos : forall x y : Qc, 0 <= x -> 0 <= y -> 0 <= x * y. Proof. intros x y X Y. qc. Qed.
Lemma area_low : forall c a b zs, gap_free a b zs -> (forall z, In z zs -> c <= t_top (z_left z) - t_bot (z_left z) /\ c <= t_top (z_right z) - t_bot (z_right z)) -> (b - a) * c <= sum trapezoid_area zs.
Proof.
  intros c a b zs G. induction G as [a|z a b l E L G IH]; intros H; [cbn; replace ((a - a) * c) with 0 by ring; apply Qcle_refl|].
  rewrite sum_cons. specialize (IH (fun z' I => H z' (or_intror I))). destruct (H z (or_introl eq_refl)) as [H1 H2].
  assert (K : (t_x (z_right z) - t_x (z_left z)) * c <= trapezoid_area z).
  { unfold trapezoid_area. set (w := t_x (z_right z) - t_x (z_left z)). assert (W : 0 <= w) by (unfold w; qcl). set (u := t_top (z_left z) - t_bot (z_left z)) in *. set (v := t_top (z_right z) - t_bot (z_right z)) in *. clearbody w u v.
    replace (w * (u + v) / (1 + 1)) with (w * c + w * ((u - c) + (v - c)) / (1 + 1)) by (field; discriminate). assert (0 <= w * ((u - c) + (v - c)) / (1 + 1)).
    { assert (K : 0 <= w * ((u - c) + (v - c))) by (apply qmul_pos; auto; qcl). unfold Qcdiv. apply qmul_pos; auto. discriminate. }
    qcl. }
  replace ((b - a) * c) with ((t_x (z_right z) - t_x (z_left z)) * c + (b - t_x (z_right z)) * c) by (rewrite E; ring). apply Qcplus_le_compat; auto.
Qed.
Lemma area_high : forall c a b zs, gap_free a b zs -> (forall z, In z zs -> t_top (z_left z) - t_bot (z_left z) <= c /\ t_top (z_right z) - t_bot (z_right z) <= c) -> sum trapezoid_area zs <= (b - a) * c.
Proof.
  intros c a b zs G. induction G as [a|z a b l E L G IH]; intros H; [cbn; replace ((a - a) * c) with 0 by ring; apply Qcle_refl|].
  rewrite sum_cons. specialize (IH (fun z' I => H z' (or_intror I))). destruct (H z (or_introl eq_refl)) as [H1 H2].
  assert (K : trapezoid_area z <= (t_x (z_right z) - t_x (z_left z)) * c).
  { unfold trapezoid_area. set (w := t_x (z_right z) - t_x (z_left z)). assert (W : 0 <= w) by (unfold w; qcl). set (u := t_top (z_left z) - t_bot (z_left z)) in *. set (v := t_top (z_right z) - t_bot (z_right z)) in *. clearbody w u v.
    replace (w * (u + v) / (1 + 1)) with (w * c - w * ((c - u) + (c - v)) / (1 + 1)) by (field; discriminate). assert (0 <= w * ((c - u) + (c - v)) / (1 + 1)).
    { assert (K : 0 <= w * ((c - u) + (c - v))) by (apply qmul_pos; auto; qcl). unfold Qcdiv. apply qmul_pos; auto. discriminate. }
    qcl. }
  replace ((b - a) * c) with ((t_x (z_right z) - t_x (z_left z)) * c + (b - t_x (z_right z)) * c) by (rewrite E; ring). apply Qcplus_le_compat; auto.
Qed.
(** The corners of a trapezoid are points of it. *)
Lemma corners : forall z, t_bot (z_left z) <= t_top (z_left z) -> t_bot (z_right z) <= t_top (z_right z) ->
  in_trapz z (top_of (z_left z)) /\ in_trapz z (bot_of (z_left z)) /\ in_trapz z (top_of (z_right z)) /\ in_trapz z (bot_of (z_right z)).
Proof.
  intros z H1 H2. assert (M0 : forall a b, mix a b 0 = a) by (intros; unfold mix; ring). assert (M1 : forall a b, mix a b 1 = b) by (intros; unfold mix; ring).
  repeat split; [exists 0|exists 0|exists 1|exists 1]; rewrite ?M0, ?M1; cbn [top_of bot_of cx cy]; repeat split; auto; try apply Qcle_refl; discriminate.
Qed.
Definition in_band (lo hi : Qc) (l : list pt) : Prop := forall v, In v l -> lo <= cy v /\ cy v <= hi.
Lemma seg_band : forall lo hi l a b, in_band lo hi l -> on_one_edge l a b -> (lo <= cy a /\ cy a <= hi) /\ (lo <= cy b /\ cy b <= hi).
Proof.
  intros lo hi l a b B (p & q & I & Sa & Sb). pose proof (in_combine_l _ _ _ _ I) as Ip. pose proof (in_combine_r _ _ _ _ I) as Iq. assert (Iq' : In q l) by (destruct l; [destruct Iq|right; auto]).
  destruct (B p Ip) as [P1 P2], (B q Iq') as [Q1 Q2]. assert (K : forall r, on_seg p q r -> lo <= cy r /\ cy r <= hi).
  { intros r (t & T0 & T1 & _ & ->). clear - P1 P2 Q1 Q2 T0 T1. split; qc. }
  auto.
Qed.
Lemma cl_lip : forall x1 x2 a u, x1 <= x2 -> a <= u -> cl x1 x2 u - cl x1 x2 a <= u - a /\ cl x1 x2 a <= cl x1 x2 u.
Proof.
  intros x1 x2 a u L H. destruct (cl_case x1 x2 a L) as [[A ->]|[[A [A' ->]]|[A ->]]], (cl_case x1 x2 u L) as [[B ->]|[[B [B' ->]]|[B ->]]]; split; qcl.
Qed.
Lemma num_diff : forall lo hi n j k, (j <= k)%nat -> row lo hi n (S k) - row lo hi n j = of_nat (1 + k - j) * ((hi - lo) / num n).
Proof.
  intros lo hi n j k L. change (of_nat (1 + k - j)) with (num (1 + k - j)). assert (Q : num (S k) = num (1 + k - j) + num j). { replace (S k) with ((1 + k - j) + j)%nat at 1 by lia. clear. generalize (1 + k - j)%nat as i. intros i. induction j as [|j IH]; [rewrite Nat.add_0_r; change (num 0) with 0; ring|]. rewrite Nat.add_succ_r, !num_S, IH. ring. }
  unfold row. rewrite Q. ring.
Qed.
(** One column of a piece. *)
Lemma column_bounds : forall m a b u zs lo hi n w, S_Mono.above (mp_top m) (mp_bot m) -> gap_free a b zs -> Forall (between_chains (mp_top m) (mp_bot m)) zs ->
  in_band lo hi (mp_top m) -> in_band lo hi (mp_bot m) -> lo < hi -> (1 <= n)%nat -> b - a <= w -> (zs <> [] -> b <= u) ->
  (misses_band zs lo hi -> sum trapezoid_area zs = 0) /\
  (~ misses_band zs lo hi -> forall j k bm tm, rows_of zs lo hi n j k ->
     (forall z, In z zs -> t_bot (z_left z) <= bm /\ t_bot (z_right z) <= bm /\ tm <= t_top (z_left z) /\ tm <= t_top (z_right z)) ->
     (tm - bm) * (qmin b u - a) <= sum trapezoid_area zs /\ sum trapezoid_area zs <= of_nat (1 + k - j) * (w * ((hi - lo) / of_nat n)) /\ a <= qmin b u).
Proof.
  intros m a b u zs lo hi n w A G F B1 B2 LH N W U. pose proof (gap_le _ _ _ G) as AB.
  assert (Hz : forall z, In z zs -> t_bot (z_left z) <= t_top (z_left z) /\ t_bot (z_right z) <= t_top (z_right z)).
  { intros z I. rewrite Forall_forall in F. destruct (above_area m z A (F z I)) as (_ & K). exact K. }
  assert (Hc : forall z, In z zs -> scanned zs (top_of (z_left z)) /\ scanned zs (bot_of (z_left z)) /\ scanned zs (top_of (z_right z)) /\ scanned zs (bot_of (z_right z))).
  { intros z I. destruct (Hz z I) as [K1 K2]. destruct (corners z K1 K2) as (C1 & C2 & C3 & C4). repeat split; exists z; auto. }
  assert (Hb : forall z, In z zs -> lo <= t_bot (z_left z) /\ lo <= t_bot (z_right z) /\ t_top (z_left z) <= hi /\ t_top (z_right z) <= hi).
  { intros z I. rewrite Forall_forall in F. destruct (F z I) as [K1 K2]. apply (seg_band lo hi) in K1 as [[T1 T2] [T3 T4]]; auto. apply (seg_band lo hi) in K2 as [[T5 T6] [T7 T8]]; auto. }
  split.
  - intros M. assert (Z : forall z, In z zs -> t_top (z_left z) = t_bot (z_left z) /\ t_top (z_right z) = t_bot (z_right z)).
    { intros z I. destruct (Hz z I) as [K1 K2], (Hb z I) as (K3 & K4 & K5 & K6), (Hc z I) as (C1 & C2 & C3 & C4). destruct M as [M|[M|M]].
      - split; [apply (M _ _ C1 C2)|apply (M _ _ C3 C4)].
      - apply M in C1, C3. cbn [top_of cy] in C1, C3. split; apply Qcle_antisym; auto; qcl.
      - apply M in C2, C4. cbn [bot_of cy] in C2, C4. split; apply Qcle_antisym; auto; qcl. }
    apply Qcle_antisym.
    + replace 0 with ((b - a) * 0) by ring. apply area_high; auto. intros z I. destruct (Z z I) as [-> ->]. split; qcl.
    + replace 0 with ((b - a) * 0) by ring. apply area_low; auto. intros z I. destruct (Z z I) as [-> ->]. split; qcl.
  - intros M j k bm tm Rw Hi. assert (Ne : zs <> []) by (intros ->; apply M; left; intros p q (z & [] & _)). specialize (U Ne). assert (Q : qmin b u = b) by (destruct (qmin_case b u) as [[K ->]|[K ->]]; auto; apply Qcle_antisym; auto).
    rewrite Q. split; [|split; auto].
    + rewrite Qcmult_comm. apply area_low; auto. intros z I. destruct (Hi z I) as (I1 & I2 & I3 & I4). split; qcl.
    + destruct Rw as (JK & KN & Rw & _ & _). apply Qcle_trans with ((b - a) * (row lo hi n (S k) - row lo hi n j)).
      * apply area_high; auto. assert (K : forall p, scanned zs p -> lo <= cy p -> cy p <= hi -> row lo hi n j <= cy p /\ cy p <= row lo hi n (S k)).
        { intros p Sp L1 L2. destruct (row_find lo hi n (cy p) LH N L1 L2) as (i & Ri). destruct (Rw p i Sp Ri) as [X1 X2]. destruct Ri as (In_ & R1 & R2). split.
          - pose proof (row_le lo hi n LH N j i X1). qcl.
          - pose proof (row_le lo hi n LH N (S i) (S k) ltac:(lia)) as Z. destruct R2 as [R2|[R2 R3]]; [qcl|]. rewrite R3. rewrite R2, row_n in Z by auto. exact Z. }
        intros z I. destruct (Hz z I) as [K1 K2], (Hb z I) as (K3 & K4 & K5 & K6), (Hc z I) as (C1 & C2 & C3 & C4).
        apply K in C1, C2, C3, C4; cbn [top_of bot_of cy] in *; try (apply Qcle_trans with (t_bot (z_left z)); assumption); try (apply Qcle_trans with (t_bot (z_right z)); assumption); try (apply Qcle_trans with (t_top (z_left z)); assumption); try (apply Qcle_trans with (t_top (z_right z)); assumption); auto.
        destruct C1, C2, C3, C4. split; qcl.
      * rewrite num_diff by auto. change (of_nat n) with (num n). pose proof (h_pos lo hi n LH N) as Hp. set (h := (hi - lo) / num n) in *. assert (C : 0 <= of_nat (1 + k - j)) by (change (num 0 <= num (1 + k - j)); apply num_le; lia).
        set (c := of_nat (1 + k - j)) in *. clearbody c h. clear - W Hp C. assert (0 <= c * h) by qc. replace ((b - a) * (c * h)) with (c * h * (b - a)) by ring. replace (c * (w * h)) with (c * h * w) by ring. set (x := c * h) in *. clearbody x. clear - W H. qc.
Qed.
(** All columns of a piece. *)
Lemma bounds_cols_ok : forall m p q lo hi n L R, mono_pair (mp_top m) (mp_bot m) -> S_Mono.above (mp_top m) (mp_bot m) -> starts_at (mp_top m) p -> ends_at (mp_top m) q ->
  in_band lo hi (mp_top m) -> in_band lo hi (mp_bot m) -> lo < hi -> L < R -> (1 <= n)%nat ->
  forall k i s lb ub, scan_reach m s -> t_x (sc_curr s) = cl (cx p) (cx q) (row L R n i) ->
  exists s' zs dl du, scan_stops s (map (row L R n) (seq (S i) k)) = Ok (s', zs) /\
    bounds_cols lo hi ((R - L) / of_nat n * ((hi - lo) / of_nat n)) n s (map (row L R n) (seq (S i) k)) lb ub = Ok (lb + dl, ub + du) /\
    0 <= dl /\ dl <= sum trapezoid_area zs /\ sum trapezoid_area zs <= du.
Proof.
  intros m p q lo hi n L R MP A Sp Eq B1 B2 LH LR N. assert (E : mp_new (mp_top m) (mp_bot m) = Ok m) by (apply mp_new_ok; split; auto; destruct m; reflexivity). pose proof (ends_le _ _ p q MP Sp Eq) as PQ.
  induction k as [|k IH]; intros i s lb ub Rs X.
  - exists s, [], 0, 0. cbn [seq map scan_stops bounds_cols]. split; auto. split; [f_equal; f_equal; ring|]. cbn. repeat split; apply Qcle_refl.
  - cbn [seq map]. set (u := row L R n (S i)). assert (Li : row L R n i <= u) by (apply row_le; auto).
    destruct (scan_col m p q s (row L R n i) u MP Sp Eq Rs X Li) as (s1 & zs1 & E1 & R1 & X1 & G1 & F1).
    destruct (C39_cross_bounds _ _ m s u lo hi n E A Rs LH N) as (s1' & zs1' & E1' & C). rewrite E1 in E1'. injection E1' as <- <-.
    assert (W : u - row L R n i = (R - L) / of_nat n) by (unfold u; rewrite row_S by auto; change (of_nat n) with (num n); ring).
    destruct (cl_lip (cx p) (cx q) (row L R n i) u PQ Li) as [Lip Mon]. rewrite W in Lip. set (w := (R - L) / of_nat n) in *.
    assert (U : zs1 <> [] -> cl (cx p) (cx q) u <= u).
    { intros Ne. destruct (cl_case (cx p) (cx q) u PQ) as [[K Q]|[[K [K' Q]]|[K Q]]]; rewrite Q; auto; try apply Qcle_refl. exfalso. apply Ne. destruct (cl_case (cx p) (cx q) (row L R n i) PQ) as [[H Q']|[[H [H' Q']]|[H Q']]].
      - rewrite Q, Q' in G1. clear - G1. remember (cx p) as x eqn:Ex. rewrite Ex in G1 at 1. inversion G1 as [|z a b l T1 T2 T3]; auto. subst. pose proof (gap_le _ _ _ T3). exfalso. qcl.
      - assert (Z : row L R n i = cx p) by (apply Qcle_antisym; auto; qcl). rewrite Q, Q', Z in G1. clear - G1. inversion G1 as [|z a b l T1 T2 T3]; auto. subst. pose proof (gap_le _ _ _ T3). exfalso. qcl.
      - assert (Z : cx q = cx p) by (apply Qcle_antisym; auto; qcl). rewrite Q, Q', Z in G1. clear - G1. inversion G1 as [|z a b l T1 T2 T3]; auto. subst. pose proof (gap_le _ _ _ T3). exfalso. qcl. }
    destruct (column_bounds m _ _ u zs1 lo hi n w A G1 F1 B1 B2 LH N Lip U) as [CB1 CB2].
    set (ca := w * ((hi - lo) / of_nat n)) in *.
    assert (Step : exists dl du, 0 <= dl /\ dl <= sum trapezoid_area zs1 /\ sum trapezoid_area zs1 <= du /\
      bounds_cols lo hi ca n s (u :: map (row L R n) (seq (S (S i)) k)) lb ub = bounds_cols lo hi ca n s1 (map (row L R n) (seq (S (S i)) k)) (lb + dl) (ub + du)).
    { destruct C as [[M C]|[M (j & kk & bm & tm & C & Rw & H1 & _)]].
      - exists 0, 0. rewrite (CB1 M). split; [apply Qcle_refl|]. split; [apply Qcle_refl|]. split; [apply Qcle_refl|]. cbn [bounds_cols]. rewrite C. cbn [bind]. f_equal; ring.
      - destruct (CB2 M j kk bm tm Rw H1) as (D1 & D2 & D3). rewrite <- X, <- X1 in D1, D3. cbn [bounds_cols]. rewrite C. cbn [bind].
        destruct (qltb_case bm tm) as [[K Kb]|[K Kb]]; rewrite Kb.
        + exists ((tm - bm) * (qmin (t_x (sc_curr s1)) u - t_x (sc_curr s))), (of_nat (1 + kk - j) * ca). split; [apply qmul_pos; qcl|]. split; auto. split; auto.
          assert (Q : qleb ((tm - bm) * (qmin (t_x (sc_curr s1)) u - t_x (sc_curr s))) (of_nat (1 + kk - j) * ca) = true) by (apply qleb_iff; eapply Qcle_trans; eauto). rewrite Q. reflexivity.
        + exists 0, (of_nat (1 + kk - j) * ca). split; [apply Qcle_refl|]. split; [|split; auto; cbn [bind]; f_equal; ring].
          replace 0 with ((cl (cx p) (cx q) u - cl (cx p) (cx q) (row L R n i)) * 0) by ring. apply area_low; auto. intros z I. rewrite Forall_forall in F1. destruct (above_area m z A (F1 z I)) as (_ & Z1 & Z2). split; qcl. }
    destruct Step as (d1 & u1 & S1 & S2 & S3 & S4). destruct (IH (S i) s1 (lb + d1) (ub + u1) R1 X1) as (s2 & zs2 & d2 & u2 & T1 & T2 & T3 & T4 & T5).
    exists s2, (zs1 ++ zs2), (d1 + d2), (u1 + u2). split; [cbn [scan_stops]; rewrite E1, T1; reflexivity|]. split; [fold u; rewrite S4, T2; f_equal; f_equal; ring|]. rewrite sum_app. repeat split; qcl.
Qed.
(** The test of the bounds: on every valid polygon, for every grid around its bounding
    rectangle, none of the assertions on single pieces fails, and the area of the polygon
    is between the totals. *)
Theorem C71_bounds_of_the_area : forall presort pick P r left right_ bot top n, (forall l, Permutation (presort l) l) -> valid_polygon P -> poly_bounding_rect P = Some r ->
  left <= cx (r_min r) -> cx (r_max r) <= right_ -> bot <= cy (r_min r) -> cy (r_max r) <= top -> (1 <= n)%nat ->
  exists lb ub, scanner_bounds presort pick P left right_ bot top n = Ok (lb, ub) /\ 0 <= lb /\ lb <= polygon_area P /\ polygon_area P <= ub.
Proof.
  intros presort pick P r L R lo hi n Ps VP Er HL HR Hlo Hhi N. destruct (C61_decomposition_succeeds presort pick P Ps VP) as (ms & Em).
  destruct (bounds_some P VP) as (r' & Er' & LX & LY). rewrite Er in Er'. injection Er' as <-. assert (LR : L < R) by qcl. assert (LH : lo < hi) by qcl.
  assert (Box : forall l v, In l (pg_exterior P :: pg_interiors P) -> In v l -> in_box (cx (r_min r)) (cx (r_max r)) (cy (r_min r)) (cy (r_max r)) v).
  { intros l v [<- |I] J; [apply (bounds_ok P r Er v J)|]. apply (inside_box P r v VP Er). apply (vp_in _ VP l v I J). }
  assert (Hm : forall m, In m ms -> forall v, In v (mp_top m) \/ In v (mp_bot m) -> in_box L R lo hi v).
  { intros m I v J. destruct (C73_no_new_vertices presort pick P ms Ps Em m v I J) as (l & Il & Iv). destruct (Box l v Il Iv) as (X1 & X2 & X3 & X4). repeat split; qcl. }
  destruct (C64_areas_add_up presort pick P ms Ps VP Em) as (pgs & F & Su). unfold scanner_bounds. rewrite Em. cbn [bind].
  assert (Q : map (fun i => qmin R (L + of_nat (i + 1) * ((R - L) / of_nat n))) (seq 0 n) = map (row L R n) (seq 1 n)).
  { rewrite <- seq_shift, map_map. apply map_ext_in. intros i I. apply in_seq in I. rewrite Nat.add_1_r. change (L + of_nat (S i) * ((R - L) / of_nat n)) with (row L R n (S i)).
    assert (K : row L R n (S i) <= R) by (rewrite <- (row_n L R n) at 2 by auto; apply row_le; auto; lia).
    destruct (qmin_case R (row L R n (S i))) as [[Z ->]|[Z ->]]; auto. apply Qcle_antisym; auto. }
  rewrite Q. clear Q. rewrite <- Su. clear Su.
  assert (Sub : forall m, In m ms -> mono_pair (mp_top m) (mp_bot m) /\ S_Mono.above (mp_top m) (mp_bot m) /\ forall v, In v (mp_top m) \/ In v (mp_bot m) -> in_box L R lo hi v).
  { intros m I. split; [apply (C41_pieces_are_monotone _ _ _ _ Em m I)|]. split; [apply (C63_top_over_bottom _ _ _ _ Ps VP Em m I)|]. apply (Hm m I). }
  clear Hm Em. 
  enough (G : forall t1 t2, exists dl du, fold_res (fun (t : Qc * Qc) m =>
      let* s := mp_scan_lines m L in
      let* (area_lb, area_ub) := bounds_cols lo hi ((R - L) / of_nat n * ((hi - lo) / of_nat n)) n s (map (row L R n) (seq 1 n)) 0 0 in
      let* pg := mp_into_polygon m in
      let* _ := check (qleb area_lb (exterior_area pg)) "src/monotone.rs:143 assert"%string in
      let* _ := check (qleb (exterior_area pg) area_ub) "src/monotone.rs:144 assert"%string in
      Ok (fst t + area_lb, snd t + area_ub)) (t1, t2) ms = Ok (t1 + dl, t2 + du) /\ 0 <= dl /\ dl <= sum polygon_area pgs /\ sum polygon_area pgs <= du).
  { destruct (G 0 0) as (dl & du & G1 & G2). exists (0 + dl), (0 + du). split; [exact G1|]. rewrite !Qcplus_0_l. auto. }
  induction F as [|m pg ms pgs [Ep Pa] F IH]; intros t1 t2.
  - exists 0, 0. cbn [fold_res]. split; [f_equal; f_equal; ring|]. cbn. repeat split; apply Qcle_refl.
  - destruct (Sub m (or_introl eq_refl)) as (MP & A & Bx). pose proof MP as (p & q & S1 & S2 & E1 & E2 & Ne & I1 & I2).
    assert (En : mp_new (mp_top m) (mp_bot m) = Ok m) by (apply mp_new_ok; split; auto; destruct m; reflexivity).
    assert (Ip : In p (mp_top m)) by (destruct S1 as [k ->]; left; auto). assert (Iq : In q (mp_top m)) by (destruct E1 as [k ->]; apply in_app_iff; right; left; auto).
    destruct (new_ok m MP) as (s & Es). pose proof (reach_new m s Es) as Rs. destruct (new_inv m s MP Es) as (_ & _ & p' & Sp' & Xp). assert (p' = p) by (destruct S1 as [k1 K1], Sp' as [k2 K2]; congruence). subst p'.
    destruct (C36_scan_is_gap_free _ _ m s L q En E1 Rs) as (s' & zs & Ea & _ & _ & _ & _ & St). assert (Lp : L <= t_x (sc_curr s)) by (rewrite Xp; apply (Bx p); auto). destruct (St Lp) as [-> ->].
    assert (Sc : mp_scan_lines m L = Ok s) by (unfold mp_scan_lines; rewrite Es; cbn [bind]; rewrite Ea; reflexivity).
    pose proof (ends_le _ _ p q MP S1 E1) as PQ. assert (X : t_x (sc_curr s) = cl (cx p) (cx q) (row L R n 0)).
    { rewrite row_0, Xp by auto. destruct (cl_case (cx p) (cx q) L PQ) as [[K ->]|[[K [K' ->]]|[K ->]]]; auto; rewrite Xp in Lp; apply Qcle_antisym; auto; qcl. }
    destruct (bounds_cols_ok m p q lo hi n L R MP A S1 E1) with (k := n) (i := 0%nat) (s := s) (lb := 0) (ub := 0) as (s2 & zs & dl & du & B1 & B2 & B3 & B4 & B5); auto; [intros v I; split; apply (Bx v); auto|intros v I; split; apply (Bx v); auto|].
    destruct (C37_scanned_area_signed _ _ m (map (row L R n) (seq 1 n)) q s En E1) as (s3 & zs3 & pg' & C1 & C2 & C3); auto.
    { exists R. split; [|apply (Bx q); auto]. apply in_map_iff. exists n. split; [apply row_n; auto|]. apply in_seq. lia. }
    rewrite B1 in C1. injection C1 as <- <-. rewrite Ep in C2. injection C2 as <-.
    assert (Hp : pg_interiors pg = []) by (rewrite (into_polygon_ok m MP) in Ep; injection Ep as <-; reflexivity).
    assert (Ar : polygon_area pg = sum trapezoid_area zs).
    { unfold polygon_area. rewrite Hp, C3. cbn. unfold magnitude. set (x := shoelace (pg_exterior pg)) in *. clearbody x. assert (x <= 0) by qcl. destruct (qleb 0 x) eqn:Z; [apply qleb_iff in Z; assert (x = 0) by (apply Qcle_antisym; auto); subst x|]; ring. }
    assert (Ra : exterior_area pg = polygon_area pg) by (unfold polygon_area; rewrite Hp; cbn; unfold exterior_area; ring).
    destruct (IH (fun m' I => Sub m' (or_intror I)) (t1 + dl) (t2 + du)) as (d2 & u2 & H1 & H2 & H3 & H4).
    exists (dl + d2), (du + u2). cbn [fold_res]. rewrite Sc. cbn [bind]. rewrite B2. cbn [bind]. rewrite Ep. cbn [bind fst snd]. rewrite Ra, Ar.
    assert (Q1 : qleb (0 + dl) (sum trapezoid_area zs) = true) by (apply qleb_iff; qcl). assert (Q2 : qleb (sum trapezoid_area zs) (0 + du) = true) by (apply qleb_iff; qcl). rewrite Q1, Q2. cbn [check bind].
    rewrite !Qcplus_0_l, H1. split; [f_equal; f_equal; ring|]. rewrite sum_cons, Ar. repeat split; qcl.
Qed.

(** Nothing superfluous: the first and the last row of a range are reached, borders
    included, by points of the piece in the column. *)
Definition between_at (m : mono_poly) (q : pt) : Prop :=
  exists y1 y2, on_chain (mp_top m) (mkC (cx q) y1) /\ on_chain (mp_bot m) (mkC (cx q) y2) /\ y2 <= cy q /\ cy q <= y1.
Lemma edge_mix : forall l a b t, on_one_edge l a b -> 0 <= t -> t <= 1 -> on_chain l (mkC (mix (cx a) (cx b) t) (mix (cy a) (cy b) t)).
Proof.
  intros l a b t (p & q & I & (s1 & A1 & A2 & A3 & A4) & (s2 & B1 & B2 & B3 & B4)) T0 T1. exists p, q. split; auto. exists (mix s1 s2 t). unfold mix. cbn [cx cy]. rewrite A3, A4, B3, B4. repeat split; [clear - A1 A2 B1 B2 T0 T1; qc|clear - A1 A2 B1 B2 T0 T1; qc|ring|ring].
Qed.
Lemma scanned_between : forall m zs q, Forall (between_chains (mp_top m) (mp_bot m)) zs -> scanned zs q -> between_at m q.
Proof.
  intros m zs q F (z & I & t & T0 & T1 & X & Y1 & Y2). rewrite Forall_forall in F. destruct (F z I) as [A B]. pose proof (edge_mix _ _ _ t A T0 T1) as A'. pose proof (edge_mix _ _ _ t B T0 T1) as B'. cbn [top_of bot_of cx cy] in A', B'. rewrite <- X in A', B'. eexists; eexists; eauto.
Qed.
Lemma gap_in : forall a b zs q, gap_free a b zs -> scanned zs q -> a < b /\ a <= cx q /\ cx q <= b.
Proof.
  intros a b zs q G (z & I & t & T0 & T1 & X & _). induction G as [a|z' a b l E L G IH]; [destruct I|]. pose proof (gap_le _ _ _ G) as Gl. split; [qcl|]. destruct I as [->|I].
  - rewrite X, E. unfold mix. set (r := t_x (z_right z)) in *. clearbody r. assert (0 <= t * (r - a)) by (clear - L T0; apply qmul_pos; auto; qcl). assert (t * (r - a) <= r - a) by (clear - L T0 T1; qc). split; qcl.
  - destruct (IH I) as (K1 & K2 & K3). split; qcl.
Qed.
Theorem C70_no_row_is_superfluous : forall presort pick P ms left rights lo hi n, (forall l, Permutation (presort l) l) -> valid_polygon P ->
  monotone_chains presort pick P = Ok ms -> StronglySorted Qcle (left :: rights) -> lo < hi -> (1 <= n)%nat ->
  forall m bs i jmin jmax, In m ms -> piece_ubounds lo hi n left rights m = Ok bs -> nth_error bs i = Some (jmin, jmax) ->
    (jmin = n /\ jmax = 0)%nat \/ ((jmin <= jmax)%nat /\ (jmax < n)%nat /\
      (exists q, between_at m q /\ nth i (left :: rights) 0 <= cx q /\ cx q <= nth i rights 0 /\ cy q <= row lo hi n (S jmin)) /\
      (exists q, between_at m q /\ nth i (left :: rights) 0 <= cx q /\ cx q <= nth i rights 0 /\ row lo hi n jmax <= cy q)).
Proof.
  intros presort pick P ms left rights lo hi n Ps VP E So LH N m bs i jmin jmax I Eb Nb.
  pose proof (C41_pieces_are_monotone _ _ _ _ E m I) as MP. pose proof (C63_top_over_bottom _ _ _ _ Ps VP E m I) as A.
  destruct (piece_ubounds_ok m lo hi n left rights MP A LH N So) as (bs' & B1 & B2 & B3). rewrite Eb in B1. injection B1 as <-.
  assert (Hi : (i < List.length rights)%nat) by (rewrite <- B2; apply nth_error_Some; congruence). destruct (B3 i Hi) as (p & r & zs & Sp & Er & G & Fz & H).
  rewrite (nth_error_nth _ _ (n, 0%nat) Nb) in H. cbn [fst snd] in H. destruct H as [[_ H]|[_ (R1 & R2 & _ & (q1 & Q1 & Q2) & (q2 & Q3 & Q4))]]; [left; injection H as -> ->; auto|right].
  pose proof (ends_le _ _ p r MP Sp Er) as PR.
  assert (K : forall q, scanned zs q -> nth i (left :: rights) 0 <= cx q /\ cx q <= nth i rights 0).
  { intros q S. destruct (gap_in _ _ _ q G S) as (K1 & K2 & K3). destruct (cl_case (cx p) (cx r) (nth i (left :: rights) 0) PR) as [[C1 C]|[[C1 [C2 C]]|[C1 C]]], (cl_case (cx p) (cx r) (nth i rights 0) PR) as [[D1 D]|[[D1 [D2 D]]|[D1 D]]]; rewrite C in *; rewrite D in *; split; auto; try (exfalso; qcl; fail); qcl. }
  split; auto. split; auto. split; [exists q1|exists q2]; (split; [apply (scanned_between m zs); auto|]); [destruct (K q1 Q1)|destruct (K q2 Q3)]; auto.
Qed.

(** * The examples of C70, C71 and C73 *)
Lemma plain_valid : forall l, match l with a :: t => match rev t with z :: m => peqb a z && nodup_check (a :: rev m) && (3 <=? List.length (a :: rev m))%nat | [] => false end | [] => false end = true ->
  pairs_check meet_check (all_edges [mkPolygon l []]) = true -> valid_polygon (mkPolygon l []).
Proof.
  intros l C1 C2. constructor.
  - intros r I. cbn in I. destruct I as [<- |[]]. destruct l as [|a t]; [discriminate|]. destruct (rev t) as [|z m] eqn:E; [discriminate|]. apply andb_true_iff in C1 as [C1 N]. apply andb_true_iff in C1 as [Z D].
    apply peqb_iff in Z. subst z. apply (f_equal (@rev pt)) in E. rewrite rev_involutive in E. cbn [rev] in E. subst t. exists a, (rev m). split; [reflexivity|]. split; [apply nodup_check_ok; auto|apply Nat.leb_le; auto].
  - apply (pairs_check_ok meet_check); [apply meet_check_ok|auto].
  - cbn. constructor; constructor.
  - intros h v [].
  - intros [|] h B v E; discriminate E.
Qed.
Definition diamond : polygon := mkPolygon [at_ 0 1; at_ 1 0; at_ 2 1; at_ 1 2; at_ 0 1] [].
Lemma diamond_valid : valid_polygon diamond.
Proof. apply plain_valid; vm_compute; reflexivity. Qed.
(** Two arms of different lengths to the left: two pieces. *)
Definition arms : polygon := mkPolygon [at_ 0 0; at_ 8 0; at_ 8 8; at_ 4 8; at_ 4 6; at_ 6 6; at_ 6 2; at_ 0 2; at_ 0 0] [].
Lemma arms_valid : valid_polygon arms.
Proof. apply plain_valid; vm_compute; reflexivity. Qed.

Example C70_example : valid_polygon arms /\ StronglySorted Qcle (map whole [0; 2; 4; 6; 8]%Z) /\
  match monotone_chains (fun l => l) (fun _ _ _ => 0%nat) arms with
  | Ok ms => map (piece_ubounds 0 (whole 8) 4 0 (map whole [2; 4; 6; 8]%Z)) ms
  | _ => []
  end = [Ok [(0, 1); (0, 1); (0, 1); (0, 3)]; Ok [(4, 0); (4, 0); (3, 3); (0, 3)]]%nat.
Proof.
  split; [exact arms_valid|]. split; [|vm_compute; reflexivity]. repeat constructor; vm_compute; discriminate.
Qed.
Example C71_example : valid_polygon arms /\ poly_bounding_rect arms = Some (mkRect (at_ 0 0) (at_ 8 8)) /\
  (exists lb ub, scanner_bounds (fun l => l) (fun _ _ _ => 0%nat) arms 0 (whole 8) 0 (whole 8) 4 = Ok (lb, ub) /\ this lb = this (whole 20) /\ this (polygon_area arms) = this (whole 32) /\ this ub = this (whole 60)).
Proof.
  split; [exact arms_valid|]. split; [vm_compute; reflexivity|].
  eexists; eexists; split; [vm_compute; reflexivity|]. vm_compute. auto.
Qed.
Example C73_example : match monotone_chains (fun l => l) (fun _ _ _ => 0%nat) arms with
  | Ok ms => map (fun m => (mp_top m, mp_bot m)) ms
  | _ => []
  end = [([at_ 0 0; at_ 0 2; at_ 6 2; at_ 6 6; at_ 8 0], [at_ 0 0; at_ 8 0]); ([at_ 4 6; at_ 4 8; at_ 8 8], [at_ 4 6; at_ 6 6; at_ 8 0; at_ 8 8])].
Proof. vm_compute. reflexivity. Qed.
(** The last assertion of the test, on the difference of the totals, is not a consequence:
    it fails for a square that stands on a corner, for the number of slices of the test. *)
Definition gap_check (P : polygon) (r : rect) (n : nat) : bool :=
  match monotone_chains (fun l => l) (fun _ _ _ => 0%nat) P, scanner_bounds (fun l => l) (fun _ _ _ => 0%nat) P (cx (r_min r)) (cx (r_max r)) (cy (r_min r)) (cy (r_max r)) n with
  | Ok ms, Ok (lb, ub) => qltb ((1 + 1) * ((cx (r_max r) - cx (r_min r)) / of_nat n * ((cy (r_max r) - cy (r_min r)) / of_nat n)) * of_nat n * of_nat (List.length ms)) (ub - lb)
  | _, _ => false
  end.
Lemma diamond_gap : gap_check diamond (mkRect (at_ 0 0) (at_ 2 2)) 1024 = true.
Proof. vm_compute. reflexivity. Qed.
Theorem C71_gap_refuted : exists P r ms lb ub, valid_polygon P /\ poly_bounding_rect P = Some r /\
  let n := 1024%nat in
  let width := cx (r_max r) - cx (r_min r) in
  let height := cy (r_max r) - cy (r_min r) in
  let cell := width / of_nat n * (height / of_nat n) in
  monotone_chains (fun l => l) (fun _ _ _ => 0%nat) P = Ok ms /\
  scanner_bounds (fun l => l) (fun _ _ _ => 0%nat) P (cx (r_min r)) (cx (r_max r)) (cy (r_min r)) (cy (r_max r)) n = Ok (lb, ub) /\
  (1 + 1) * cell * of_nat n * of_nat (List.length ms) < ub - lb.
Proof.
  assert (K : forall P r n, gap_check P r n = true -> exists ms lb ub, monotone_chains (fun l => l) (fun _ _ _ => 0%nat) P = Ok ms /\
    scanner_bounds (fun l => l) (fun _ _ _ => 0%nat) P (cx (r_min r)) (cx (r_max r)) (cy (r_min r)) (cy (r_max r)) n = Ok (lb, ub) /\
    (1 + 1) * ((cx (r_max r) - cx (r_min r)) / of_nat n * ((cy (r_max r) - cy (r_min r)) / of_nat n)) * of_nat n * of_nat (List.length ms) < ub - lb).
  { intros P r n G. unfold gap_check in G. destruct (monotone_chains _ _ P) as [ms| |]; try discriminate. destruct (scanner_bounds _ _ P _ _ _ _ n) as [[lb ub]| |]; try discriminate. apply qltb_iff in G. exists ms, lb, ub. auto. }
  destruct (K _ _ _ diamond_gap) as (ms & lb & ub & H). exists diamond, (mkRect (at_ 0 0) (at_ 2 2)), ms, lb, ub. split; [exact diamond_valid|]. split; [vm_compute; reflexivity|]. exact H.
Qed.
