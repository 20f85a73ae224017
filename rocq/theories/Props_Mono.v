(** C33-C38: monotone polygons and their scanner. *)
Require Import List String Bool Arith Lia Sorted Lqa Psatz.
From Verif Require Import Base Scalar M_Events M_Geo S_Geo P_Geo M_MonoPoly S_Mono P_Mono.
Import ListNotations.
Local Open Scope list_scope.
Local Open Scope Qc_scope.

(** C33. *)
Theorem C33_new_accepts_valid_pairs : forall top bot : list pt,
  (mono_pair top bot -> exists m, mp_new top bot = Ok m /\ mp_top m = top /\ mp_bot m = bot /\ mp_into_ls_pair m = (top, bot)) /\
  (~ mono_pair top bot -> exists msg, mp_new top bot = Panic msg).
Proof.
  intros top bot. split.
  - intros H. exists (mkMono top bot). split; [apply mp_new_ok; auto|auto].
  - intros H. destruct (mp_new_total top bot) as [[m E]|E]; auto. apply mp_new_ok in E. tauto.
Qed.

Lemma of_new : forall top bot m, mp_new top bot = Ok m -> mp_top m = top /\ mp_bot m = bot /\ mono_pair (mp_top m) (mp_bot m).
Proof. intros top bot m H. apply mp_new_ok in H. destruct H as [-> H]. auto. Qed.

(** C34. *)
Theorem C34_into_polygon : forall top bot m, mp_new top bot = Ok m ->
  exists pg, mp_into_polygon m = Ok pg /\
    pg_interiors pg = [] /\
    (exists p, starts_at (pg_exterior pg) p /\ ends_at (pg_exterior pg) p) /\
    edges (pg_exterior pg) = edges top ++ rev (map reversed (edges bot)).
Proof.
  intros top bot m H. apply mp_new_ok in H. destruct H as [-> MP].
  eexists. split; [apply into_polygon_ok; auto|]. cbn [pg_exterior pg_interiors mp_top mp_bot].
  split; auto. split; [|apply into_polygon_edges; auto].
  destruct MP as [p [q [[t' H1] [[b' H2] [_ [[b'' H4] [N _]]]]]]]. exists p. split.
  - rewrite H1. eexists. simpl. reflexivity.
  - rewrite H4, rev_app_distr. simpl. destruct b'' as [|x b''].
    + exfalso. rewrite H4 in H2. simpl in H2. inversion H2. congruence.
    + rewrite H4 in H2. inversion H2; subst x. exists (top ++ rev b''). simpl. rewrite app_assoc. reflexivity.
Qed.

(** C35. *)
Lemma chain_at : forall l p q x, increasing l -> starts_at l p -> ends_at l q -> p <> q ->
  cx p <= x -> x <= cx q -> exists r, on_chain l r /\ cx r = x.
Proof.
  induction l as [|a [|b l] IH]; intros p q x I [l' H] [l'' H'] N L1 L2.
  - discriminate.
  - inversion H; subst. destruct l'' as [|y l'']; [inversion H'; congruence|destruct l''; discriminate].
  - inversion H; subst. destruct l'' as [|y l'']; [discriminate|]. inversion H'; subst y. rewrite H2 in *.
    destruct (Qclt_le_dec (cx b) x) as [K|K].
    + assert (Nb : b <> q).
      { intros ->. exact (Qclt_not_le _ _ K L2). }
      destruct (IH b q x) as [r [[u [v [U V]]] R]]; auto.
      * rewrite <- H2 in I. rewrite <- H2. inversion I; auto.
      * rewrite <- H2. exists l. reflexivity.
      * exists l''. reflexivity.
      * apply Qclt_le_weak; auto.
      * exists r. split; auto. exists u, v. split; auto. rewrite <- H2. rewrite edges_cons. rewrite H2. right. exact U.
    + destruct (interpolate_ok p b x L1 K) as [y [_ S]]. exists (mkC x y). split; auto.
      exists p, b. split; auto. rewrite <- H2, edges_cons. left. reflexivity.
Qed.
Lemma on_chain_max : forall l r Y, (forall c, In c l -> cy c <= Y) -> on_chain l r -> cy r <= Y.
Proof.
  intros l r Y H [a [b [E [t [T0 [T1 [_ S]]]]]]]. destruct (edges_nth _ _ _ E) as [i [Ha Hb]].
  apply nth_error_In in Ha, Hb. pose proof (H a Ha). pose proof (H b Hb). qc.
Qed.
Lemma on_chain_min : forall l r Y, (forall c, In c l -> Y <= cy c) -> on_chain l r -> Y <= cy r.
Proof.
  intros l r Y H [a [b [E [t [T0 [T1 [_ S]]]]]]]. destruct (edges_nth _ _ _ E) as [i [Ha Hb]].
  apply nth_error_In in Ha, Hb. pose proof (H a Ha). pose proof (H b Hb). qc.
Qed.
Lemma vertex_on_chain : forall l p q v, starts_at l p -> ends_at l q -> p <> q -> In v l -> on_chain l v.
Proof.
  intros l p q v [l1 H1] [l2 H2] N Hv. apply in_split in Hv. destruct Hv as [u [w E]].
  destruct w as [|b w].
  - destruct u as [|z u] using rev_ind.
    + simpl in E. subst l. inversion E; subst. destruct l2 as [|y l2]; [inversion H2; congruence|destruct l2; discriminate].
    + clear IHu. exists z, v. split; [|apply on_seg_end]. rewrite E. rewrite <- app_assoc. simpl.
      apply (nth_edges _ (List.length u)); rewrite nth_error_app2 by lia.
      * rewrite Nat.sub_diag. reflexivity.
      * replace (S (List.length u) - List.length u)%nat with 1%nat by lia. reflexivity.
  - exists v, b. split; [|apply on_seg_start]. rewrite E.
    apply (nth_edges _ (List.length u)); rewrite nth_error_app2 by lia.
    + rewrite Nat.sub_diag. reflexivity.
    + replace (S (List.length u) - List.length u)%nat with 1%nat by lia. reflexivity.
Qed.

Theorem C35_bounding_rect_is_tight : forall top bot m, mp_new top bot = Ok m -> above top bot ->
  (exists v w, In v (top ++ bot) /\ In w (top ++ bot) /\ cx v < cx w) ->
  (exists v w, In v (top ++ bot) /\ In w (top ++ bot) /\ cy v < cy w) ->
  exists r, mp_bounding_rect m = Ok r /\
    (forall v, In v (top ++ bot) -> cx (r_min r) <= cx v /\ cx v <= cx (r_max r) /\ cy (r_min r) <= cy v /\ cy v <= cy (r_max r)) /\
    (exists v, In v (top ++ bot) /\ cx v = cx (r_min r)) /\ (exists v, In v (top ++ bot) /\ cx v = cx (r_max r)) /\
    (exists v, In v (top ++ bot) /\ cy v = cy (r_min r)) /\ (exists v, In v (top ++ bot) /\ cy v = cy (r_max r)).
Proof.
  intros top bot m E AB [vx [wx [Vx [Wx Lx]]]] [vy [wy [Vy [Wy Ly]]]].
  apply mp_new_ok in E. destruct E as [-> MP]. pose proof MP as [p [q [S1 [S2 [E1 [E2 [N [I1 I2]]]]]]]].
  unfold mp_bounding_rect. cbn [mp_top mp_bot].
  replace (first top) with (Some p) by (symmetry; apply starts_iff; auto).
  replace (last_opt top) with (Some q) by (symmetry; apply ends_iff; auto). cbn [expect bind].
  pose proof (fold_max top (cy p)) as [_ [M1 M2]]. cbv zeta in M1, M2.
  set (my := fold_left _ top _) in *. clearbody my.
  pose proof (fold_min bot my) as [_ [B1 B2]]. cbv zeta in B1, B2.
  set (ny := fold_left _ bot _) in *. clearbody ny.
  assert (Pin : In p top) by (destruct S1 as [l ->]; left; auto).
  assert (Qin : In q top) by (destruct E1 as [l ->]; apply in_or_app; right; left; auto).
  assert (XB : forall l, increasing l -> starts_at l p -> ends_at l q -> forall v, In v l -> cx p <= cx v /\ cx v <= cx q).
  { intros l I S Ee v Hv. apply In_nth_error in Hv. destruct Hv as [j Hj]. split.
    - destruct S as [l' ->]. destruct j as [|j]; [simpl in Hj; inversion Hj; apply Qcle_refl|].
      apply lex_lt_x. apply (inc_nth (p :: l') 0 (S j)); auto. lia.
    - apply (last_bound l q j v); auto. apply ends_iff; auto. }
  assert (XX : forall v, In v (top ++ bot) -> cx p <= cx v /\ cx v <= cx q).
  { intros v Hv. apply in_app_or in Hv. destruct Hv; eauto. }
  assert (YY : forall v, In v (top ++ bot) -> ny <= cy v /\ cy v <= my).
  { intros v Hv. destruct (XX v Hv) as [X1 X2]. apply in_app_or in Hv. destruct Hv as [Hv|Hv].
    - split; [|auto]. destruct (chain_at bot p q (cx v)) as [s [Hs Es]]; auto.
      pose proof (on_chain_min bot s ny B1 Hs).
      pose proof (AB v s (vertex_on_chain top p q v S1 E1 N Hv) Hs (eq_sym Es)). qcl.
    - split; [auto|]. destruct (chain_at top p q (cx v)) as [s [Hs Es]]; auto.
      pose proof (on_chain_max top s my M1 Hs).
      pose proof (AB s v Hs (vertex_on_chain bot p q v S2 E2 N Hv) Es). qcl. }
  assert (LX : cx p < cx q).
  { destruct (XX vx Vx) as [A _]. destruct (XX wx Wx) as [_ B]. qcl. }
  assert (LY : ny < my).
  { destruct (YY vy Vy) as [A _]. destruct (YY wy Wy) as [_ B]. qcl. }
  replace (qltb (cx p) (cx q)) with true by (symmetry; apply qltb_iff; auto).
  replace (qltb ny my) with true by (symmetry; apply qltb_iff; auto). cbn [check bind].
  eexists. split; [reflexivity|]. cbn [r_min r_max cx cy]. split.
  { intros v Hv. destruct (XX v Hv), (YY v Hv). auto. }
  split; [exists p; split; auto; apply in_or_app; auto|].
  split; [exists q; split; auto; apply in_or_app; auto|]. split.
  - destruct B2 as [B2|[c [Hc Ec]]].
    + exfalso. rewrite B2 in LY. exact (Qclt_not_eq _ _ LY eq_refl).
    + exists c. split; auto. apply in_or_app; auto.
  - destruct M2 as [M2|[c [Hc Ec]]]; [exists p|exists c]; split; auto; apply in_or_app; auto.
Qed.

(** C36: every advance of every scanner a user can hold. *)
Theorem C36_scan_is_gap_free : forall top bot m s u q, mp_new top bot = Ok m -> ends_at top q -> scan_reach m s ->
  exists s' zs, advance_to s u = Ok (s', zs) /\ scan_reach m s' /\
    gap_free (t_x (sc_curr s)) (t_x (sc_curr s')) zs /\
    Forall (between_chains top bot) zs /\
    (t_x (sc_curr s) < u -> t_x (sc_curr s') = qmin u (cx q)) /\
    (u <= t_x (sc_curr s) -> s' = s /\ zs = []).
Proof.
  intros top bot m s u q E Eq R. destruct (of_new _ _ _ E) as [<- [<- MP]].
  destruct (scan_ok m s u MP R) as [s' [zs [RP [R' F]]]].
  pose proof (reach_inv m s MP R) as [[Em _] _].
  destruct (F _ _ (Nat.le_refl _) (Nat.le_refl _)) as [_ F'].
  exists s', zs. unfold advance_to. rewrite Em. split; auto. split; auto.
  destruct RP as [_ [G [B [_ [X1 [X2 _]]]]]]. do 2 (split; [auto|]). split; auto.
  apply X1. apply ends_iff. auto.
Qed.
(** [scan_lines(left)] never panics and starts at [left], moved into the polygon's range. *)
Theorem C36_scan_lines : forall top bot m left p q, mp_new top bot = Ok m -> starts_at top p -> ends_at top q ->
  exists s, mp_scan_lines m left = Ok s /\ scan_reach m s /\
    t_x (sc_curr s) = qmax (cx p) (qmin left (cx q)).
Proof.
  intros top bot m left p q E Ep Eq. destruct (of_new _ _ _ E) as [Et [Eb MP]].
  destruct (new_ok m MP) as [s0 E0]. pose proof (reach_new m s0 E0) as R0.
  destruct (new_inv m s0 MP E0) as [I0 [_ [p' [Sp Xp]]]].
  assert (p' = p). { rewrite Et in Sp. apply starts_iff in Sp, Ep. congruence. } subst p'.
  assert (Lpq : cx p <= cx q). { rewrite <- Xp. apply (inv_x_le m); auto. rewrite Et. apply ends_iff; auto. }
  destruct (C36_scan_is_gap_free top bot m s0 left q E Eq R0) as [s [zs [A [R [_ [_ [X1 X2]]]]]]].
  exists s. unfold mp_scan_lines. rewrite E0. cbn [bind]. rewrite A. cbn [bind]. split; auto. split; auto.
  rewrite <- Xp. destruct (Qclt_le_dec (t_x (sc_curr s0)) left) as [L|L].
  - rewrite (X1 L). unfold qmax. replace (qleb (t_x (sc_curr s0)) (qmin left (cx q))) with true; auto.
    symmetry. apply qleb_iff. unfold qmin. rewrite Xp in L |- *. destruct (qleb left (cx q)); auto. apply Qclt_le_weak; auto.
  - destruct (X2 L) as [-> _]. unfold qmax.
    destruct (qleb (t_x (sc_curr s0)) (qmin left (cx q))) eqn:K; auto. apply qleb_iff in K.
    assert (M : qmin left (cx q) = left) by (apply qmin_l; rewrite Xp in L; qcl).
    rewrite M in *. apply Qcle_antisym; auto.
Qed.

(** C37: however the scan is cut by successive stops, the last of which is at
    or beyond the right end, the areas sum to the area enclosed by the chains.
    The polygon's exterior runs clockwise when the top chain is above, so its
    shoelace area is negative. *)
Theorem C37_scanned_area_signed : forall top bot m us q s, mp_new top bot = Ok m -> ends_at top q ->
  (exists u, In u us /\ cx q <= u) -> sc_new m = Ok s ->
  exists s' zs pg, scan_stops s us = Ok (s', zs) /\ mp_into_polygon m = Ok pg /\
    sum trapezoid_area zs = - shoelace (pg_exterior pg).
Proof.
  intros top bot m us q s E Eq [u [Hu Lu]] E0. destruct (of_new _ _ _ E) as [Et [Eb MP]].
  destruct (new_inv m s MP E0) as [I0 [P0 _]].
  destruct (stops_ok us m s MP (reach_new m s E0)) as [s' [zs [A [R [_ [_ [P [X _]]]]]]]].
  exists s', zs, (mkPolygon (mp_top m ++ tl (rev (mp_bot m))) []). split; auto.
  split; [apply into_polygon_ok; auto|]. cbn [pg_exterior]. rewrite shoelace_mono by auto.
  rewrite Qcopp_involutive. destruct (reach_inv m s' MP R) as [I' _].
  assert (Lt : last_opt (mp_top m) = Some q) by (apply ends_iff; rewrite Et; auto).
  assert (XE : cx q = t_x (sc_curr s')).
  { apply Qcle_antisym; [|apply (inv_x_le m); auto]. pose proof (X q u Lt Hu) as K. rewrite qmin_r in K by auto. exact K. }
  assert (Lb : last_opt (mp_bot m) = Some q).
  { pose proof MP as [p [q' [_ [_ [A1 [A2 _]]]]]]. apply ends_iff in A1, A2. congruence. }
  pose proof MP as [_ [_ [_ [_ [_ [_ [_ [IT IB]]]]]]]]. destruct I' as [Em [AT AB]].
  rewrite <- (pot_end (mp_top m) _ _ _ q IT Lt XE AT).
  rewrite <- (pot_end (mp_bot m) _ _ _ q IB Lb XE AB).
  rewrite P0 in P. unfold s_pot in P. rewrite Em in P. rewrite P. ring.
Qed.
Theorem C37_scanned_area : forall top bot m us q s, mp_new top bot = Ok m -> above top bot -> ends_at top q ->
  (exists u, In u us /\ cx q <= u) -> sc_new m = Ok s ->
  exists s' zs areas pg, scan_stops s us = Ok (s', zs) /\ mp_into_polygon m = Ok pg /\
    Forall2 (fun z a => trapz_area z = Ok a /\ 0 <= a) zs areas /\
    sum (fun a => a) areas = - shoelace (pg_exterior pg).
Proof.
  intros top bot m us q s E AB Eq Hu E0. destruct (of_new _ _ _ E) as [Et [Eb MP]].
  destruct (C37_scanned_area_signed top bot m us q s E Eq Hu E0) as [s' [zs [pg [A [B C]]]]].
  destruct (stops_ok us m s MP (reach_new m s E0)) as [s1 [zs1 [A1 [_ [G [BC _]]]]]].
  rewrite A in A1. inversion A1; subst s1 zs1.
  exists s', zs, (map trapezoid_area zs), pg. split; auto. split; auto. split.
  - clear A A1 C. rewrite <- Et, <- Eb in AB. induction G as [|z a b l K1 K2 G IH]; [constructor|].
    inversion BC; subst. constructor; auto.
    destruct (above_area m z AB H1) as [Z [Z1 Z2]]. split; auto. unfold trapezoid_area.
    assert (H : 0 <= (t_x (z_right z) - t_x (z_left z)) * (t_top (z_left z) - t_bot (z_left z) + (t_top (z_right z) - t_bot (z_right z)))) by qc.
    apply Qcnot_lt_le. intros K. unfold Qcdiv in K.
    set (w := (t_x (z_right z) - t_x (z_left z)) * _) in *. clearbody w.
    assert (J : w * / (1 + 1) * (1 + 1) = w).
    { rewrite <- Qcmult_assoc, (Qcmult_comm (/ _)), Qcmult_inv_r, Qcmult_1_r; auto. discriminate. }
    set (v := w * / (1 + 1)) in *. clearbody v. qcl.
  - rewrite <- C. clear. induction zs; simpl; auto. rewrite IHzs. reflexivity.
Qed.

(** C38: both ways of advancing terminate, with the same trapezoids and the same
    final state.  The number of loop iterations is bounded by the number of
    vertices: any larger bound gives the same result. *)
Theorem C38_advance_to_upto_agree : forall top bot m s u, mp_new top bot = Ok m -> scan_reach m s ->
  exists s' zs, advance_to s u = Ok (s', zs) /\ advance_upto s u = Ok (s', zs) /\
    forall f n, (scan_fuel m <= f)%nat -> (scan_fuel m <= n)%nat ->
      sc_advance_upto f s u = Ok (s', zs) /\ sc_advance_to n f s u = Ok (s', zs).
Proof.
  intros top bot m s u E R. destruct (of_new _ _ _ E) as [Et [Eb MP]].
  destruct (scan_ok m s u MP R) as [s' [zs [_ [_ F]]]]. pose proof (reach_inv m s MP R) as [[Em _] _].
  exists s', zs. unfold advance_to, advance_upto. rewrite Em.
  destruct (F _ _ (Nat.le_refl _) (Nat.le_refl _)). auto.
Qed.

(** ** A polygon with vertical edges on both chains meets the hypotheses. *)
Definition z (n : Z) : Qc := Q2Qc (inject_Z n).
Definition ex_top : list pt := [mkC (z 0) (z 0); mkC (z 0) (z 2); mkC (z 1) (z 3); mkC (z 3) (z 3)].
Definition ex_bot : list pt := [mkC (z 0) (z 0); mkC (z 2) (z (-1)); mkC (z 3) (z (-1)); mkC (z 3) (z 3)].
Example ex_mono_new : mp_new ex_top ex_bot = Ok (mkMono ex_top ex_bot).
Proof. vm_compute. reflexivity. Qed.
Example ex_mono_above : above ex_top ex_bot.
Proof.
  intros r s [a [b [E [t [T0 [T1 [Rx Ry]]]]]]] [a' [b' [E' [t' [T0' [T1' [Sx Sy]]]]]]] X.
  simpl in E, E'.
  repeat match goal with H : _ \/ _ |- _ => destruct H | H : False |- _ => contradiction end;
  repeat match goal with H : (_, _) = (_, _) |- _ => inversion H; clear H; subst end; cbn [cx cy] in *; unfold z in *;
  rewrite Rx, Sx in X; rewrite Ry, Sy; clear Rx Ry Sx Sy; qc_norm; unfold inject_Z in *; nra.
Qed.
Example ex_mono_scan :
  match sc_new (mkMono ex_top ex_bot) with
  | Ok s => match scan_stops s [z 1 / z 2; z 2; z 5] with Ok (_, zs) => List.length zs | _ => 0%nat end
  | _ => 0%nat
  end = 4%nat.
Proof. vm_compute. reflexivity. Qed.
