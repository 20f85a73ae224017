Require Import List String Bool Arith Lia Sorted Lqa Psatz.
From Verif Require Import Base Scalar M_Events M_Geo S_Geo P_Geo M_MonoPoly S_Mono.
Import ListNotations.
Local Open Scope list_scope.
Local Open Scope Qc_scope.

(** ** C33 *)
Lemma opt_pt_eqb_iff : forall a b, opt_pt_eqb a b = true <-> a = b.
Proof.
  intros [a|] [b|]; simpl; split; intros H; try congruence.
  - apply peqb_iff in H. congruence.
  - inversion H; subst. apply peqb_iff. reflexivity.
Qed.
Lemma windows_iff : forall l, windows_increase l = true <-> increasing l.
Proof.
  assert (T : forall a b c, lex_lt a b -> lex_lt b c -> lex_lt a c).
  { intros a b c. unfold lex_lt. intros [H|[H H']] [K|[K K']]; [left|left|left|right;split]; qcl. }
  unfold increasing. induction l as [|a [|b l] IH].
  - simpl. split; auto. intros; constructor.
  - simpl. split; auto. intros; repeat constructor.
  - change (windows_increase (a :: b :: l)) with (pltb a b && windows_increase (b :: l)).
    rewrite andb_true_iff, IH, pltb_iff. split.
    + intros [H H']. constructor; auto. inversion H'; subst.
      constructor; auto. eapply Forall_impl; [|eassumption]. intros c. apply T. exact H.
    + intros H. inversion H; subst. split; auto. inversion H3; auto.
Qed.
Lemma starts_iff : forall l p, first l = Some p <-> starts_at l p.
Proof.
  intros [|a l] p; unfold first, starts_at; simpl; split.
  - discriminate. - intros [l' E]; discriminate.
  - intros E; inversion E; eauto. - intros [l' E]; inversion E; auto.
Qed.
Lemma last_opt_app : forall l (p : pt), last_opt (l ++ [p]) = Some p.
Proof.
  intros. unfold last_opt. rewrite app_length. simpl. replace (List.length l + 1 - 1)%nat with (List.length l) by lia.
  rewrite nth_error_app2 by lia. rewrite Nat.sub_diag. reflexivity.
Qed.
Lemma ends_iff : forall l p, last_opt l = Some p <-> ends_at l p.
Proof.
  intros l p. split.
  - intros E. assert (N : l <> []) by (intros ->; discriminate).
    destruct (exists_last N) as [l' [a ->]]. rewrite last_opt_app in E. inversion E. exists l'; reflexivity.
  - intros [l' ->]. apply last_opt_app.
Qed.
Lemma first_some : forall (l : list pt), l <> [] -> exists p, first l = Some p.
Proof. intros [|p l] H; [congruence|exists p; reflexivity]. Qed.
Lemma last_some : forall (l : list pt), l <> [] -> exists p, last_opt l = Some p.
Proof. intros l H. destruct (exists_last H) as [l' [a ->]]. exists a. apply last_opt_app. Qed.

Lemma mp_new_ok : forall top bot m, mp_new top bot = Ok m <-> m = mkMono top bot /\ mono_pair top bot.
Proof.
  intros top bot m. unfold mp_new. split.
  - destruct (opt_pt_eqb (first top) (first bot)) eqn:E1; cbn [check bind]; [|discriminate].
    destruct (opt_pt_eqb (last_opt top) (last_opt bot)) eqn:E2; cbn [check bind]; [|discriminate].
    destruct (opt_pt_eqb (first top) (last_opt top)) eqn:E3; cbn [check bind negb]; [discriminate|].
    destruct (windows_increase top && windows_increase bot) eqn:E4; cbn [check bind]; [|discriminate].
    intros E; inversion E; subst; split; auto.
    apply opt_pt_eqb_iff in E1, E2. apply andb_true_iff in E4. destruct E4 as [W1 W2]. apply windows_iff in W1, W2.
    assert (N : top <> []). { intros ->. discriminate. }
    destruct (first_some top N) as [p Hp]. destruct (last_some top N) as [q Hq].
    exists p, q. rewrite <- !starts_iff, <- !ends_iff. do 4 (split; [congruence|]). split; auto.
    intros ->. rewrite Hp, Hq in E3. simpl in E3. assert (X : peqb q q = true) by (apply peqb_iff; reflexivity). congruence.
  - intros [-> [p [q [H1 [H2 [H3 [H4 [H5 [H6 H7]]]]]]]]].
    rewrite <- starts_iff in H1, H2. rewrite <- ends_iff in H3, H4.
    apply windows_iff in H6, H7. rewrite H1, H2, H3, H4, H6, H7. simpl.
    assert (X : peqb p p = true) by (apply peqb_iff; reflexivity).
    assert (Y : peqb q q = true) by (apply peqb_iff; reflexivity).
    assert (Z : peqb p q = false) by (apply peqb_false; exact H5).
    rewrite X, Y, Z. reflexivity.
Qed.
Lemma mp_new_total : forall top bot, (exists m, mp_new top bot = Ok m) \/ (exists s, mp_new top bot = Panic s).
Proof.
  intros. unfold mp_new.
  destruct (opt_pt_eqb (first top) (first bot)); cbn [check bind]; [|eauto].
  destruct (opt_pt_eqb (last_opt top) (last_opt bot)); cbn [check bind]; [|eauto].
  destruct (opt_pt_eqb (first top) (last_opt top)); cbn [check bind negb]; [eauto|].
  destruct (windows_increase top && windows_increase bot); cbn [check bind]; eauto.
Qed.

(** ** C34 *)
Lemma edges_cons : forall a b l, edges (a :: b :: l) = (a, b) :: edges (b :: l).
Proof. reflexivity. Qed.
Lemma edges_app : forall l a l', edges (l ++ a :: l') = edges (l ++ [a]) ++ edges (a :: l').
Proof.
  induction l as [|x l IH]; intros a l'.
  - reflexivity.
  - destruct l as [|y l].
    + simpl app. rewrite !edges_cons. reflexivity.
    + simpl app. rewrite !edges_cons. specialize (IH a l'). simpl app in IH. rewrite IH. reflexivity.
Qed.
Lemma edges_rev : forall l, edges (rev l) = rev (map reversed (edges l)).
Proof.
  induction l as [|a [|b l] IH]; [reflexivity|reflexivity|].
  rewrite edges_cons. simpl map. simpl rev. simpl rev in IH.
  rewrite <- app_assoc. simpl app. rewrite edges_app. rewrite IH. simpl. reflexivity.
Qed.
Lemma into_polygon_ok : forall m, mono_pair (mp_top m) (mp_bot m) ->
  mp_into_polygon m = Ok (mkPolygon (mp_top m ++ tl (rev (mp_bot m))) []).
Proof.
  intros [top bot] [p [q [[t' H1] [[b' H2] [[t'' H3] [[b'' H4] [H5 [H6 H7]]]]]]]]. cbn [mp_top mp_bot] in *.
  unfold mp_into_polygon. cbn [mp_top mp_bot].
  assert (Rb : rev bot = q :: rev b'') by (rewrite H4, rev_app_distr; reflexivity).
  rewrite Rb. cbn [tl]. unfold first at 1. simpl nth_error.
  replace (last_opt top) with (Some q) by (rewrite H3; symmetry; apply last_opt_app).
  cbn [opt_pt_eqb]. replace (peqb q q) with true by (symmetry; apply peqb_iff; reflexivity). cbn [check bind].
  assert (C : ls_is_closed (top ++ rev b'') = true).
  { unfold ls_is_closed. apply opt_pt_eqb_iff.
    assert (F : first (top ++ rev b'') = Some p) by (rewrite H1; reflexivity).
    rewrite F. symmetry. apply ends_iff.
    destruct b'' as [|x b''].
    - exfalso. simpl in H4. rewrite H4 in H2. inversion H2. congruence.
    - rewrite H4 in H2. simpl in H2. inversion H2; subst x. exists (top ++ rev b''). simpl. rewrite app_assoc. reflexivity. }
  rewrite C. cbn [check bind]. unfold polygon_new, ls_close. rewrite C. reflexivity.
Qed.
Lemma into_polygon_edges : forall top bot, mono_pair top bot ->
  edges (top ++ tl (rev bot)) = edges top ++ rev (map reversed (edges bot)).
Proof.
  intros top bot [p [q [_ [_ [[t'' H3] [[b'' H4] _]]]]]].
  rewrite <- edges_rev. rewrite H4, rev_app_distr. cbn [rev app tl]. rewrite H3. rewrite <- app_assoc. simpl app.
  rewrite edges_app. reflexivity.
Qed.

(** ** C35 *)
Lemma fold_max : forall l y0, let y := fold_left up_y l y0 in
  y0 <= y /\ (forall c, In c l -> cy c <= y) /\ (y = y0 \/ exists c, In c l /\ cy c = y).
Proof.
  induction l as [|a l IH]; intros y0; simpl.
  - split; [apply Qcle_refl|]. split; [contradiction|auto].
  - unfold up_y at 1 3 5 7. specialize (IH (if qltb y0 (cy a) then cy a else y0)). cbv zeta in IH.
    set (y := fold_left _ l _) in *. clearbody y. destruct IH as [I1 [I2 I3]].
    destruct (qltb y0 (cy a)) eqn:E.
    + apply qltb_iff in E. split; [qcl|]. split.
      * intros c [<-|H]; auto.
      * right. destruct I3 as [->|[c [H H']]]; eauto.
    + assert (E' : ~ y0 < cy a) by (rewrite <- qltb_iff; congruence). apply Qcnot_lt_le in E'.
      split; auto. split.
      * intros c [<-|H]; auto. qcl.
      * destruct I3 as [->|[c [H H']]]; eauto.
Qed.
Lemma fold_min : forall l y0, let y := fold_left down_y l y0 in
  y <= y0 /\ (forall c, In c l -> y <= cy c) /\ (y = y0 \/ exists c, In c l /\ cy c = y).
Proof.
  induction l as [|a l IH]; intros y0; simpl.
  - split; [apply Qcle_refl|]. split; [contradiction|auto].
  - unfold down_y at 1 3 5 7. specialize (IH (if qltb (cy a) y0 then cy a else y0)). cbv zeta in IH.
    set (y := fold_left _ l _) in *. clearbody y. destruct IH as [I1 [I2 I3]].
    destruct (qltb (cy a) y0) eqn:E.
    + apply qltb_iff in E. split; [qcl|]. split.
      * intros c [<-|H]; auto.
      * right. destruct I3 as [->|[c [H H']]]; eauto.
    + assert (E' : ~ cy a < y0) by (rewrite <- qltb_iff; congruence). apply Qcnot_lt_le in E'.
      split; auto. split.
      * intros c [<-|H]; auto. qcl.
      * destruct I3 as [->|[c [H H']]]; eauto.
Qed.

(** ** The scanner *)
Lemma inc_nth : forall l i j p q, increasing l -> (i < j)%nat -> nth_error l i = Some p -> nth_error l j = Some q -> lex_lt p q.
Proof.
  induction l as [|a l IH]; intros i j p q H L Hi Hj.
  - destruct i; discriminate.
  - inversion H; subst. destruct j; [lia|]. simpl in Hj. destruct i; simpl in Hi.
    + inversion Hi; subst. rewrite Forall_forall in H3. apply H3. eapply nth_error_In; eauto.
    + apply (IH i j p q); auto. lia.
Qed.
Lemma lex_lt_x : forall p q, lex_lt p q -> cx p <= cx q.
Proof. intros p q [H|[H _]]; qcl. Qed.
Lemma nth_edges : forall l i p q, nth_error l i = Some p -> nth_error l (S i) = Some q -> In (p, q) (edges l).
Proof.
  induction l as [|a l IH]; intros i p q Hp Hq; [destruct i; discriminate|].
  destruct l as [|b l]; [destruct i; discriminate|]. rewrite edges_cons.
  destruct i; simpl in Hp, Hq.
  - inversion Hp; inversion Hq; subst. left; reflexivity.
  - right. apply (IH i); auto.
Qed.
Lemma edges_nth : forall l p q, In (p, q) (edges l) -> exists i, nth_error l i = Some p /\ nth_error l (S i) = Some q.
Proof.
  induction l as [|a [|b l] IH]; intros p q H; [contradiction|contradiction|].
  rewrite edges_cons in H. destruct H as [H|H].
  - inversion H; subst. exists O. auto.
  - destruct (IH _ _ H) as [i Hi]. exists (S i). exact Hi.
Qed.

(** [(x, y)] is on the edge of [l] starting at index [i], or at its last vertex. *)
Definition at_edge (l : list pt) (i : nat) (x y : Qc) : Prop :=
  exists p, nth_error l i = Some p /\
    match nth_error l (S i) with Some q => on_seg p q (mkC x y) | None => p = mkC x y end.
Definition scan_inv (m : mono_poly) (s : scanner) : Prop :=
  sc_poly s = m /\
  at_edge (mp_top m) (sc_top s) (t_x (sc_curr s)) (t_top (sc_curr s)) /\
  at_edge (mp_bot m) (sc_bot s) (t_x (sc_curr s)) (t_bot (sc_curr s)).

Lemma on_seg_x : forall p q r, cx p <= cx q -> on_seg p q r -> cx p <= cx r /\ cx r <= cx q.
Proof. intros p q r H [t [H0 [H1 [E _]]]]. rewrite E. split; qc. Qed.

Lemma interpolate_ok : forall p q x, cx p <= x -> x <= cx q ->
  exists y, interpolate p q x = Ok y /\ on_seg p q (mkC x y).
Proof.
  intros p q x H1 H2. unfold interpolate.
  replace (qleb (cx p) x && qleb x (cx q)) with true by (symmetry; apply andb_true_iff; split; apply qleb_iff; auto).
  cbn [check bind]. destruct (qeqb (cx q) (cx p)) eqn:E.
  - apply qeqb_iff in E. exists (cy q). split; auto.
    assert (Ex : x = cx q) by (apply Qcle_antisym; [auto|rewrite E; auto]).
    replace (mkC x (cy q)) with q by (destruct q; simpl in *; subst; reflexivity). apply on_seg_end.
  - assert (L : cx p < cx q).
    { apply Qcle_lt_or_eq in H1. apply Qcle_lt_or_eq in H2.
      assert (N : cx q <> cx p) by (intros K; apply qeqb_iff in K; congruence).
      destruct H1 as [H1|H1], H2 as [H2|H2]; try (subst; auto; fail); try qcl. congruence. }
    set (t := (x - cx p) / (cx q - cx p)).
    assert (Et : t * (cx q - cx p) = x - cx p).
    { unfold t, Qcdiv. rewrite <- Qcmult_assoc, (Qcmult_comm (/ _)), Qcmult_inv_r, Qcmult_1_r; auto.
      intros K. assert (cx q = cx p) by qcl. rewrite H in L. exact (Qclt_not_eq _ _ L eq_refl). }
    assert (T0 : 0 <= t). { apply Qcnot_lt_le. intros K. qc. }
    assert (T1 : t <= 1). { apply Qcnot_lt_le. intros K. qc. }
    clearbody t.
    assert (CL : forall a b y, a <= y -> y <= b -> qmin (qmax y a) b = y).
    { intros a b y A B. unfold qmax. destruct (qleb y a) eqn:K.
      - apply qleb_iff in K. unfold qmin. replace (qleb a b) with true by (symmetry; apply qleb_iff; qcl). qcl.
      - unfold qmin. replace (qleb y b) with true by (symmetry; apply qleb_iff; qcl). reflexivity. }
    assert (B : exists y : Qc, y = t * (cy q - cy p) + cy p /\
      (let '(min_y, max_y) := if qltb (cy q) (cy p) then (cy q, cy p) else (cy p, cy q) in
        Ok (qmin (qmax (t * (cy q - cy p) + cy p) min_y) max_y)) = Ok y).
    { exists (t * (cy q - cy p) + cy p). split; auto.
      destruct (qltb (cy q) (cy p)) eqn:E2.
      - apply qltb_iff in E2. rewrite CL; auto; qc.
      - assert (E2' : ~ cy q < cy p) by (rewrite <- qltb_iff; congruence). apply Qcnot_lt_le in E2'.
        rewrite CL; auto; qc. }
    destruct B as [y [Ey ->]]. exists y. split; auto.
    exists t. cbn [cx cy]. split; [auto|]. split; [auto|]. split; [qcl|]. rewrite Ey. ring.
Qed.

Lemma at_edge_next : forall l i v, nth_error l i = Some v -> at_edge l i (cx v) (cy v).
Proof.
  intros l i v H. exists v. split; auto. destruct v as [x y]. cbn [cx cy].
  destruct (nth_error l (S i)); auto. apply on_seg_start.
Qed.
Lemma at_edge_x : forall l i x y p, increasing l -> at_edge l i x y -> nth_error l i = Some p ->
  cx p <= x /\ (forall q, nth_error l (S i) = Some q -> x <= cx q).
Proof.
  intros l i x y p I [p' [Hp H]] Hp'. rewrite Hp in Hp'. inversion Hp'; subst p'.
  destruct (nth_error l (S i)) as [q|] eqn:E.
  - assert (L : cx p <= cx q) by (apply lex_lt_x; apply (inc_nth l i (S i)); auto).
    destruct (on_seg_x p q (mkC x y) L H) as [A B]. split; auto. intros q' K. inversion K; subst. exact B.
  - subst p. simpl. split; [apply Qcle_refl|discriminate].
Qed.
(** The last abscissa bounds the others. *)
Lemma last_index : forall (l : list pt) q i p, last_opt l = Some q -> nth_error l i = Some p -> nth_error l (S i) = None -> p = q.
Proof.
  intros l q i p H Hi Hn. unfold last_opt in H. apply nth_error_None in Hn.
  assert (L : (i < List.length l)%nat) by (apply nth_error_Some; congruence).
  replace (List.length l - 1)%nat with i in H by lia. congruence.
Qed.
Lemma last_bound : forall l q i p, increasing l -> last_opt l = Some q -> nth_error l i = Some p -> cx p <= cx q.
Proof.
  intros l q i p I H Hi. unfold last_opt in H.
  assert (L : (i < List.length l)%nat) by (apply nth_error_Some; congruence).
  destruct (Nat.eq_dec i (List.length l - 1)) as [E|E].
  - subst i. rewrite H in Hi. inversion Hi. apply Qcle_refl.
  - apply lex_lt_x. apply (inc_nth l i (List.length l - 1)); auto. lia.
Qed.

(** The area below a chain up to index [i] and then up to the point [(x, y)]. *)
Definition strip (e : pt * pt) : Qc := (cx (snd e) - cx (fst e)) * (cy (fst e) + cy (snd e)) / (1 + 1).
Definition pot (l : list pt) (i : nat) (x y : Qc) : Qc :=
  sum strip (edges (firstn (S i) l)) +
  match nth_error l i with Some p => strip (p, mkC x y) | None => 0 end.
Lemma sum_app : forall {A} (f : A -> Qc) l l', sum f (l ++ l') = sum f l + sum f l'.
Proof. intros A f l l'. induction l as [|a l IH]; simpl; [ring|rewrite IH; ring]. Qed.
Lemma firstn_snoc : forall (l : list pt) i p, nth_error l i = Some p -> firstn (S i) l = firstn i l ++ [p].
Proof.
  induction l as [|a l IH]; intros i p H; [destruct i; discriminate|].
  destruct i; simpl in H; [inversion H; reflexivity|]. rewrite !firstn_cons. rewrite (IH i p H). reflexivity.
Qed.
Lemma pot_step : forall l i p q, nth_error l i = Some p -> nth_error l (S i) = Some q ->
  pot l (S i) (cx q) (cy q) = pot l i (cx q) (cy q).
Proof.
  intros l i p q Hp Hq. unfold pot. rewrite Hp, Hq.
  rewrite (firstn_snoc l (S i) q Hq), (firstn_snoc l i p Hp).
  rewrite <- app_assoc. simpl app. rewrite edges_app. rewrite sum_app. rewrite edges_cons. simpl sum.
  unfold strip. cbn [fst snd cx cy]. unfold Qcdiv. ring.
Qed.
Lemma pot_move : forall (l : list pt) i (p : pt) (x y x' y' : Qc), nth_error l i = Some p ->
  (x - cx p) * (y' - cy p) = (x' - cx p) * (y - cy p) ->
  pot l i x' y' = pot l i x y + strip (mkC x y, mkC x' y').
Proof.
  intros l i p x y x' y' Hp H. unfold pot. rewrite Hp. rewrite <- Qcplus_assoc. f_equal.
  unfold strip. cbn [fst snd cx cy]. unfold Qcdiv. rewrite <- Qcmult_plus_distr_l. f_equal.
  assert (K : (x' - cx p) * (cy p + y') - ((x - cx p) * (cy p + y) + (x' - x) * (y + y')) =
     (x - cx p) * (y' - cy p) - (x' - cx p) * (y - cy p)) by ring.
  rewrite H in K. qcl.
Qed.
Lemma on_seg_line : forall p q a b, on_seg p q a -> on_seg p q b ->
  (cx a - cx p) * (cy b - cy p) = (cx b - cx p) * (cy a - cy p).
Proof.
  intros p q a b [t [_ [_ [E1 E2]]]] [u [_ [_ [E3 E4]]]]. rewrite E1, E2, E3, E4. ring.
Qed.

Definition s_pot (s : scanner) : Qc :=
  pot (mp_top (sc_poly s)) (sc_top s) (t_x (sc_curr s)) (t_top (sc_curr s)) -
  pot (mp_bot (sc_poly s)) (sc_bot s) (t_x (sc_curr s)) (t_bot (sc_curr s)).
Definition s_meas (s : scanner) : nat :=
  (List.length (mp_top (sc_poly s)) - sc_top s) + (List.length (mp_bot (sc_poly s)) - sc_bot s).

Definition move (l : list pt) (i : nat) (x y : Qc) (i' : nat) (x' y' : Qc) : Prop :=
  at_edge l i' x' y' /\ pot l i' x' y' = pot l i x y + strip (mkC x y, mkC x' y') /\
  (x < x' -> on_one_edge l (mkC x y) (mkC x' y')).
Lemma move_vertex : forall l i x y q, at_edge l i x y -> nth_error l (S i) = Some q ->
  move l i x y (S i) (cx q) (cy q).
Proof.
  intros l i x y q [p [Hp H]] Hq. rewrite Hq in H. split; [apply at_edge_next; auto|].
  assert (Q : on_seg p q (mkC (cx q) (cy q))) by (destruct q; apply on_seg_end). split.
  - rewrite (pot_step l i p q Hp Hq). apply (pot_move l i p); auto.
    apply (on_seg_line p q (mkC x y) (mkC (cx q) (cy q))); auto.
  - intros _. exists p, q. split; [apply (nth_edges l i); auto|]. auto.
Qed.
Lemma move_interp : forall l i x y p q x' y', at_edge l i x y -> nth_error l i = Some p -> nth_error l (S i) = Some q ->
  on_seg p q (mkC x' y') -> move l i x y i x' y'.
Proof.
  intros l i x y p q x' y' [p' [Hp H]] Hp' Hq Q. rewrite Hp in Hp'. inversion Hp'; subst p'.
  rewrite Hq in H. split; [exists p; rewrite Hq; auto|]. split.
  - apply (pot_move l i p); auto. apply (on_seg_line p q (mkC x y) (mkC x' y')); auto.
  - intros _. exists p, q. split; [apply (nth_edges l i); auto|]. auto.
Qed.
Lemma move_stay : forall l i x y, at_edge l i x y -> move l i x y i x y.
Proof.
  intros l i x y H. split; auto. split.
  - unfold strip. cbn [fst snd cx cy]. unfold Qcdiv. ring.
  - intros L. exfalso. exact (Qclt_not_eq _ _ L eq_refl).
Qed.

(** What one call of [advance_next] does. *)
Definition step_post (m : mono_poly) (s : scanner) (u : Qc) (s' : scanner) (r : option (option trapz)) : Prop :=
  let c := sc_curr s in
  let c' := sc_curr s' in
  sc_poly s' = m /\
  move (mp_top m) (sc_top s) (t_x c) (t_top c) (sc_top s') (t_x c') (t_top c') /\
  move (mp_bot m) (sc_bot s) (t_x c) (t_bot c) (sc_bot s') (t_x c') (t_bot c') /\
  t_x c <= t_x c' /\ t_x c' <= u /\
  match r with
  | None => s' = s /\ nth_error (mp_top m) (S (sc_top s)) = None /\ nth_error (mp_bot m) (S (sc_bot s)) = None
  | Some o =>
      (s_meas s' < s_meas s)%nat /\ 
      match o with
      | None => t_x c' = t_x c
      | Some z => z = mkTrapz c c' /\ t_x c < t_x c'
      end
      \/ s_meas s' = s_meas s /\ t_x c' = u /\ o = Some (mkTrapz c c')
  end.

Lemma step_ok : forall m s u, mono_pair (mp_top m) (mp_bot m) -> scan_inv m s -> t_x (sc_curr s) < u ->
  exists s' r, sc_advance_next s u = Ok (s', r) /\ step_post m s u s' r.
Proof.
  intros m s u MP [Em [AT AB]] Lu.
  destruct MP as [p0 [q0 [_ [_ [ET [EB [_ [IT IB]]]]]]]].
  rewrite <- ends_iff in ET, EB.
  pose proof AT as AT0. pose proof AB as AB0.
  destruct AT0 as [tp [Htp AT0]]. destruct AB0 as [bt [Hbt AB0]].
  destruct (at_edge_x _ _ _ _ tp IT AT Htp) as [XT1 XT2].
  destruct (at_edge_x _ _ _ _ bt IB AB Hbt) as [XB1 XB2].
  assert (NT : forall i v, nth_error (mp_top m) i = Some v -> (i < List.length (mp_top m))%nat)
    by (intros i v H; apply nth_error_Some; congruence).
  assert (NB : forall i v, nth_error (mp_bot m) i = Some v -> (i < List.length (mp_bot m))%nat)
    by (intros i v H; apply nth_error_Some; congruence).
  unfold sc_advance_next. replace (qltb (t_x (sc_curr s)) u) with true by (symmetry; apply qltb_iff; auto).
  cbn [check bind]. unfold sc_peek_next. rewrite Em. rewrite Htp, Hbt. cbn [expect bind].
  replace (sc_top s + 1)%nat with (S (sc_top s)) by lia. replace (sc_bot s + 1)%nat with (S (sc_bot s)) by lia.
  assert (TV : (if (List.length (mp_top m) <=? S (sc_top s))%nat then None else nth_error (mp_top m) (S (sc_top s))) = nth_error (mp_top m) (S (sc_top s))).
  { destruct (List.length (mp_top m) <=? S (sc_top s))%nat eqn:E; auto. apply Nat.leb_le in E. symmetry. apply nth_error_None. auto. }
  assert (BV : (if (List.length (mp_bot m) <=? S (sc_bot s))%nat then None else nth_error (mp_bot m) (S (sc_bot s))) = nth_error (mp_bot m) (S (sc_bot s))).
  { destruct (List.length (mp_bot m) <=? S (sc_bot s))%nat eqn:E; auto. apply Nat.leb_le in E. symmetry. apply nth_error_None. auto. }
  rewrite TV, BV. clear TV BV.
  set (x := t_x (sc_curr s)) in *.
  destruct (nth_error (mp_top m) (S (sc_top s))) as [nt|] eqn:Ent, (nth_error (mp_bot m) (S (sc_bot s))) as [nb|] eqn:Enb; cbn [bind].
  - specialize (XT2 nt eq_refl). specialize (XB2 nb eq_refl).
    set (nx := match cx nt ?= cx nb with Lt => cx nt | _ => cx nb end).
    assert (NX : nx <= cx nt /\ nx <= cx nb /\ x <= nx).
    { unfold nx. destruct (qcmp_spec (cx nt) (cx nb)) as [E|E|E]; repeat split; auto; try apply Qcle_refl; try qcl.
      all: rewrite E; try apply Qcle_refl; auto. }
    destruct NX as [NX1 [NX2 NX3]].
    destruct (qltb u nx) eqn:EU.
    + apply qltb_iff in EU.
      destruct (interpolate_ok tp nt u) as [yt [-> Ht]]; [qcl|qcl|].
      destruct (interpolate_ok bt nb u) as [yb [-> Hb]]; [qcl|qcl|]. cbn [bind t_x].
      replace (qltb x u) with true by (symmetry; apply qltb_iff; auto).
      eexists _, _. split; [reflexivity|]. unfold step_post. cbn [sc_curr sc_poly sc_top sc_bot t_x t_top t_bot].
      split; auto. split; [apply (move_interp _ _ _ _ tp nt); auto|]. split; [apply (move_interp _ _ _ _ bt nb); auto|].
      split; [unfold x in *; qcl|]. split; [apply Qcle_refl|]. right. split; [|split; reflexivity].
      unfold s_meas. cbn [sc_poly sc_top sc_bot]. rewrite Em. reflexivity.
    + assert (EU' : ~ u < nx) by (rewrite <- qltb_iff; congruence). apply Qcnot_lt_le in EU'. clear EU.
      unfold nx in *. clear nx.
      assert (RES : forall c', x <= t_x c' ->
         (s_meas s < s_meas s)%nat \/ (match (if qltb x (t_x c') then Some (mkTrapz (sc_curr s) c') else None) with
           | None => t_x c' = x | Some z => z = mkTrapz (sc_curr s) c' /\ x < t_x c' end)).
      { intros c' Hc. right. destruct (qltb x (t_x c')) eqn:K.
        - apply qltb_iff in K. auto.
        - assert (K' : ~ x < t_x c') by (rewrite <- qltb_iff; congruence). apply Qcnot_lt_le in K'. apply Qcle_antisym; auto. }
      pose proof (NT _ _ Ent) as LT. pose proof (NB _ _ Enb) as LB.
      destruct (qcmp_spec (cx nt) (cx nb)) as [E|E|E]; cbn [bind].
      * eexists _, _. split; [reflexivity|]. unfold step_post. cbn [sc_curr sc_poly sc_top sc_bot t_x t_top t_bot].
        split; auto. split; [apply move_vertex; auto|]. split; [rewrite E; apply move_vertex; auto|].
        split; [fold x; qcl|]. split; [qcl|]. left. split.
        -- unfold s_meas. cbn [sc_poly sc_top sc_bot]. rewrite Em. lia.
        -- destruct (RES (mkTrip (cx nt) (cy nt) (cy nb))) as [K|K]; [cbn [t_x]; qcl|lia|]. exact K.
      * destruct (interpolate_ok bt nb (cx nt)) as [yb [-> Hb]]; [qcl|qcl|]. cbn [bind].
        eexists _, _. split; [reflexivity|]. unfold step_post. cbn [sc_curr sc_poly sc_top sc_bot t_x t_top t_bot].
        split; auto. split; [apply move_vertex; auto|]. split; [apply (move_interp _ _ _ _ bt nb); auto|].
        split; [fold x; qcl|]. split; [qcl|]. left. split.
        -- unfold s_meas. cbn [sc_poly sc_top sc_bot]. rewrite Em. lia.
        -- destruct (RES (mkTrip (cx nt) (cy nt) yb)) as [K|K]; [cbn [t_x]; qcl|lia|]. exact K.
      * destruct (interpolate_ok tp nt (cx nb)) as [yt [-> Ht]]; [qcl|qcl|]. cbn [bind].
        eexists _, _. split; [reflexivity|]. unfold step_post. cbn [sc_curr sc_poly sc_top sc_bot t_x t_top t_bot].
        split; auto. split; [apply (move_interp _ _ _ _ tp nt); auto|]. split; [apply move_vertex; auto|].
        split; [fold x; qcl|]. split; [qcl|]. left. split.
        -- unfold s_meas. cbn [sc_poly sc_top sc_bot]. rewrite Em. lia.
        -- destruct (RES (mkTrip (cx nb) yt (cy nb))) as [K|K]; [cbn [t_x]; qcl|lia|]. exact K.
  - (* the bottom chain is at its end *)
    specialize (XT2 nt eq_refl). subst bt. cbn [cx cy] in *.
    assert (B1 : mkC x (t_bot (sc_curr s)) = q0) by (apply (last_index (mp_bot m) _ (sc_bot s)); auto).
    assert (B2 : cx nt <= cx q0) by (apply (last_bound (mp_top m) _ (S (sc_top s))); auto).
    assert (EX : cx nt = x) by (rewrite <- B1 in B2; apply Qcle_antisym; auto).
    replace (qeqb (cx nt) x) with true by (symmetry; apply qeqb_iff; auto). cbn [check bind].
    replace (qltb u x) with false.
    2:{ symmetry. apply not_true_iff_false. rewrite qltb_iff. apply Qcle_not_lt. qcl. }
    unfold interpolate. cbn [cx cy]. rewrite EX.
    replace (qleb x x) with true by (symmetry; apply qleb_iff; apply Qcle_refl). cbn [andb check bind].
    replace (qeqb x x) with true by (symmetry; apply qeqb_iff; reflexivity). cbn [bind t_x].
    replace (qltb x x) with false by (symmetry; apply not_true_iff_false; rewrite qltb_iff; apply Qcle_not_lt; apply Qcle_refl).
    pose proof (NT _ _ Ent) as LT.
    eexists _, _. split; [reflexivity|]. unfold step_post. cbn [sc_curr sc_poly sc_top sc_bot t_x t_top t_bot]. fold x.
    split; auto. split; [rewrite <- EX at 2; apply move_vertex; auto|]. split; [apply move_stay; auto|].
    split; [apply Qcle_refl|]. split; [qcl|]. left. split; [|reflexivity].
    unfold s_meas. cbn [sc_poly sc_top sc_bot]. rewrite Em. lia.
  - (* the top chain is at its end *)
    specialize (XB2 nb eq_refl). subst tp. cbn [cx cy] in *.
    assert (B1 : mkC x (t_top (sc_curr s)) = q0) by (apply (last_index (mp_top m) _ (sc_top s)); auto).
    assert (B2 : cx nb <= cx q0) by (apply (last_bound (mp_bot m) _ (S (sc_bot s))); auto).
    assert (EX : cx nb = x) by (rewrite <- B1 in B2; apply Qcle_antisym; auto).
    replace (qeqb (cx nb) x) with true by (symmetry; apply qeqb_iff; auto). cbn [check bind].
    replace (qltb u x) with false.
    2:{ symmetry. apply not_true_iff_false. rewrite qltb_iff. apply Qcle_not_lt. qcl. }
    unfold interpolate. cbn [cx cy]. rewrite EX.
    replace (qleb x x) with true by (symmetry; apply qleb_iff; apply Qcle_refl). cbn [andb check bind].
    replace (qeqb x x) with true by (symmetry; apply qeqb_iff; reflexivity). cbn [bind t_x].
    replace (qltb x x) with false by (symmetry; apply not_true_iff_false; rewrite qltb_iff; apply Qcle_not_lt; apply Qcle_refl).
    pose proof (NB _ _ Enb) as LB.
    eexists _, _. split; [reflexivity|]. unfold step_post. cbn [sc_curr sc_poly sc_top sc_bot t_x t_top t_bot]. fold x.
    split; auto. split; [apply move_stay; auto|]. split; [rewrite <- EX at 2; apply move_vertex; auto|].
    split; [apply Qcle_refl|]. split; [qcl|]. left. split; [|reflexivity].
    unfold s_meas. cbn [sc_poly sc_top sc_bot]. rewrite Em. lia.
  - exists s, None. split; auto. unfold step_post. fold x. split; auto. split; [apply move_stay; auto|]. split; [apply move_stay; auto|].
    split; [apply Qcle_refl|]. split; [qcl|]. auto.
Qed.

(** ** Whole scans *)
Definition run_post (m : mono_poly) (s : scanner) (u : Qc) (s' : scanner) (zs : list trapz) : Prop :=
  scan_inv m s' /\ gap_free (t_x (sc_curr s)) (t_x (sc_curr s')) zs /\
  Forall (between_chains (mp_top m) (mp_bot m)) zs /\
  s_pot s' = s_pot s + sum trapezoid_area zs /\
  (forall q, last_opt (mp_top m) = Some q -> t_x (sc_curr s) < u -> t_x (sc_curr s') = qmin u (cx q)) /\
  (u <= t_x (sc_curr s) -> s' = s /\ zs = []) /\
  (scan_reach m s -> scan_reach m s') /\ (s_meas s' <= s_meas s)%nat.

Lemma inv_x_le : forall m s q, mono_pair (mp_top m) (mp_bot m) -> scan_inv m s -> last_opt (mp_top m) = Some q ->
  t_x (sc_curr s) <= cx q.
Proof.
  intros m s q [p0 [q0 [_ [_ [_ [_ [_ [IT _]]]]]]]] [_ [[p [Hp H]] _]] Hq.
  destruct (nth_error (mp_top m) (S (sc_top s))) as [v|] eqn:E.
  - assert (L : cx p <= cx v) by (apply lex_lt_x; apply (inc_nth (mp_top m) (sc_top s) (S (sc_top s))); auto).
    destruct (on_seg_x _ _ _ L H) as [_ K]. simpl in K.
    pose proof (last_bound (mp_top m) q _ v IT Hq E). qcl.
  - pose proof (last_bound (mp_top m) q _ p IT Hq Hp). subst p. exact H0.
Qed.
Lemma step_inv : forall m s u s' r, step_post m s u s' r -> scan_inv m s'.
Proof. intros m s u s' r [E [[A _] [[B _] _]]]. split; auto. Qed.
Lemma step_pot : forall m s u s' r, scan_inv m s -> step_post m s u s' r ->
  s_pot s' = s_pot s + trapezoid_area (mkTrapz (sc_curr s) (sc_curr s')).
Proof.
  intros m s u s' r [Em _] [E [[_ [P1 _]] [[_ [P2 _]] _]]]. unfold s_pot. rewrite E, Em, P1, P2.
  unfold trapezoid_area, strip. cbn [z_left z_right fst snd cx cy]. unfold Qcdiv. ring.
Qed.
Lemma area_flat : forall a b, t_x b = t_x a -> trapezoid_area (mkTrapz a b) = 0.
Proof. intros a b E. unfold trapezoid_area. cbn [z_left z_right]. rewrite E. unfold Qcdiv. ring. Qed.
Lemma step_between : forall m s u s' r, step_post m s u s' r -> t_x (sc_curr s) < t_x (sc_curr s') ->
  between_chains (mp_top m) (mp_bot m) (mkTrapz (sc_curr s) (sc_curr s')).
Proof. intros m s u s' r [E [[_ [_ P1]] [[_ [_ P2]] _]]] L. split; [apply P1|apply P2]; exact L. Qed.

Lemma qmin_l : forall a b, a <= b -> qmin a b = a.
Proof. intros a b H. unfold qmin. replace (qleb a b) with true by (symmetry; apply qleb_iff; auto). reflexivity. Qed.
Lemma qmin_r : forall a b, b <= a -> qmin a b = b.
Proof. intros a b H. unfold qmin. destruct (qleb a b) eqn:E; auto. apply qleb_iff in E. apply Qcle_antisym; auto. Qed.

Lemma run_stop : forall m s u, mono_pair (mp_top m) (mp_bot m) -> scan_inv m s -> u <= t_x (sc_curr s) ->
  run_post m s u s [].
Proof.
  intros m s u MP I H. split; auto. split; [constructor|]. split; [constructor|]. split; [simpl; ring|].
  split. { intros q Hq L. exfalso. exact (Qclt_not_le _ _ L H). }
  auto.
Qed.
Lemma run_cons : forall m s u s1 r s' zs, mono_pair (mp_top m) (mp_bot m) -> scan_inv m s ->
  t_x (sc_curr s) < u -> sc_advance_next s u = Ok (s1, Some r) ->
  step_post m s u s1 (Some r) -> run_post m s1 u s' zs ->
  run_post m s u s' (match r with Some z => z :: zs | None => zs end).
Proof.
  intros m s u s1 r s' zs MP I L E P [R1 [R2 [R3 [R4 [R5 [R6 [R7 R8]]]]]]].
  pose proof (step_inv _ _ _ _ _ P) as I1. pose proof (step_pot _ _ _ _ _ I P) as PP.
  pose proof (step_between _ _ _ _ _ P) as PB.
  destruct P as [P1 [P2 [P3 [P4 [P5 P6]]]]].
  split; [auto|].
  assert (X : match r with None => t_x (sc_curr s1) = t_x (sc_curr s) | Some z => z = mkTrapz (sc_curr s) (sc_curr s1) /\ t_x (sc_curr s) < t_x (sc_curr s1) end).
  { destruct P6 as [[_ P6]|[_ [EU ->]]]; auto. split; auto. rewrite EU. exact L. }
  assert (M : (s_meas s1 <= s_meas s)%nat) by (destruct P6 as [[? _]|[? _]]; lia).
  split. { destruct r as [z|]; [destruct X as [-> X]; constructor; auto|rewrite <- X; exact R2]. }
  split. { destruct r as [z|]; [destruct X as [-> X]; constructor; auto|auto]. }
  split. { rewrite R4, PP. destruct r as [z|]; [destruct X as [-> X]; simpl; ring|].
    rewrite area_flat by auto. ring. }
  split. { intros q Hq _. destruct (Qclt_le_dec (t_x (sc_curr s1)) u) as [K|K]; [apply R5; auto|].
    destruct (R6 K) as [-> _]. rewrite qmin_l; [apply Qcle_antisym; auto|].
    pose proof (inv_x_le m s1 q MP I1 Hq). qcl. }
  split. { intros K. exfalso. exact (Qclt_not_le _ _ L K). }
  split; [|lia]. intros RR. apply R7. eapply reach_next; eauto.
Qed.

Definition iter_from (g n f : nat) (s : scanner) (u : Qc) : res (scanner * list trapz) :=
  let* (s', o) := at_next g s u in
  match o with
  | None => Ok (s', [])
  | Some t => let* (s'', ts) := sc_advance_to n f s' u in Ok (s'', t :: ts)
  end.
Lemma run_ok : forall k m s u, mono_pair (mp_top m) (mp_bot m) -> scan_inv m s -> (s_meas s <= k)%nat ->
  exists s' zs, run_post m s u s' zs /\
    (forall f, (k + 2 <= f)%nat -> sc_advance_upto f s u = Ok (s', zs)) /\
    (forall g n f, (k + 2 <= g)%nat -> (k + 1 <= n)%nat -> (k + 2 <= f)%nat -> iter_from g n f s u = Ok (s', zs)).
Proof.
  induction k as [k IH] using lt_wf_ind. intros m s u MP I M.
  destruct (Qclt_le_dec (t_x (sc_curr s)) u) as [L|L].
  2:{ exists s, []. split; [apply run_stop; auto|].
    assert (B : qltb (t_x (sc_curr s)) u = false) by (apply not_true_iff_false; rewrite qltb_iff; apply Qcle_not_lt; auto).
    split.
    - intros [|f] F; [lia|]. simpl. rewrite B. reflexivity.
    - intros [|g] n f G N F; [lia|]. unfold iter_from. simpl. rewrite B. reflexivity. }
  assert (B : qltb (t_x (sc_curr s)) u = true) by (apply qltb_iff; auto).
  destruct (step_ok m s u MP I L) as [s1 [r [E P]]].
  pose proof (step_inv _ _ _ _ _ P) as I1.
  destruct r as [r|].
  - assert (D : (s_meas s1 < s_meas s)%nat \/ (s_meas s1 = s_meas s /\ t_x (sc_curr s1) = u /\ r = Some (mkTrapz (sc_curr s) (sc_curr s1)))).
    { destruct P as [_ [_ [_ [_ [_ [[P _]|P]]]]]]; auto. }
    destruct D as [D|[D [EU ER]]].
    + destruct (IH (k - 1)%nat ltac:(lia) m s1 u MP I1 ltac:(lia)) as [s' [zs [RP [RU RI]]]].
      exists s', (match r with Some z => z :: zs | None => zs end).
      split; [eapply run_cons; eauto|]. split.
      * intros [|f] F; [lia|]. simpl. rewrite B, E. cbn [bind]. rewrite RU by lia. reflexivity.
      * intros [|g] n f G N F; [lia|]. unfold iter_from. simpl. rewrite B, E. cbn [bind].
        destruct r as [z|].
        -- cbn [bind]. destruct n as [|n]; [lia|].
           change (sc_advance_to (S n) f s1 u) with (iter_from f n f s1 u). rewrite RI by lia. reflexivity.
        -- change (iter_from g n f s1 u = Ok (s', zs)). apply RI; lia.
    + exists s1, [mkTrapz (sc_curr s) (sc_curr s1)].
      assert (B1 : qltb (t_x (sc_curr s1)) u = false) by (apply not_true_iff_false; rewrite qltb_iff; apply Qcle_not_lt; rewrite EU; apply Qcle_refl).
      assert (RP : run_post m s1 u s1 []) by (apply run_stop; auto; rewrite EU; apply Qcle_refl).
      split. { pose proof (run_cons m s u s1 r s1 [] MP I L E P RP) as H. rewrite ER in H. exact H. }
      subst r. split.
      * intros [|[|f]] F; [lia|lia|]. simpl. rewrite B, E. cbn [bind]. rewrite B1. reflexivity.
      * intros [|g] n f G N F; [lia|]. unfold iter_from. simpl. rewrite B, E. cbn [bind].
        destruct n as [|n]; [lia|]. destruct f as [|f]; [lia|]. simpl. rewrite B1. reflexivity.
  - exists s1, []. pose proof P as [_ [_ [_ [_ [_ [-> [Nt Nb]]]]]]]. split; [|split].
    + split; auto. split; [constructor|]. split; [constructor|]. split; [simpl; ring|].
      split; [|split; [auto|split; auto]].
      intros q Hq _. pose proof (inv_x_le m s q MP I Hq) as XL.
      assert (XE : t_x (sc_curr s) = cx q).
      { destruct I as [_ [[p [Hp H]] _]]. rewrite Nt in H. assert (p = q) by (apply (last_index (mp_top m) q (sc_top s)); auto).
        rewrite <- H0, H. reflexivity. }
      rewrite XE. symmetry. apply qmin_r. rewrite <- XE. apply Qclt_le_weak. exact L.
    + intros [|f] F; [lia|]. simpl. rewrite B, E. reflexivity.
    + intros [|g] n f G N F; [lia|]. unfold iter_from. simpl. rewrite B, E. reflexivity.
Qed.

Lemma new_inv : forall m s, mono_pair (mp_top m) (mp_bot m) -> sc_new m = Ok s ->
  scan_inv m s /\ s_pot s = 0 /\ (exists p, starts_at (mp_top m) p /\ t_x (sc_curr s) = cx p).
Proof.
  intros m s [p [q [[t H1] [[b H2] _]]]]. unfold sc_new. rewrite H1, H2. cbn [nth_error expect bind].
  replace (peqb p p) with true by (symmetry; apply peqb_iff; reflexivity). cbn [check bind].
  intros E; inversion E; subst. split; [|split].
  - split; [reflexivity|]. cbn [sc_top sc_bot sc_curr t_x t_top t_bot].
    split; apply at_edge_next; [rewrite H1|rewrite H2]; reflexivity.
  - unfold s_pot, pot. cbn [sc_poly sc_top sc_bot sc_curr t_x t_top t_bot]. rewrite H1, H2. cbn [nth_error firstn].
    unfold edges, strip. simpl. unfold Qcdiv. ring.
  - exists p. split; auto. exists t. reflexivity.
Qed.
Lemma new_ok : forall m, mono_pair (mp_top m) (mp_bot m) -> exists s, sc_new m = Ok s.
Proof.
  intros m [p [q [[t H1] [[b H2] _]]]]. unfold sc_new. rewrite H1, H2. cbn [nth_error expect bind].
  replace (peqb p p) with true by (symmetry; apply peqb_iff; reflexivity). cbn [check bind]. eauto.
Qed.
Lemma reach_inv : forall m s, mono_pair (mp_top m) (mp_bot m) -> scan_reach m s ->
  scan_inv m s /\ (s_meas s <= List.length (mp_top m) + List.length (mp_bot m))%nat.
Proof.
  intros m s MP H. induction H as [s H|s u s' r H [IH1 IH2] L E].
  - destruct (new_inv m s MP H) as [A _]. split; auto. unfold s_meas. destruct A as [-> _]. lia.
  - destruct (step_ok m s u MP IH1 L) as [s1 [r1 [E1 P]]]. rewrite E in E1. inversion E1; subst.
    split; [eapply step_inv; eauto|].
    destruct P as [_ [_ [_ [_ [_ P]]]]]. destruct r1; [destruct P as [[P _]|[P _]]; lia|].
    destruct P as [-> _]. exact IH2.
Qed.
Lemma scan_ok : forall m s u, mono_pair (mp_top m) (mp_bot m) -> scan_reach m s ->
  exists s' zs, run_post m s u s' zs /\ scan_reach m s' /\
    (forall f n, (scan_fuel m <= f)%nat -> (scan_fuel m <= n)%nat ->
      sc_advance_upto f s u = Ok (s', zs) /\ sc_advance_to n f s u = Ok (s', zs)).
Proof.
  intros m s u MP R. destruct (reach_inv m s MP R) as [I M].
  destruct (run_ok _ m s u MP I M) as [s' [zs [RP [RU RI]]]]. exists s', zs. split; auto.
  split. { destruct RP as [_ [_ [_ [_ [_ [_ [RP _]]]]]]]. auto. }
  unfold scan_fuel. intros f n F N. split; [apply RU; lia|]. destruct n as [|n]; [lia|].
  change (iter_from f n f s u = Ok (s', zs)). apply RI; lia.
Qed.

(** ** Area *)
Lemma strip_flat : forall l x, Forall (fun p : pt => cx p = x) l -> sum strip (edges l) = 0.
Proof.
  induction l as [|a [|b l] IH]; intros x H; [reflexivity|reflexivity|].
  rewrite edges_cons. inversion H; subst. pose proof (Forall_inv H3) as Eb. simpl in Eb.
  simpl sum. fold (sum strip (edges (b :: l))). rewrite (IH (cx a)); auto. unfold strip. cbn [fst snd]. rewrite Eb. unfold Qcdiv. ring.
Qed.
Lemma pot_cons : forall a b l i x y, pot (a :: b :: l) (S i) x y = strip (a, b) + pot (b :: l) i x y.
Proof.
  intros. unfold pot. cbn [nth_error]. rewrite firstn_cons. rewrite (firstn_cons i b l). rewrite edges_cons. simpl sum. ring.
Qed.
Lemma pot_end : forall l i x y q, increasing l -> last_opt l = Some q -> cx q = x -> at_edge l i x y ->
  pot l i x y = sum strip (edges l).
Proof.
  induction l as [|a l IH]; intros i x y q I Hq Ex A.
  - destruct A as [p [Hp _]]. destruct i; discriminate.
  - destruct l as [|b l].
    + destruct A as [p [Hp H]]. destruct i as [|i]; [|destruct i; discriminate]. simpl in Hp, H. injection Hp as Hap. rewrite <- Hap in H.
      unfold pot. simpl. rewrite H. unfold strip. simpl. unfold Qcdiv. ring.
    + assert (Hq' : last_opt (b :: l) = Some q).
      { unfold last_opt in *. simpl in Hq |- *. rewrite Nat.sub_0_r in *. exact Hq. }
      assert (I' : increasing (b :: l)) by (inversion I; auto).
      destruct i as [|i].
      * destruct A as [p [Hp H]]. simpl in Hp, H. inversion Hp; subst p.
        assert (Lab : cx a <= cx b) by (apply lex_lt_x; apply (inc_nth (a :: b :: l) 0 1); auto).
        destruct (on_seg_x _ _ _ Lab H) as [_ Lb]. simpl in Lb.
        assert (F : Forall (fun p : pt => cx p = x) (b :: l)).
        { rewrite Forall_forall. intros c Hc. apply In_nth_error in Hc. destruct Hc as [j Hj].
          pose proof (last_bound (b :: l) q j c I' Hq' Hj) as K. rewrite Ex in K.
          apply Qcle_antisym; auto. destruct j as [|j]; [simpl in Hj; inversion Hj; subst; auto|].
          pose proof (inc_nth (b :: l) 0 (S j) b c I' ltac:(lia) eq_refl Hj) as K'. apply lex_lt_x in K'. qcl. }
        rewrite edges_cons. simpl sum. fold (sum strip (edges (b :: l))). rewrite (strip_flat _ _ F).
        assert (Eb : cx b = x) by exact (Forall_inv F).
        unfold pot. cbn [nth_error firstn]. simpl (sum strip (edges [a])).
        assert (S1 : strip (a, mkC x y) = strip (a, b)).
        { unfold strip. cbn [fst snd cx cy]. rewrite Eb. unfold Qcdiv. f_equal.
          destruct H as [t [_ [_ [T1 T2]]]]. cbn [cx cy] in T1, T2. rewrite Eb in T1.
          assert (Z : (1 - t) * (x - cx a) = 0) by (clear - T1; qcl).
          apply Qcmult_integral in Z. destruct Z as [Z|Z].
          - assert (t = 1) by qcl. rewrite H in T2. f_equal. rewrite T2. ring.
          - rewrite Z. ring. }
        rewrite S1. ring.
      * rewrite pot_cons, edges_cons. simpl sum. fold (sum strip (edges (b :: l))). f_equal.
        apply (IH i x y q); auto.
Qed.
Definition crs (e : pt * pt) : Qc := cx (fst e) * cy (snd e) - cx (snd e) * cy (fst e).
Lemma strip_tele : forall l p q, starts_at l p -> ends_at l q ->
  sum strip (edges l) = ((cx q * cy q - cx p * cy p) - sum crs (edges l)) / (1 + 1).
Proof.
  induction l as [|a [|b l] IH]; intros p q [l' H] [l'' H'].
  - discriminate.
  - inversion H; subst. destruct l'' as [|x l'']; [|destruct l''; discriminate]. inversion H'; subst. simpl. unfold Qcdiv. ring.
  - inversion H; subst. destruct l'' as [|x l'']; [discriminate|]. inversion H'; subst.
    rewrite edges_cons. simpl sum. fold (sum strip (edges (b :: l))). fold (sum crs (edges (b :: l))).
    rewrite (IH b q). 2:{ exists l; reflexivity. } 2:{ exists l''. exact H2. }
    unfold strip, crs. cbn [fst snd]. unfold Qcdiv. ring.
Qed.
Lemma sum_rev : forall {A} (f : A -> Qc) l, sum f (rev l) = sum f l.
Proof. intros A f l. induction l as [|a l IH]; simpl; auto. rewrite sum_app, IH. simpl. ring. Qed.
Lemma sum_reversed : forall l, sum crs (map reversed l) = - sum crs l.
Proof. induction l as [|e l IH]; simpl; [ring|]. rewrite IH.
  replace (crs (reversed e)) with (- crs e) by (unfold crs, reversed; cbn [fst snd]; ring). ring.
Qed.
Lemma shoelace_mono : forall top bot, mono_pair top bot ->
  shoelace (top ++ tl (rev bot)) = - (sum strip (edges top) - sum strip (edges bot)).
Proof.
  intros top bot MP. unfold shoelace. rewrite into_polygon_edges by auto.
  change (sum _ (edges top ++ rev (map reversed (edges bot)))) with (sum crs (edges top ++ rev (map reversed (edges bot)))) at 1.
  rewrite sum_app, sum_rev, sum_reversed. destruct MP as [p [q [H1 [H2 [H3 [H4 _]]]]]].
  rewrite (strip_tele top p q H1 H3), (strip_tele bot p q H2 H4). unfold Qcdiv. ring.
Qed.

Lemma gap_app : forall a b c l l', gap_free a b l -> gap_free b c l' -> gap_free a c (l ++ l').
Proof. intros a b c l l' H H'. induction H; simpl; auto. econstructor; eauto. Qed.
Lemma stops_ok : forall us m s, mono_pair (mp_top m) (mp_bot m) -> scan_reach m s ->
  exists s' zs, scan_stops s us = Ok (s', zs) /\ scan_reach m s' /\
    gap_free (t_x (sc_curr s)) (t_x (sc_curr s')) zs /\ Forall (between_chains (mp_top m) (mp_bot m)) zs /\
    s_pot s' = s_pot s + sum trapezoid_area zs /\
    (forall q u, last_opt (mp_top m) = Some q -> In u us -> qmin u (cx q) <= t_x (sc_curr s')) /\
    t_x (sc_curr s) <= t_x (sc_curr s').
Proof.
  induction us as [|u us IH]; intros m s MP R.
  - exists s, []. split; auto. split; auto. split; [constructor|]. split; [constructor|]. split; [simpl; ring|].
    split; [simpl; tauto|apply Qcle_refl].
  - destruct (scan_ok m s u MP R) as [s1 [zs [RP [R1 F]]]].
    destruct (IH m s1 MP R1) as [s' [zs' [E [R' [G [B [P [X XX]]]]]]]].
    pose proof (reach_inv m s MP R) as [[Em _] _].
    exists s', (zs ++ zs'). cbn [scan_stops]. unfold advance_to. rewrite Em.
    destruct (F _ _ (Nat.le_refl _) (Nat.le_refl _)) as [_ ->]. rewrite E. split; auto. split; auto.
    destruct RP as [_ [G1 [B1 [P1 [X1 [X2 _]]]]]].
    assert (GL : forall a b l, gap_free a b l -> a <= b).
    { intros a b l H. induction H; [apply Qcle_refl|]. eapply Qcle_trans; [|exact IHgap_free]. apply Qclt_le_weak; auto. }
    split; [eapply gap_app; eauto|]. split; [apply Forall_app; auto|]. split; [rewrite P, P1, sum_app; ring|].
    split; [|eapply Qcle_trans; eauto].
    intros q v Hq [<-|Hv]; [|auto].
    destruct (Qclt_le_dec (t_x (sc_curr s)) u) as [L|L].
    + rewrite <- (X1 q Hq L). auto.
    + pose proof (GL _ _ _ G1). eapply Qcle_trans; [|exact XX]. eapply Qcle_trans; [|exact H]. eapply Qcle_trans; [|exact L].
      unfold qmin. destruct (qleb u (cx q)) eqn:K; [apply Qcle_refl|].
      assert (K' : ~ u <= cx q) by (rewrite <- qleb_iff; congruence). apply Qcnot_le_lt in K'. apply Qclt_le_weak; auto.
Qed.
Lemma above_area : forall m z, above (mp_top m) (mp_bot m) -> between_chains (mp_top m) (mp_bot m) z ->
  trapz_area z = Ok (trapezoid_area z) /\ t_bot (z_left z) <= t_top (z_left z) /\ t_bot (z_right z) <= t_top (z_right z).
Proof.
  intros m z A [[p [q [H1 [H2 H3]]]] [p' [q' [K1 [K2 K3]]]]].
  assert (L : t_bot (z_left z) <= t_top (z_left z)).
  { apply (A (top_of (z_left z)) (bot_of (z_left z))); [exists p, q; auto|exists p', q'; auto|reflexivity]. }
  assert (R : t_bot (z_right z) <= t_top (z_right z)).
  { apply (A (top_of (z_right z)) (bot_of (z_right z))); [exists p, q; auto|exists p', q'; auto|reflexivity]. }
  split; auto. unfold trapz_area.
  replace (qleb 0 (t_top (z_left z) - t_bot (z_left z)) && qleb 0 (t_top (z_right z) - t_bot (z_right z))) with true.
  - cbn [check bind]. f_equal. unfold trapezoid_area, Qcdiv. ring.
  - symmetry. apply andb_true_iff. split; apply qleb_iff; qcl.
Qed.
