(** C09 - C18: points, events, segment comparison and intersection. *)
Require Import String List Bool Setoid Lqa Psatz ZArith Permutation Sorted.
From Verif Require Import Base Scalar M_Events M_Geo M_LineOrPoint M_Float S_Geo P_Geo P_LineOrPoint P_Tilt.
Import ListNotations.
Local Open Scope Qc_scope.

(** * C09 *)
Definition has_nan (a : coord f64) : bool := is_nan (cx a) || is_nan (cy a).

(** "The NaN decides": the comparison has to look at a NaN. *)
Definition nan_decides (a b : coord f64) : Prop :=
  is_nan (cx a) = true \/ is_nan (cx b) = true \/
  (f_eqb (cx a) (cx b) = true /\ (is_nan (cy a) = true \/ is_nan (cy b) = true)).

Lemma f_cmp_none : forall a b, f_cmp a b = None <-> is_nan a = true \/ is_nan b = true.
Proof. intros. unfold f_cmp. destruct (is_nan a), (is_nan b); simpl; split; intuition discriminate. Qed.
Lemma f_cmp_some : forall a b, is_nan a = false -> is_nan b = false -> f_cmp a b = Some (f_key a ?= f_key b)%Z.
Proof. intros a b H K. unfold f_cmp. rewrite H, K. reflexivity. Qed.

Theorem C09_panics_iff_nan_decides : forall a b,
  (exists m, fsp_cmp a b = Panic m) <-> nan_decides a b.
Proof.
  intros a b. unfold fsp_cmp, sp_cmp, sp_partial_cmp, nan_decides, f_eqb.
  destruct (f_cmp (cx a) (cx b)) as [c|] eqn:E.
  - assert (N : ~ (is_nan (cx a) = true \/ is_nan (cx b) = true)).
    { intro K. apply f_cmp_none in K. congruence. }
    destruct c.
    + destruct (f_cmp (cy a) (cy b)) as [c|] eqn:F; simpl.
      * assert (M : ~ (is_nan (cy a) = true \/ is_nan (cy b) = true)).
        { intro K. apply f_cmp_none in K. congruence. }
        split; [intros [m K]; discriminate|]. tauto.
      * apply f_cmp_none in F. split; [|eauto]. intros _. tauto.
    + simpl. split; [intros [m K]; discriminate|]. intuition discriminate.
    + simpl. split; [intros [m K]; discriminate|]. intuition discriminate.
  - simpl. apply f_cmp_none in E. split; [|eauto]. tauto.
Qed.

Lemma fsp_cmp_ok : forall a b, has_nan a = false -> has_nan b = false ->
  fsp_cmp a b = Ok (match (f_key (cx a) ?= f_key (cx b))%Z with
                    | Eq => (f_key (cy a) ?= f_key (cy b))%Z | c => c end).
Proof.
  intros a b H K. unfold has_nan in *. apply orb_false_iff in H, K. destruct H, K.
  unfold fsp_cmp, sp_cmp, sp_partial_cmp. rewrite !f_cmp_some by auto.
  destruct (_ ?= _)%Z; reflexivity.
Qed.

(** On coordinates without NaN the order is total, lexicographic, transitive,
    antisymmetric, and agrees with [==]. *)
Theorem C09_total_lexicographic_order : forall a b c,
  has_nan a = false -> has_nan b = false -> has_nan c = false ->
  (exists o, fsp_cmp a b = Ok o /\ fsp_cmp b a = Ok (CompOpp o)) /\
  (fsp_cmp a b = Ok Lt <->
     f_ltb (cx a) (cx b) = true \/ (f_eqb (cx a) (cx b) = true /\ f_ltb (cy a) (cy b) = true)) /\
  (fsp_cmp a b = Ok Eq <-> sp_eqb f_cmp a b = true) /\
  (fsp_cmp a b <> Ok Gt -> fsp_cmp b c <> Ok Gt -> fsp_cmp a c <> Ok Gt) /\
  (fsp_cmp a b = Ok Lt -> fsp_cmp b c <> Ok Gt -> fsp_cmp a c = Ok Lt) /\
  (fsp_cmp a b <> Ok Gt -> fsp_cmp b c = Ok Lt -> fsp_cmp a c = Ok Lt).
Proof.
  intros a b c Ha Hb Hc. rewrite !fsp_cmp_ok by auto.
  unfold has_nan in *. apply orb_false_iff in Ha, Hb, Hc. destruct Ha, Hb, Hc.
  unfold sp_eqb, scalar_eqb, f_ltb, f_eqb. rewrite !f_cmp_some by auto.
  generalize (f_key (cx a)) (f_key (cx b)) (f_key (cx c)) (f_key (cy a)) (f_key (cy b)) (f_key (cy c)).
  intros xa xb xc ya yb yc. rewrite (Z.compare_antisym xa xb), (Z.compare_antisym ya yb).
  split; [eexists; split; [reflexivity|]; destruct (xa ?= xb)%Z; reflexivity|].
  split; [destruct (xa ?= xb)%Z, (ya ?= yb)%Z; simpl; intuition congruence|].
  split; [destruct (xa ?= xb)%Z, (ya ?= yb)%Z; simpl; intuition congruence|].
  destruct (Z.compare_spec xa xb), (Z.compare_spec xb xc), (Z.compare_spec xa xc); subst;
    try (exfalso; lia); try (repeat split; congruence).
  destruct (Z.compare_spec ya yb), (Z.compare_spec yb yc), (Z.compare_spec ya yc); subst;
    try (exfalso; lia); repeat split; congruence.
Qed.

Example C09_ex : (* -0.0 and 0.0 are equal, 1.0 < 2.0, NaN panics *)
  fsp_cmp (mkC (mkF true 0) (mkF false 4607182418800017408)) (mkC (mkF false 0) (mkF false 4611686018427387904)) = Ok Lt
  /\ is_nan (mkF false 9221120237041090560) = true.
Proof. split; reflexivity. Qed.

(** * C10 *)
(** Specification of the priority: first the point, then the kind of event. *)
Inductive ty_before : event_type -> event_type -> Prop :=
| tb1 : ty_before PointLeft LineRight
| tb2 : ty_before PointLeft LineLeft
| tb3 : ty_before PointLeft PointRight
| tb4 : ty_before LineRight LineLeft
| tb5 : ty_before LineRight PointRight
| tb6 : ty_before LineLeft PointRight.
Definition ev_before (a b : event) : Prop :=
  lex_lt (ev_point a) (ev_point b) \/ (ev_point a = ev_point b /\ ty_before (ev_ty a) (ev_ty b)).

(** Pops everything; [n] is the number of pops, [tie] resolves ties. *)
Fixpoint drain (n : nat) (tie : nat -> nat) (h : list event) : list event :=
  match n with
  | O => []
  | S n' => match heap_pop (tie n') h with Some (e, h') => e :: drain n' tie h' | None => [] end
  end.

Lemma ev_cmp_lt : forall a b, ev_cmp a b = Lt <-> ev_before b a.
Proof.
  intros a b. unfold ev_cmp, ev_before, ty_cmp.
  destruct (pcmp_spec (ev_point a) (ev_point b)) as [E|E|E].
  - rewrite E. split.
    + intros H. right. split; auto. destruct (ev_ty a), (ev_ty b); simpl in H; try discriminate; constructor.
    + intros [H|[_ H]]; [exfalso; eapply lex_irrefl; eauto|]. inversion H; reflexivity.
  - simpl. split; [discriminate|]. intros [H|[H _]]; [lord|rewrite H in E; exfalso; eapply lex_irrefl; eauto].
  - simpl. split; auto.
Qed.
Lemma is_max_iff : forall h e, is_max h e = true <-> forall e', In e' h -> ~ ev_before e' e.
Proof.
  intros h e. unfold is_max. rewrite forallb_forall. split; intros H e' Hi.
  - intro K. apply ev_cmp_lt in K. specialize (H e' Hi). rewrite K in H. discriminate.
  - specialize (H e' Hi). rewrite <- ev_cmp_lt in H. destruct (ev_cmp e e'); congruence.
Qed.
Lemma ty_before_trans : forall a b c, ty_before a b -> ty_before b c -> ty_before a c.
Proof. intros a b c H K. destruct H; inversion K; constructor. Qed.
Lemma ev_before_trans : forall a b c, ev_before a b -> ev_before b c -> ev_before a c.
Proof.
  intros a b c [H|[H H']] [K|[K K']].
  - left; eapply lex_trans; eauto.
  - left; rewrite <- K; auto.
  - left; rewrite H; auto.
  - right; split; [congruence|eapply ty_before_trans; eauto].
Qed.
Lemma ev_before_irrefl : forall a, ~ ev_before a a.
Proof. intros a [H|[_ H]]; [eapply lex_irrefl; eauto|]. destruct (ev_ty a); inversion H. Qed.
Lemma ev_before_dec : forall a b, {ev_before a b} + {~ ev_before a b}.
Proof.
  intros a b. destruct (ev_cmp b a) eqn:E; [right|left|right]; rewrite <- ev_cmp_lt; congruence.
Qed.
Lemma max_exists : forall h, h <> [] -> exists e, In e h /\ forall e', In e' h -> ~ ev_before e' e.
Proof.
  induction h as [|a h IH]; [congruence|]. intros _.
  destruct h as [|b h].
  - exists a. split; [left; auto|]. intros e' [<-|[]]. apply ev_before_irrefl.
  - destruct IH as (e & He & Hm); [congruence|].
    destruct (ev_before_dec a e) as [K|K].
    + exists a. split; [left; auto|]. intros e' [<-|Hi]; [apply ev_before_irrefl|].
      intro J. apply (Hm e' Hi). eapply ev_before_trans; eauto.
    + exists e. split; [right; auto|]. intros e' [<-|Hi]; auto.
Qed.
Lemma max_positions_in : forall all h i k, In k (max_positions h all i) <->
  exists j e, nth_error h j = Some e /\ is_max all e = true /\ (k = i + j)%nat.
Proof.
  intros all. induction h as [|a h IH]; intros i k; simpl.
  - split; [intros []|]. intros (j & e & H & _). destruct j; discriminate.
  - assert (R : In k (max_positions h all (S i)) <-> exists j e, nth_error (a :: h) (S j) = Some e /\ is_max all e = true /\ (k = i + S j)%nat).
    { rewrite IH. split; intros (j & e & H1 & H2 & H3); exists j, e; simpl in *; (split; [auto|split; [auto|lia]]). }
    destruct (is_max all a) eqn:E; simpl; rewrite R.
    + split.
      * intros [<-|(j & e & H1 & H2 & H3)].
        { exists 0%nat, a. split; [auto|split; [auto|lia]]. }
        { exists (S j), e; auto. }
      * intros ([|j] & e & H1 & H2 & H3).
        { left. lia. }
        { right. exists j, e; auto. }
    + split.
      * intros (j & e & H1 & H2 & H3). exists (S j), e; auto.
      * intros ([|j] & e & H1 & H2 & H3).
        { simpl in H1. injection H1 as <-. congruence. }
        { exists j, e; auto. }
Qed.
Lemma remove_nth_perm : forall A (h : list A) i e, nth_error h i = Some e -> Permutation h (e :: remove_nth i h).
Proof.
  intros A. induction h as [|a h IH]; intros [|i] e H; simpl in *; try discriminate.
  - injection H as <-. apply Permutation_refl.
  - eapply Permutation_trans; [apply perm_skip, IH; eauto|apply perm_swap].
Qed.

(** What one pop does, for every choice of the tie: it fails only on the empty
    heap and otherwise takes out one event no other event has priority over. *)
Theorem C10_pop : forall choice h,
  match heap_pop choice h with
  | None => h = []
  | Some (e, h') => Permutation h (e :: h') /\ forall e', In e' h -> ~ ev_before e' e
  end.
Proof.
  intros choice h. unfold heap_pop.
  destruct (nth_error (max_positions h h 0) _) as [i|] eqn:E.
  - apply nth_error_In in E. apply max_positions_in in E.
    destruct E as (j & e & H1 & H2 & ->). simpl. rewrite H1. split.
    + apply remove_nth_perm; auto.
    + apply is_max_iff; auto.
  - destruct (list_eq_dec (fun a b : nat => Nat.eq_dec a b) (max_positions h h 0) []) as [Z|Z].
    + destruct h as [|a h]; auto. exfalso.
      destruct (max_exists (a :: h)) as (e & Hi & Hm); [congruence|].
      apply In_nth_error in Hi. destruct Hi as (j & Hj).
      assert (K : In j (max_positions (a :: h) (a :: h) 0)).
      { apply max_positions_in. exists j, e. split; auto. split; [apply is_max_iff; auto|lia]. }
      rewrite Z in K. destruct K.
    + exfalso. apply nth_error_None in E.
      assert (L : (0 < length (max_positions h h 0))%nat) by (destruct (max_positions h h 0); simpl; [congruence|lia]).
      lia.
Qed.

(** And every such event is taken out for some choice: the model leaves out no
    order in which a heap may pop equal events. *)
Theorem C10_any_tie : forall h i e, nth_error h i = Some e -> (forall e', In e' h -> ~ ev_before e' e) ->
  exists choice, heap_pop choice h = Some (e, remove_nth i h).
Proof.
  intros h i e H M. assert (K : In i (max_positions h h 0)).
  { apply max_positions_in. exists i, e. split; auto. split; [apply is_max_iff; auto|lia]. }
  apply In_nth_error in K as (k & K). exists k. unfold heap_pop.
  assert (L : (k < length (max_positions h h 0))%nat) by (apply nth_error_Some; congruence).
  replace (Nat.min _ k) with k by lia. rewrite K, H. reflexivity.
Qed.

(** Draining a heap: every event comes out once, none after an event it has
    priority over. *)
Theorem C10_drain_is_sorted : forall tie h,
  Permutation h (drain (length h) tie h) /\
  StronglySorted (fun a b => ~ ev_before b a) (drain (length h) tie h).
Proof.
  intros tie h. remember (length h) as n eqn:Hn. revert h Hn.
  induction n as [|n IH]; intros h Hn.
  - destruct h; [|discriminate]. simpl. split; constructor.
  - simpl. pose proof (C10_pop (tie n) h) as P. destruct (heap_pop (tie n) h) as [[e h']|].
    + destruct P as [P M]. assert (Hl : n = length h').
      { apply Permutation_length in P. simpl in P. lia. }
      destruct (IH h' Hl) as [I1 I2]. split.
      * eapply Permutation_trans; [exact P|]. apply perm_skip; auto.
      * constructor; auto. apply Forall_forall. intros x Hx.
        apply M. apply Permutation_sym in P. eapply Permutation_in; [exact P|]. right.
        apply Permutation_sym in I1. eapply Permutation_in; eauto.
    + subst. discriminate.
Qed.

Definition mkp (x y : Z) : pt := mkC (Q2Qc (inject_Z x)) (Q2Qc (inject_Z y)).
Example C10_ex : map ev_key (drain 5 (fun _ => 0%nat)
  [mkEvent (mkp 1 1) LineLeft 0; mkEvent (mkp 1 1) PointLeft 1; mkEvent (mkp 0 5) PointRight 2;
   mkEvent (mkp 1 1) LineRight 3; mkEvent (mkp 1 0) LineLeft 4]) = [2; 4; 1; 3; 0]%nat.
Proof. vm_compute. reflexivity. Qed.

(** * C11 *)
Theorem C11_from_line_normalises : forall a b : pt,
  (a = b -> lop_of_line (mkLine a b) = Point a) /\
  (a <> b -> exists p q, lop_of_line (mkLine a b) = Line p q /\ lex_lt p q /\
                         ((p = a /\ q = b) \/ (p = b /\ q = a))) /\
  lop_of_line (mkLine a b) = lop_of_line (mkLine b a) /\
  (forall r, pts (lop_of_line (mkLine a b)) r <-> on_seg a b r).
Proof.
  intros a b. split; [|split; [|split]].
  - intros ->. unfold lop_of_line. simpl. rewrite pcmp_refl. reflexivity.
  - intros N. unfold lop_of_line. simpl. destruct (pcmp_spec a b) as [E|E|E]; [contradiction| |].
    + exists a, b. auto.
    + exists b, a. auto.
  - apply lop_of_line_sym.
  - exact (proj2 (lop_of_line_spec (mkLine a b))).
Qed.

(** * C12 *)
Lemma CompOpp_twice : forall o : option comparison, option_map CompOpp (option_map CompOpp o) = o.
Proof. destruct o as [[| |]|]; reflexivity. Qed.
Lemma cross_swap : forall p q r, cross p r q = - cross p q r.
Proof. intros. unfold cross. ring. Qed.

Theorem C12_antisymmetric : forall a b, valid a -> valid b ->
  lop_partial_cmp b a = option_map CompOpp (lop_partial_cmp a b) /\ lop_eqb b a = lop_eqb a b.
Proof.
  assert (M : forall a b, valid a -> valid b -> lop_partial_cmp b a = option_map CompOpp (lop_partial_cmp a b)).
  { intros [p|p1 q1] [q|p2 q2] Ha Hb; simpl in *.
    - unfold peqb. rewrite (pcmp_opp p q). destruct (pcmp p q); reflexivity.
    - rewrite CompOpp_twice. reflexivity.
    - reflexivity.
    - destruct (tilt_list [p1; q1; p2; q2]) as (e & He & T). specialize (T e He (Qcle_refl _)).
      assert (T1 : tilt e p1 < tilt e q1) by (apply T; simpl; auto 10).
      assert (T2 : tilt e p2 < tilt e q2) by (apply T; simpl; auto 10).
      rewrite !(lines_kcmp e) by auto. simpl. f_equal. rewrite kcmp_opp. f_equal.
      assert (ML : lmax e p2 p1 = lmax e p1 p2).
      { unfold lmax. destruct (pltb_spec p1 p2), (pltb_spec p2 p1); auto; [lord|].
        f_equal. apply lex_le_antisym; apply lex_not_lt; auto. }
      rewrite ML. reflexivity. }
  intros a b Ha Hb. split; [apply M; auto|].
  unfold lop_eqb. rewrite (M a b) by auto. destruct (lop_partial_cmp a b) as [[| |]|]; reflexivity.
Qed.

(** * C13 *)
Definition later (p1 p2 z : pt) : Prop := (z = p1 \/ z = p2) /\ lex_le p1 z /\ lex_le p2 z.

Lemma kcmp_below : forall z p1 q1 p2 q2 e0, 0 < e0 ->
  lex_lt z q1 -> lex_lt z q2 -> lex_le p1 z -> lex_le p2 z ->
  (forall e, 0 < e -> e < e0 -> kcmp e (tilt e z) p1 q1 p2 q2 = Lt) ->
  below_just_after z p1 q1 p2 q2.
Proof.
  intros z p1 q1 p2 q2 e0 He0 L1 L2 M1 M2 K.
  destruct (tilt_list [p1; q1; p2; q2; z]) as (e1 & He1 & T).
  destruct (Qc_min2 e0 e1 He0 He1) as (e2 & E2 & E20 & E21).
  exists e2. split; auto. intros e H0 H1.
  assert (Te : tilts e (fun p => In p [p1; q1; p2; q2; z])) by (apply T; auto; qcl).
  assert (Kc : kcmp e (tilt e z) p1 q1 p2 q2 = Lt) by (apply K; auto; qcl).
  assert (A1 : tilt e z < tilt e q1) by (apply Te; simpl; auto 10).
  assert (A2 : tilt e z < tilt e q2) by (apply Te; simpl; auto 10).
  assert (B1 : tilt e p1 <= tilt e z) by (apply (tilts_le e _ p1 z Te); simpl; auto 10).
  assert (B2 : tilt e p2 <= tilt e z) by (apply (tilts_le e _ p2 z Te); simpl; auto 10).
  assert (D : exists d0, 0 < d0 /\ d0 <= tilt e q1 - tilt e z /\ d0 <= tilt e q2 - tilt e z /\
      forall d, 0 < d -> d < d0 -> hgt e p1 q1 (tilt e z + d) < hgt e p2 q2 (tilt e z + d)).
  { destruct (Qc_min2 (tilt e q1 - tilt e z) (tilt e q2 - tilt e z)) as (da & Da & Da1 & Da2); [qcl|qcl|].
    assert (HD : forall d, hgt e p2 q2 (tilt e z + d) - hgt e p1 q1 (tilt e z + d) =
       hgt e p2 q2 (tilt e z) - hgt e p1 q1 (tilt e z) + d * (slope e p2 q2 - slope e p1 q1)).
    { intro d. rewrite (hgt_diff e p1 q1 p2 q2 (tilt e z)). ring. }
    destruct (kcmp_spec e (tilt e z) p1 q1 p2 q2) as [S|S|S S'|S S'|S S']; try discriminate.
    - destruct (Qc_trichotomy (slope e p1 q1) (slope e p2 q2)) as [[J|J]|J].
      + exists da. repeat split; auto. intros d D0 D1. specialize (HD d). clear - HD S J D0. qc.
      + exists da. repeat split; auto. intros d D0 D1. specialize (HD d). rewrite J in HD. clear - HD S D0. qc.
      + assert (N : slope e p1 q1 - slope e p2 q2 <> 0) by (intro N; clear - J N; qcl).
        destruct (Qc_div_ex (hgt e p2 q2 (tilt e z) - hgt e p1 q1 (tilt e z)) _ N) as (t & Ht).
        assert (Tp : 0 < t) by (apply Qcnot_le_lt; intro; clear - S J Ht H; qc).
        destruct (Qc_min2 da t Da Tp) as (d0 & Hd0 & Hd1 & Hd2).
        exists d0. repeat split; auto; try (clear - Hd1 Da1 Da2; qcl).
        intros d D0 D1. specialize (HD d). clear - HD Ht J D0 D1 Hd2. qc.
    - exists da. repeat split; auto. intros d D0 D1. specialize (HD d). clear - HD S S' D0. qc. }
  destruct D as (d0 & Hd0 & Hd1 & Hd2 & HD).
  exists d0. split; auto. intros d D0 D1.
  exists (at_level e p1 q1 (tilt e z + d)), (at_level e p2 q2 (tilt e z + d)).
  rewrite !tilt_at_level. repeat split; auto.
  - apply on_seg_at_level; qcl.
  - apply on_seg_at_level; qcl.
  - simpl. apply HD; auto.
Qed.

Lemma below_asym : forall z p1 q1 p2 q2, lex_lt p1 q1 -> lex_lt p2 q2 ->
  below_just_after z p1 q1 p2 q2 -> below_just_after z p2 q2 p1 q1 -> False.
Proof.
  intros z p1 q1 p2 q2 V1 V2 (e1 & E1 & B1) (e2 & E2 & B2).
  destruct (tilt_list [p1; q1; p2; q2; z]) as (e3 & E3 & T).
  destruct (Qc_min2 e1 e2 E1 E2) as (e4 & E4 & ? & ?). destruct (Qc_min2 e4 e3 E4 E3) as (e5 & E5 & ? & ?).
  destruct (Qc_half e5 E5) as (e & He & He').
  assert (Te : tilts e (fun p => In p [p1; q1; p2; q2; z])) by (apply T; auto; qcl).
  assert (T1 : tilt e p1 < tilt e q1) by (apply Te; simpl; auto 10).
  assert (T2 : tilt e p2 < tilt e q2) by (apply Te; simpl; auto 10).
  destruct (B1 e He) as (d1 & D1 & C1); [qcl|]. destruct (B2 e He) as (d2 & D2 & C2); [qcl|].
  destruct (Qc_min2 d1 d2 D1 D2) as (d3 & D3 & ? & ?). destruct (Qc_half d3 D3) as (d & Hd & Hd').
  destruct (C1 d Hd) as (w1 & w2 & S1 & S2 & L1 & L2 & Y); [qcl|].
  destruct (C2 d Hd) as (v1 & v2 & R1 & R2 & M1 & M2 & X); [qcl|].
  apply (on_seg_hgt e) in S1; auto. apply (on_seg_hgt e) in S2; auto.
  apply (on_seg_hgt e) in R1; auto. apply (on_seg_hgt e) in R2; auto.
  destruct S1 as (_ & _ & S1), S2 as (_ & _ & S2), R1 as (_ & _ & R1), R2 as (_ & _ & R2).
  rewrite S1, S2, L1, L2 in Y. rewrite R1, R2, M1, M2 in X. clear - X Y. qcl.
Qed.

Lemma collinear_not_below : forall z p1 q1 p2 q2, lex_lt p1 q1 -> lex_lt p2 q2 ->
  cross p1 q1 p2 = 0 -> cross p1 q1 q2 = 0 -> ~ below_just_after z p1 q1 p2 q2.
Proof.
  intros z p1 q1 p2 q2 V1 V2 Z1 Z2 (e1 & E1 & B1).
  destruct (tilt_list [p1; q1; p2; q2; z]) as (e3 & E3 & T).
  destruct (Qc_min2 e1 e3 E1 E3) as (e4 & E4 & ? & ?).
  destruct (Qc_half e4 E4) as (e & He & He').
  assert (Te : tilts e (fun p => In p [p1; q1; p2; q2; z])) by (apply T; auto; qcl).
  assert (T1 : tilt e p1 < tilt e q1) by (apply Te; simpl; auto 10).
  assert (T2 : tilt e p2 < tilt e q2) by (apply Te; simpl; auto 10).
  destruct (B1 e He) as (d1 & D1 & C1); [qcl|]. destruct (Qc_half d1 D1) as (d & Hd & Hd').
  destruct (C1 d Hd Hd') as (w1 & w2 & S1 & S2 & L1 & L2 & Y).
  apply (on_seg_hgt e) in S1; auto. destruct S1 as (_ & _ & S1).
  destruct S2 as (t & _ & _ & Hx & Hy).
  pose proof (cross_affine p1 q1 p2 q2 t w2 Hx Hy) as CA. rewrite Z1, Z2 in CA.
  rewrite (cross_hgt e) in CA by auto.
  replace (0 + t * (0 - 0)) with 0 in CA by ring.
  apply Qc_mul_0 in CA. destruct CA as [CA|CA]; [clear - CA T1; qcl|].
  rewrite L2 in CA. rewrite L1 in S1. rewrite <- S1 in CA. clear - CA Y. qcl.
Qed.

Lemma kcmp_eq_collinear : forall e l p1 q1 p2 q2, tilt e p1 < tilt e q1 -> tilt e p2 < tilt e q2 ->
  (kcmp e l p1 q1 p2 q2 = Eq <-> cross p1 q1 p2 = 0 /\ cross p1 q1 q2 = 0).
Proof.
  intros e l p1 q1 p2 q2 T1 T2. rewrite !(cross_hgt e p1 q1) by auto. split.
  - intros H. pose proof (kcmp_eq_all e p1 q1 p2 q2 l (tilt e p2) H) as H1.
    pose proof (kcmp_eq_all e p1 q1 p2 q2 l (tilt e q2) H) as H2.
    destruct (kcmp_spec e (tilt e p2) p1 q1 p2 q2) as [| | | |A _]; try discriminate.
    destruct (kcmp_spec e (tilt e q2) p1 q1 p2 q2) as [| | | |B _]; try discriminate.
    rewrite A, B, hgt_start, hgt_end by auto. split; ring.
  - intros [A B].
    apply Qc_mul_0 in A. destruct A as [A|A]; [clear - A T1; exfalso; qcl|].
    apply Qc_mul_0 in B. destruct B as [B|B]; [clear - B T1; exfalso; qcl|].
    rewrite <- (hgt_end e p2 q2 T2) in B. rewrite <- (hgt_start e p2 q2) in A.
    apply (kcmp_eq_all e p1 q1 p2 q2 (tilt e p2)). unfold kcmp.
    assert (A' : hgt e p1 q1 (tilt e p2) = hgt e p2 q2 (tilt e p2)) by (clear - A; qcl). rewrite A', qcmp_refl.
    pose proof (hgt_diff e p1 q1 p2 q2 (tilt e p2) (tilt e q2)) as HD.
    rewrite A, B in HD.
    assert (Z : (tilt e q2 - tilt e p2) * (slope e p2 q2 - slope e p1 q1) = 0) by (rewrite HD; ring).
    apply Qc_mul_0 in Z. destruct Z as [Z|Z]; [clear - Z T2; exfalso; qcl|].
    assert (S : slope e p1 q1 = slope e p2 q2) by (clear - Z; qcl). rewrite S. apply qcmp_refl.
Qed.

(** For two lines alive together (the later left end is before both right
    ends): Less means below just after the later left end, Greater means above,
    Equal means collinear. *)
Theorem C13_comparison_is_below : forall p1 q1 p2 q2 z,
  lex_lt p1 q1 -> lex_lt p2 q2 -> later p1 p2 z -> lex_lt z q1 -> lex_lt z q2 ->
  (lop_partial_cmp (Line p1 q1) (Line p2 q2) = Some Lt <-> below_just_after z p1 q1 p2 q2) /\
  (lop_partial_cmp (Line p1 q1) (Line p2 q2) = Some Gt <-> below_just_after z p2 q2 p1 q1) /\
  (lop_partial_cmp (Line p1 q1) (Line p2 q2) = Some Eq <-> cross p1 q1 p2 = 0 /\ cross p1 q1 q2 = 0).
Proof.
  intros p1 q1 p2 q2 z V1 V2 (Z & Z1 & Z2) L1 L2. cbn [lop_partial_cmp].
  destruct (tilt_list [p1; q1; p2; q2; z]) as (e0 & E0 & T).
  assert (LM : forall e, lmax e p1 p2 = tilt e z).
  { intro e. unfold lmax. destruct (pltb_spec p2 p1) as [H|H].
    - f_equal. destruct Z as [->| ->]; auto. lord.
    - apply lex_not_lt in H. f_equal. destruct Z as [->| ->]; auto. lord. }
  assert (CK : forall e, 0 < e -> e <= e0 -> cmp_line_line p1 q1 p2 q2 = Some (kcmp e (tilt e z) p1 q1 p2 q2)).
  { intros e H0 H1. specialize (T e H0 H1). rewrite <- LM.
    apply lines_kcmp; auto; apply T; simpl; auto 10. }
  assert (T1 : tilt e0 p1 < tilt e0 q1) by (apply (T e0 E0 (Qcle_refl _)); simpl; auto).
  assert (T2 : tilt e0 p2 < tilt e0 q2) by (apply (T e0 E0 (Qcle_refl _)); simpl; auto 10).
  pose proof (kcmp_eq_collinear e0 (tilt e0 z) p1 q1 p2 q2 T1 T2) as EC.
  assert (K1 : cmp_line_line p1 q1 p2 q2 = Some Lt -> below_just_after z p1 q1 p2 q2).
  { intro H. apply (kcmp_below z p1 q1 p2 q2 e0); auto. intros e H0 H1.
    rewrite (CK e) in H; auto; [|qcl]. congruence. }
  assert (K2 : cmp_line_line p1 q1 p2 q2 = Some Gt -> below_just_after z p2 q2 p1 q1).
  { intro H. apply (kcmp_below z p2 q2 p1 q1 e0); auto. intros e H0 H1.
    rewrite (CK e) in H; auto; [|qcl]. rewrite kcmp_opp. injection H as ->. reflexivity. }
  assert (K3 : cmp_line_line p1 q1 p2 q2 = Some Eq <-> cross p1 q1 p2 = 0 /\ cross p1 q1 q2 = 0).
  { rewrite <- EC. rewrite (CK e0) by (auto; apply Qcle_refl). split; congruence. }
  assert (N : cmp_line_line p1 q1 p2 q2 <> None) by (rewrite (CK e0) by (auto; apply Qcle_refl); congruence).
  assert (CS : cross p1 q1 p2 = 0 /\ cross p1 q1 q2 = 0 -> cross p2 q2 p1 = 0 /\ cross p2 q2 q1 = 0).
  { intros [A B]. split; apply (collinear_same p1 q1 p2 q2 _ (lex_lt_neq _ _ V1) (lex_lt_neq _ _ V2) A B); unfold cross; ring. }
  split; [|split; [|exact K3]]; (split; [auto|]); intro B.
  - destruct (cmp_line_line p1 q1 p2 q2) as [[| |]|]; auto; exfalso.
    + destruct K3 as [K3 _]. specialize (K3 eq_refl). destruct K3. eapply collinear_not_below; [exact V1|exact V2| | |exact B]; auto.
    + eapply below_asym; [exact V1|exact V2|exact B|auto].
    + congruence.
  - destruct (cmp_line_line p1 q1 p2 q2) as [[| |]|]; auto; exfalso.
    + destruct K3 as [K3 _]. specialize (K3 eq_refl). apply CS in K3. destruct K3. eapply collinear_not_below; [exact V2|exact V1| | |exact B]; auto.
    + eapply below_asym; [exact V2|exact V1|exact B|auto].
    + congruence.
Qed.

Example C13_ex : later (mkp 0 0) (mkp 1 1) (mkp 1 1) /\ lex_lt (mkp 1 1) (mkp 4 0) /\
  lop_partial_cmp (Line (mkp 0 0) (mkp 4 0)) (Line (mkp 1 1) (mkp 2 (-5))) = Some Lt.
Proof.
  split; [|split; [|vm_compute; reflexivity]].
  - split; [auto|]. rewrite <- !pleb_iff. split; vm_compute; reflexivity.
  - rewrite <- pltb_iff. vm_compute; reflexivity.
Qed.

(** * C14 *)
(** Two valid lines are always comparable: the guard of line 236 is dead. *)
Theorem C14_lines_always_comparable : forall p1 q1 p2 q2, lex_lt p1 q1 -> lex_lt p2 q2 ->
  lop_partial_cmp (Line p1 q1) (Line p2 q2) <> None.
Proof.
  intros p1 q1 p2 q2 V1 V2. simpl.
  destruct (tilt_list [p1; q1; p2; q2]) as (e & He & T). specialize (T e He (Qcle_refl _)).
  rewrite (lines_kcmp e); auto; [discriminate| |]; apply T; simpl; auto.
Qed.
(** So the documented precondition is not checked: two lines that no sweep line
    meets together are compared all the same. *)
Theorem C14_precondition_not_detected : exists p1 q1 p2 q2,
  lex_lt p1 q1 /\ lex_lt p2 q2 /\ lex_lt q1 p2 /\
  lop_partial_cmp (Line p1 q1) (Line p2 q2) = Some Lt.
Proof.
  exists (mkp 0 0), (mkp 1 0), (mkp 2 1), (mkp 3 1).
  rewrite <- !pltb_iff. repeat split; vm_compute; reflexivity.
Qed.

(** * C15 *)
(** Two segments do not cross up to [z]: their common points not after [z] are
    common left ends. *)
Definition no_cross_upto (z p1 q1 p2 q2 : pt) : Prop :=
  forall w, on_seg p1 q1 w -> on_seg p2 q2 w -> lex_le w z -> w = p1 /\ w = p2.
(** Alive at [z]. *)
Definition alive (z p q : pt) : Prop := lex_le p z /\ lex_lt z q.

Lemma cmp_is_kcmp_at : forall z p1 q1 p2 q2, alive z p1 q1 -> alive z p2 q2 ->
  lex_lt p1 q1 -> lex_lt p2 q2 -> no_cross_upto z p1 q1 p2 q2 ->
  exists e0, 0 < e0 /\ forall e, 0 < e -> e <= e0 ->
    cmp_line_line p1 q1 p2 q2 = Some (kcmp e (tilt e z) p1 q1 p2 q2).
Proof.
  intros z p1 q1 p2 q2 [A1 B1] [A2 B2] V1 V2 NC.
  (* the possible crossing point of the two lines *)
  set (X := proper_intersection (mkLine p1 q1) (mkLine p2 q2)).
  destruct (tilt_list [p1; q1; p2; q2; z; X]) as (e0 & E0 & T).
  exists e0. split; auto. intros e H0 H1. specialize (T e H0 H1).
  assert (T1 : tilt e p1 < tilt e q1) by (apply T; simpl; auto 10).
  assert (T2 : tilt e p2 < tilt e q2) by (apply T; simpl; auto 10).
  assert (Z1 : tilt e p1 <= tilt e z) by (apply (tilts_le e _ p1 z T); simpl; auto 10).
  assert (Z2 : tilt e p2 <= tilt e z) by (apply (tilts_le e _ p2 z T); simpl; auto 10).
  assert (Y1 : tilt e z < tilt e q1) by (apply T; simpl; auto 10).
  assert (Y2 : tilt e z < tilt e q2) by (apply T; simpl; auto 10).
  rewrite (lines_kcmp e) by auto. f_equal.
  assert (ML : tilt e p1 <= lmax e p1 p2 /\ tilt e p2 <= lmax e p1 p2 /\ lmax e p1 p2 <= tilt e z).
  { unfold lmax. destruct (pltb_spec p2 p1) as [H|H].
    - apply T in H; simpl; auto. repeat split; auto; qcl.
    - apply lex_not_lt in H. apply (tilts_le e _ p1 p2 T) in H; simpl; auto. repeat split; auto; qcl. }
  destruct ML as (M1 & M2 & M3).
  assert (NX : forall m, lmax e p1 p2 < m -> m <= tilt e z -> kcmp e m p1 q1 p2 q2 <> Eq -> hgt e p1 q1 m <> hgt e p2 q2 m).
  { intros m Hm Hm' KE E.
    set (w := at_level e p1 q1 m).
    assert (Tw : tilt e w = m) by apply tilt_at_level.
    assert (W1 : on_seg p1 q1 w) by (apply on_seg_at_level; auto; qcl).
    assert (W2 : on_seg p2 q2 w).
    { assert (w = at_level e p2 q2 m) as -> by (unfold w, at_level; rewrite E; reflexivity).
      apply on_seg_at_level; auto; qcl. }
    assert (WX : w = X).
    { assert (NEc : cross p1 q1 p2 <> cross p1 q1 q2).
      { intro C. apply KE. apply kcmp_eq_collinear; auto.
        destruct (meets_straddle p1 q1 p2 q2 w W2 (on_seg_cross _ _ _ W1)) as [[S1 S2]|[S1 S2]]; rewrite <- C in *; split; clear - S1 S2; qcl. }
      destruct (proper_is_common p1 q1 p2 q2 NEc) as [C1 C2]. fold X in C1, C2.
      apply (common_unique p1 q1 p2 q2 NEc); auto using on_seg_cross. }
    assert (Wz : lex_le w z).
    { rewrite WX. apply (tilts_le e _ X z T); simpl; auto 10. rewrite <- WX, Tw. auto. }
    destruct (NC w W1 W2 Wz) as [E1 E2].
    unfold lmax in Hm. destruct (pltb p2 p1); [rewrite <- E1, Tw in Hm|rewrite <- E2, Tw in Hm]; clear - Hm; qcl. }
  destruct (kcmp e (lmax e p1 p2) p1 q1 p2 q2) eqn:K0.
  - symmetry. eapply kcmp_eq_all; eauto.
  - destruct (kcmp e (tilt e z) p1 q1 p2 q2) eqn:K1; auto; exfalso.
    + apply kcmp_eq_all with (l' := lmax e p1 p2) in K1. congruence.
    + destruct (kcmp_change e p1 q1 p2 q2 (lmax e p1 p2) (tilt e z) M3 K0) as (m & Hm & Hm' & HE); [congruence|].
      apply (NX m Hm Hm'); auto. intro C. apply kcmp_eq_all with (l' := lmax e p1 p2) in C. congruence.
  - destruct (kcmp e (tilt e z) p1 q1 p2 q2) eqn:K1; auto; exfalso.
    + apply kcmp_eq_all with (l' := lmax e p1 p2) in K1. congruence.
    + assert (K0' : kcmp e (lmax e p1 p2) p2 q2 p1 q1 = Lt) by (rewrite kcmp_opp, K0; reflexivity).
      destruct (kcmp_change e p2 q2 p1 q1 (lmax e p1 p2) (tilt e z) M3 K0') as (m & Hm & Hm' & HE).
      { rewrite kcmp_opp, K1. discriminate. }
      apply (NX m Hm Hm'); auto. intro C. apply kcmp_eq_all with (l' := lmax e p1 p2) in C. congruence.
Qed.

(** Transitive and total on segments alive at a common point that do not cross
    up to it; [Eq] (collinear) is a congruence. *)
Theorem C15_consistent_order : forall z p1 q1 p2 q2 p3 q3,
  lex_lt p1 q1 -> lex_lt p2 q2 -> lex_lt p3 q3 ->
  alive z p1 q1 -> alive z p2 q2 -> alive z p3 q3 ->
  no_cross_upto z p1 q1 p2 q2 -> no_cross_upto z p2 q2 p3 q3 -> no_cross_upto z p1 q1 p3 q3 ->
  exists c12 c23 c13,
    lop_partial_cmp (Line p1 q1) (Line p2 q2) = Some c12 /\
    lop_partial_cmp (Line p2 q2) (Line p3 q3) = Some c23 /\
    lop_partial_cmp (Line p1 q1) (Line p3 q3) = Some c13 /\
    (c12 = Eq -> c13 = c23) /\ (c23 = Eq -> c13 = c12) /\ (c12 = c23 -> c13 = c12).
Proof.
  intros z p1 q1 p2 q2 p3 q3 V1 V2 V3 A1 A2 A3 N12 N23 N13. cbn [lop_partial_cmp].
  destruct (cmp_is_kcmp_at z p1 q1 p2 q2 A1 A2 V1 V2 N12) as (e1 & E1 & K1).
  destruct (cmp_is_kcmp_at z p2 q2 p3 q3 A2 A3 V2 V3 N23) as (e2 & E2 & K2).
  destruct (cmp_is_kcmp_at z p1 q1 p3 q3 A1 A3 V1 V3 N13) as (e3 & E3 & K3).
  destruct (Qc_min2 e1 e2 E1 E2) as (e4 & E4 & ? & ?). destruct (Qc_min2 e4 e3 E4 E3) as (e & E & ? & ?).
  rewrite (K1 e), (K2 e), (K3 e) by (auto; qcl).
  clear K1 K2 K3.
  exists (kcmp e (tilt e z) p1 q1 p2 q2), (kcmp e (tilt e z) p2 q2 p3 q3), (kcmp e (tilt e z) p1 q1 p3 q3).
  repeat (split; [reflexivity|]).
  pose proof (kcmp_lt_trans e (tilt e z) p1 q1 p2 q2 p3 q3) as F1.
  pose proof (kcmp_lt_trans e (tilt e z) p3 q3 p2 q2 p1 q1) as F2.
  pose proof (kcmp_lt_eq e (tilt e z) p1 q1 p2 q2 p3 q3) as F3.
  pose proof (kcmp_lt_eq e (tilt e z) p3 q3 p2 q2 p1 q1) as F4.
  pose proof (kcmp_eq_lt e (tilt e z) p1 q1 p2 q2 p3 q3) as F5.
  pose proof (kcmp_eq_lt e (tilt e z) p3 q3 p2 q2 p1 q1) as F6.
  pose proof (kcmp_eq_trans e (tilt e z) p1 q1 p2 q2 p3 q3) as F7.
  rewrite (kcmp_opp e _ p2 q2 p3 q3), (kcmp_opp e _ p1 q1 p2 q2), (kcmp_opp e _ p1 q1 p3 q3) in F2, F4, F6.
  destruct (kcmp e (tilt e z) p1 q1 p2 q2), (kcmp e (tilt e z) p2 q2 p3 q3), (kcmp e (tilt e z) p1 q1 p3 q3); simpl in *;
    repeat split; intros; try discriminate; auto;
    first [discriminate (F1 eq_refl eq_refl)|discriminate (F2 eq_refl eq_refl)|discriminate (F3 eq_refl eq_refl)
          |discriminate (F4 eq_refl eq_refl)|discriminate (F5 eq_refl eq_refl)|discriminate (F6 eq_refl eq_refl)|discriminate (F7 eq_refl eq_refl)|idtac].
Qed.

(** Cutting a segment at an interior point changes no comparison. *)
Theorem C15_truncation_keeps_order : forall p q r g, lex_lt p q -> on_seg p q r -> lex_lt p r -> lex_lt r q ->
  match g with Line p' q' => lex_lt p' q' /\ lex_lt p' r | Point x => lex_le x r end ->
  lop_partial_cmp (Line p r) g = lop_partial_cmp (Line p q) g.
Proof.
  intros p q r g V On Pr Rq Hg.
  assert (CP : exists t, 0 < t /\ forall a, cross p r a = t * cross p q a).
  { destruct On as (t & H0 & H1 & Hx & Hy). exists t. split.
    - apply Qcle_lt_or_eq in H0. destruct H0 as [H0|H0]; auto. exfalso.
      assert (r = p) by (apply pt_eq; [rewrite Hx|rewrite Hy]; rewrite <- H0; ring). lord.
    - intro a. unfold cross. rewrite Hx, Hy. ring. }
  assert (Or : forall a, orient2d p r a = orient2d p q a).
  { destruct CP as (t & Ht & C). intro a. pose proof (C a) as E.
    destruct (orient2d_spec p r a) as [O|O|O], (orient2d_spec p q a) as [O'|O'|O']; auto; exfalso;
      rewrite E in O; clear - O O' Ht; try qc; rewrite O' in O; qc. }
  destruct g as [x|p' q'].
  - cbn [lop_partial_cmp]. unfold cmp_line_point. rewrite Or.
    destruct (pltb_spec r x) as [H|H]; [lord|]. destruct (pltb_spec q x) as [H'|H']; [lord|]. reflexivity.
  - destruct Hg as [V' Hr]. cbn [lop_partial_cmp]. unfold cmp_line_line.
    destruct (pltb_spec p' p) as [H|H].
    + f_equal. unfold cmp_line_line_ordered.
      assert (B1 : pleb q p' = false) by (apply pleb_false; lord).
      assert (B2 : pleb r p' = false) by (apply pleb_false; lord).
      assert (B3 : pleb q p = false) by (apply pleb_false; lord).
      assert (B4 : pleb r p = false) by (apply pleb_false; lord).
      rewrite B1, B2, B3, B4. cbn [orb]. f_equal.
      destruct (orient2d_spec p' q' p) as [O|O|O]; auto. cbn [orientation_as_ordering ord_then].
      destruct On as (t & H0 & H1 & Hx & Hy).
      assert (Ht : 0 < t).
      { apply Qcle_lt_or_eq in H0. destruct H0 as [H0|H0]; auto. exfalso.
        assert (r = p) by (apply pt_eq; [rewrite Hx|rewrite Hy]; rewrite <- H0; ring). lord. }
      pose proof (cross_affine p' q' p q t r Hx Hy) as CA. rewrite O in CA.
      destruct (orient2d_spec p' q' r) as [O1|O1|O1], (orient2d_spec p' q' q) as [O2|O2|O2]; auto; exfalso;
        rewrite CA in O1; clear - O1 O2 Ht; try qc; rewrite O2 in O1; qc.
    + unfold cmp_line_line_ordered. rewrite !Or. reflexivity.
Qed.

Example C15_ex : (* three segments from one common start, alive at it *)
  let z := mkp 0 0 in
  alive z z (mkp 2 (-1)) /\ alive z z (mkp 2 1) /\ alive z z (mkp 0 3) /\ no_cross_upto z z (mkp 2 (-1)) z (mkp 0 3).
Proof.
  intro z. unfold alive. rewrite <- !pleb_iff, <- !pltb_iff.
  repeat split; try (vm_compute; reflexivity);
  unfold z in *; apply on_seg_between in H; try (rewrite <- pltb_iff; vm_compute; reflexivity); destruct H; lord.
Qed.

(** * C16 *)
Theorem C16_line_against_point : forall p q r, lex_lt p q ->
  (lop_partial_cmp (Line p q) (Point r) <> None <-> lex_le p r /\ lex_le r q) /\
  (lex_le p r -> lex_le r q ->
     (lop_partial_cmp (Line p q) (Point r) = Some Lt <-> 0 < cross p q r) /\
     (lop_partial_cmp (Line p q) (Point r) = Some Gt <-> cross p q r <= 0)) /\
  lop_partial_cmp (Line p q) (Point r) <> Some Eq.
Proof.
  intros p q r V. cbn [lop_partial_cmp]. unfold cmp_line_point.
  assert (C : ord_then (orientation_as_ordering (orient2d p q r)) Gt = if qltb 0 (cross p q r) then Lt else Gt).
  { destruct (orient2d_spec p q r) as [O|O|O]; simpl.
    - apply qltb_iff in O. rewrite O. reflexivity.
    - destruct (qltb 0 (cross p q r)) eqn:E; auto. apply qltb_iff in E. exfalso; clear - O E; qcl.
    - destruct (qltb 0 (cross p q r)) eqn:E; auto. apply qltb_iff in E. exfalso; clear - O E; qcl. }
  rewrite C.
  destruct (pltb_spec q r) as [H|H]; simpl.
  { split; [split; [congruence|intros [? ?]; lord]|]. split; [intros; lord|congruence]. }
  destruct (pltb_spec r p) as [K|K]; simpl.
  { split; [split; [congruence|intros [? ?]; lord]|]. split; [intros; lord|congruence]. }
  apply lex_not_lt in H. apply lex_not_lt in K.
  split; [split; auto; discriminate|]. split.
  - intros _ _. destruct (qltb 0 (cross p q r)) eqn:E.
    + apply qltb_iff in E. split; split; try discriminate; auto. intro; exfalso; clear - E H0; qcl.
    + assert (E' : cross p q r <= 0).
      { apply Qcnot_lt_le. intro J. apply qltb_iff in J. congruence. }
      split; split; try discriminate; auto. intro; exfalso; clear - E' H0; qcl.
  - destruct (qltb 0 (cross p q r)); discriminate.
Qed.
(** The sign of [cross] is "above": a point has the sign of its height over the
    line on its own vertical. *)
Theorem C16_cross_is_above : forall p q r w, cx p < cx q -> on_seg p q w -> cx w = cx r ->
  (0 < cross p q r <-> cy w < cy r) /\ (cross p q r <= 0 <-> cy r <= cy w).
Proof.
  intros p q r w Hx On E. apply on_seg_cross in On.
  assert (C : cross p q r = (cx q - cx p) * (cy r - cy w)).
  { rewrite <- (Qcplus_0_r ((cx q - cx p) * (cy r - cy w))). rewrite <- On at 1.
    unfold cross. rewrite E. ring. }
  rewrite C. clear On C. split; split; intro H.
  - apply Qcnot_le_lt. intro K. qc.
  - qc.
  - apply Qcnot_lt_le. intro K. qc.
  - qc.
Qed.
Theorem C16_points : forall p q,
  (p = q -> lop_partial_cmp (Point p) (Point q) = Some Eq) /\
  (p <> q -> lop_partial_cmp (Point p) (Point q) = None).
Proof.
  intros p q. cbn [lop_partial_cmp]. destruct (peqb_spec p q); split; congruence.
Qed.

(** * C17 *)
(** The set of common points is described by the answer; the call panics
    exactly when the argument is a point. *)
Theorem C17_intersect_line_is_exact : forall a b, valid a -> valid b ->
  match intersect_line a b with
  | Ok None => is_line b = true /\ forall r, ~ (pts a r /\ pts b r)
  | Ok (Some (Point x)) => is_line b = true /\ forall r, (pts a r /\ pts b r) <-> r = x
  | Ok (Some (Line x y)) => is_line b = true /\ lex_lt x y /\ forall r, (pts a r /\ pts b r) <-> on_seg x y r
  | Panic _ => is_line b = false
  | NoFuel => False
  end.
Proof.
  intros a b Ha Hb. pose proof (intersect_line_exact a b Ha Hb) as H.
  destruct (intersect_line a b) as [[[x|x y]|]| |]; simpl in *; auto.
  - destruct H as (H1 & _ & H2). split; auto. intro r. rewrite H2. tauto.
  - destruct H as (H1 & H0 & H2). split; auto. split; auto. intro r. rewrite H2. tauto.
Qed.
Definition show_pt (p : pt) : Q * Q := (this (cx p), this (cy p)).
Definition show (o : res (option lop)) : option (list (Q * Q)) :=
  match o with
  | Ok (Some (Point p)) => Some [show_pt p]
  | Ok (Some (Line p q)) => Some [show_pt p; show_pt q]
  | Ok None => Some []
  | _ => None
  end.
Example C17_ex :
  show (intersect_line (Line (mkp 0 0) (mkp 4 4)) (Line (mkp 0 4) (mkp 4 0))) = Some [(2, 2)]%Q /\
  show (intersect_line (Line (mkp 0 0) (mkp 4 4)) (Line (mkp 1 1) (mkp 6 6))) = Some [(1, 1); (4, 4)]%Q /\
  show (intersect_line (Line (mkp 0 0) (mkp 4 4)) (Line (mkp 1 0) (mkp 6 5))) = Some [] /\
  show (intersect_line (Line (mkp 0 0) (mkp 4 4)) (Point (mkp 1 0))) = None.
Proof. repeat split; vm_compute; reflexivity. Qed.

(** * C18 *)
Theorem C18_exact_ordered_is_plain : forall a b, valid a -> valid b ->
  intersect_line_ordered a b = intersect_line a b /\
  forall o, intersect_line_ordered a b = Ok (Some o) ->
    lex_le (lop_first a) (lop_first o) /\ lex_le (lop_first b) (lop_first o).
Proof. exact intersect_line_ordered_exact. Qed.

Lemma next_after_gt : forall x, f_wf x -> is_nan x = false -> (f_key x < inf_mag)%Z ->
  is_nan (next_after_infinity x) = false /\ (f_key x < f_key (next_after_infinity x))%Z.
Proof.
  intros [s m] W N I. unfold next_after_infinity. rewrite N.
  assert (E : f_eqb (mkF s m) f_infinity = false).
  { unfold f_eqb, f_cmp. rewrite N. simpl.
    destruct (Z.compare_spec (f_key (mkF s m)) (f_key f_infinity)) as [C|C|C]; auto.
    unfold f_key at 2 in C. simpl in C. lia. }
  rewrite E. unfold f_wf, is_nan, f_key in *. simpl in *. apply Z.ltb_ge in N. unfold inf_mag in *.
  destruct s; simpl in *.
  - destruct (- m =? 0)%Z eqn:Z0; simpl.
    + apply Z.eqb_eq in Z0. split; [reflexivity|lia].
    + apply Z.eqb_neq in Z0. split; [apply Z.ltb_ge; lia|lia].
  - destruct (m =? 0)%Z eqn:Z0; simpl.
    + apply Z.eqb_eq in Z0. split; [reflexivity|lia].
    + apply Z.eqb_neq in Z0. split; [apply Z.ltb_ge; lia|lia].
Qed.

(** Floats: whatever point the intersection routine returns, as long as it is
    not left of [self]'s first end (and nothing is NaN or infinite), the nudge
    makes it not before [self]'s first end. *)
Theorem C18_float_nudge_protects_self : forall self_first r,
  f_wf (cx r) -> has_nan self_first = false -> has_nan r = false ->
  (f_key (cx r) < inf_mag)%Z -> f_ltb (cx r) (cx self_first) = false ->
  fsp_geb (nudge self_first r) self_first = true.
Proof.
  intros s r W Ns Nr I B. unfold has_nan in *. apply orb_false_iff in Ns, Nr.
  destruct Ns as [Nsx Nsy], Nr as [Nrx Nry].
  destruct (next_after_gt (cx r) W Nrx I) as [NN NG].
  unfold nudge, f_eqb. unfold f_ltb in *. rewrite !f_cmp_some in * by auto.
  unfold fsp_geb, sp_partial_cmp.
  destruct (Z.compare_spec (f_key (cx r)) (f_key (cx s))) as [C|C|C]; [|discriminate|].
  - destruct (Z.compare_spec (f_key (cy r)) (f_key (cy s))) as [D|D|D]; simpl.
    + rewrite f_cmp_some, C, Z.compare_refl, f_cmp_some, D, Z.compare_refl by auto. reflexivity.
    + rewrite f_cmp_some by auto.
      destruct (Z.compare_spec (f_key (next_after_infinity (cx r))) (f_key (cx s))); auto; lia.
    + rewrite f_cmp_some, C, Z.compare_refl, f_cmp_some by auto.
      destruct (Z.compare_spec (f_key (cy r)) (f_key (cy s))); auto; lia.
  - simpl. rewrite f_cmp_some by auto.
    destruct (Z.compare_spec (f_key (cx r)) (f_key (cx s))); auto; lia.
Qed.

(** Nothing protects [other]: a result inside both bounding boxes trips the
    second debug assertion.  self = (0,0)-(2,2), other = (1,1)-(2,0), result
    (1, 0.5). *)
Definition f_0 := mkF false 0.
Definition f_half := mkF false 4602678819172646912.
Definition f_1 := mkF false 4607182418800017408.
Definition f_2 := mkF false 4611686018427387904.
Theorem C18_float_other_unprotected :
  exists self_first self_second other_first other_second r,
    (f_geb (cx r) (cx self_first) && f_geb (cx self_second) (cx r) &&
     f_geb (cy r) (cy self_first) && f_geb (cy self_second) (cy r) &&
     f_geb (cx r) (cx other_first) && f_geb (cx other_second) (cx r) &&
     f_geb (cy other_first) (cy r) && f_geb (cy r) (cy other_second) = true)%bool /\
    ordered_point self_first other_first r = Panic "line_or_point.rs:162".
Proof.
  exists (mkC f_0 f_0), (mkC f_2 f_2), (mkC f_1 f_1), (mkC f_2 f_0), (mkC f_1 f_half).
  split; vm_compute; reflexivity.
Qed.

Print Assumptions C09_panics_iff_nan_decides.
Print Assumptions C09_total_lexicographic_order.
Print Assumptions C10_drain_is_sorted.
Print Assumptions C13_comparison_is_below.
Print Assumptions C15_consistent_order.
Print Assumptions C15_truncation_keeps_order.
Print Assumptions C16_line_against_point.
Print Assumptions C17_intersect_line_is_exact.
Print Assumptions C18_float_nudge_protects_self.
