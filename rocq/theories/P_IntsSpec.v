(** The crossings of one position within one yield. *)
Require Import List String Bool Arith Lia Permutation Sorted.
From Verif Require Import Base Scalar M_Events M_Geo M_LineOrPoint M_Splay M_Slab M_Active M_Sweep M_Crossings.
From Verif Require Import S_Geo S_Sweep S_Ints P_Geo P_LineOrPoint P_Tilt P_Chain P_Tile P_Inv P_Run P_Param P_Master P_Spec P_LineInt P_Ints.
Import Datatypes.
Import ListNotations.
Local Open Scope nat_scope.

Lemma nth_two : forall {X} (o : list X) k l x y, nth_error o k = Some x -> nth_error o l = Some y -> k < l ->
  exists A B D, o = A ++ x :: B ++ y :: D.
Proof.
  intros X o k l x y Ek El L. apply nth_error_split in Ek as (A & R & -> & La).
  rewrite nth_error_app2 in El by lia. replace (l - List.length A) with (S (l - List.length A - 1)) in El by lia. cbn [nth_error] in El.
  apply nth_error_In, in_split in El as (B & D & ->). exists A, B, D. reflexivity.
Qed.
Lemma NoDup_mid : forall {X} (A B D : list X) v, NoDup (A ++ v :: B ++ v :: D) -> False.
Proof. intros X A B D v N. apply NoDup_remove_2 in N. apply N. apply in_app_iff. right. apply in_app_iff. right. left; auto. Qed.
Lemma flat_map_one : forall {X Y} (g : X -> list Y) l a, In a l -> NoDup l -> (forall b, In b l -> b <> a -> g b = []) -> flat_map g l = g a.
Proof.
  intros X Y g l a. induction l as [|b l IH]; intros I N H; [destruct I|]. inversion N as [|? ? N1 N2]; subst. cbn [flat_map]. destruct I as [->|I].
  - replace (flat_map g l) with (@nil Y); [apply app_nil_r|]. symmetry. clear IH N N2.
    assert (H' : forall b, In b l -> g b = []) by (intros b J; apply H; [right; auto|intros ->; auto]). clear H N1.
    induction l as [|c l IH]; [reflexivity|]. cbn [flat_map]. rewrite (H' c) by (left; auto). apply IH. intros; apply H'; right; auto.
  - rewrite (H b); [|left; auto|intros ->; auto]. apply IH; auto. intros; apply H; auto; right; auto.
Qed.
Lemma filter_flat_map : forall {X Y} (f : Y -> bool) (g : X -> list Y) l, filter f (flat_map g l) = flat_map (fun x => filter f (g x)) l.
Proof. intros X Y f g l. induction l as [|x l IH]; [reflexivity|]. cbn [flat_map]. rewrite filter_app, IH. reflexivity. Qed.
Lemma NoDup_map_inj : forall {X Y} (g : X -> Y) l, NoDup (map g l) -> NoDup l.
Proof. intros X Y g l N. induction l as [|x l IH]; constructor; inversion N; subst; auto. intros I. apply H1. apply in_map. auto. Qed.

Lemma row_in : forall n k f a b, In (a, b) (row n k f) <-> a = k /\ f <= b < n.
Proof.
  intros n k f a b. unfold row. rewrite in_map_iff. split.
  - intros (l & E & I). injection E as <- <-. apply in_seq in I. lia.
  - intros [-> H]. exists b. split; auto. apply in_seq. lia.
Qed.
Lemma rows_in : forall n f a b, In (a, b) (rows n f) <-> f <= a /\ a < b < n.
Proof.
  intros n f a b. unfold rows. rewrite in_flat_map. split.
  - intros (k & I & J). apply in_seq in I. apply row_in in J. lia.
  - intros H. exists a. split; [apply in_seq; lia|apply row_in; lia].
Qed.
Lemma NoDup_app : forall {X} (l l' : list X), NoDup l -> NoDup l' -> (forall x, In x l -> In x l' -> False) -> NoDup (l ++ l').
Proof.
  intros X l l' N N' D. induction N as [|x l I N IH]; [exact N'|]. cbn [app]. constructor.
  - intros J. apply in_app_iff in J as [J|J]; [auto|]. apply (D x); auto. left; auto.
  - apply IH. intros y A B. apply (D y); auto. right; auto.
Qed.
Lemma rows_NoDup : forall n f, NoDup (rows n f).
Proof.
  intros n f. unfold rows. remember (n - 1 - f) as m eqn:E. clear E. revert f. induction m as [|m IH]; intros f; [constructor|]. cbn [seq flat_map].
  apply NoDup_app; auto.
  - unfold row. apply FinFun.Injective_map_NoDup; [|apply seq_NoDup]. intros a b Q. congruence.
  - intros [a b] I J. apply row_in in I. apply in_flat_map in J as (k & J & K). apply in_seq in J. apply row_in in K. lia.
Qed.

Section IS.
Variables (ln : nat -> line) (n : nat).
Notation geo := (geo ln).
Notation V := (cands ln n).
Variable ys : output nat.
Hypothesis G : ygood V ys.
Hypothesis F : final ln n V (List.concat (map snd ys)).
Notation log := (List.concat (map snd ys)).

Lemma slice_log : forall p o, In (p, o) ys -> exists A D, log = A ++ o ++ D.
Proof.
  intros p o I. apply in_split in I as (A & D & E). exists (List.concat (map snd A)), (List.concat (map snd D)).
  rewrite E, map_app, concat_app. reflexivity.
Qed.
Lemma two_log : forall p o k l x y, In (p, o) ys -> nth_error o k = Some x -> nth_error o l = Some y -> k < l ->
  exists A B D, log = A ++ x :: B ++ y :: D.
Proof.
  intros p o k l x y I Ek El L. destruct (slice_log p o I) as (A & D & E). destruct (nth_two o k l x y Ek El L) as (A' & B' & D' & E').
  exists (A ++ A'), B', (D' ++ D). rewrite E, E'. rewrite <- !app_assoc. cbn [app]. rewrite <- !app_assoc. reflexivity.
Qed.
Lemma in_log : forall p o x, In (p, o) ys -> In x o -> In x log.
Proof. intros p o x I J. apply in_concat. exists o. split; auto. apply in_map_iff. exists (p, o). auto. Qed.
Lemma slice_unique : forall r o o', In (r, o) ys -> In (r, o') ys -> o = o'.
Proof.
  pose proof (yg_sorted _ _ G) as S. clear G F. intros r o o' I I'.
  induction ys as [|[q u] l IH]; [destruct I|]. cbn [map fst] in S. inversion S as [|? ? S1 F1]; subst. rewrite Forall_forall in F1.
  destruct I as [I|I], I' as [I'|I']; [congruence| | |auto].
  - injection I as -> ->. pose proof (F1 _ (in_map fst _ _ I')) as L. exfalso. exact (lex_irrefl _ L).
  - injection I' as -> ->. pose proof (F1 _ (in_map fst _ _ I)) as L. exfalso. exact (lex_irrefl _ L).
Qed.

(** Two entries of one position in one slice: one ends there, the other starts
    there and is not the first. *)
Lemma same_slice : forall p o k l x y, In (p, o) ys -> nth_error o k = Some x -> nth_error o l = Some y -> k < l ->
  cr_cross x = cr_cross y ->
  (cr_left x = true /\ cr_left y = false /\ cr_first x = false) \/ (cr_left x = false /\ cr_left y = true /\ cr_first y = false).
Proof.
  intros p o k l x y I Ek El L Ec. destruct (two_log p o k l x y I Ek El L) as (A & B & D & E).
  pose proof F as [T St Pt Lg Fi].
  assert (Ix : In x log) by (eapply in_log; eauto using nth_error_In). assert (Iy : In y log) by (eapply in_log; eauto using nth_error_In).
  pose proof (yg_pt _ _ G p o x I (nth_error_In _ _ Ek)) as Px. pose proof (yg_pt _ _ G p o y I (nth_error_In _ _ El)) as Py. unfold crpt in Px, Py.
  pose proof (Lg x Ix) as (Lx & Qx & Fx). pose proof (Lg y Iy) as (_ & Qy & Fy). rewrite <- Ec in Qy, Fy.
  set (c := cr_cross x) in *.
  destruct (geo c) as [v|a z] eqn:Gc.
  { exfalso. assert (Ee : ends (ln c) v v) by (destruct (geo_point ln c v Gc); split; [apply lex_le_refl|left; auto]).
    destruct (one_point ln n ys F c v Lx Ee) as (w & Ew & _). unfold crossings_of in Ew. rewrite E in Ew.
    apply (f_equal (@List.length _)) in Ew. rewrite filter_app in Ew. cbn [filter] in Ew. rewrite filter_app in Ew. cbn [filter] in Ew.
    rewrite <- Ec in Ew. fold c in Ew. rewrite Nat.eqb_refl in Ew. rewrite app_length in Ew. cbn [List.length] in Ew. rewrite app_length in Ew. cbn [List.length] in Ew. lia. }
  specialize (T c a z Lx Gc). pose proof (tile_NoDup_snd _ _ _ _ T) as N2. pose proof (tile_NoDup_fst _ _ _ _ T) as N1.
  pose proof (Permutation_NoDup (Permutation_sym (St c)) N1) as N1'.
  destruct (cr_line x) as [|x1 x2] eqn:Gx; [destruct Qx; discriminate|]. destruct (cr_line y) as [|y1 y2] eqn:Gy; [destruct Qy; discriminate|].
  destruct Qx as (a1 & z1 & Q1 & Lx12 & _ & _ & Ox1 & Ox2). destruct Qy as (a2 & z2 & Q2 & Ly12 & _ & _ & Oy1 & Oy2).
  injection Q1 as <- <-. injection Q2 as <- <-. pose proof (geo_lt ln c a z Gc) as Laz. simpl in Fx, Fy.
  destruct (on_seg_between _ _ _ Laz Ox1) as [Ax1 _]. destruct (on_seg_between _ _ _ Laz Oy1) as [Ay1 _].
  destruct (cr_left x) eqn:Elx, (cr_left y) eqn:Ely.
  - exfalso. rewrite E in N1'. unfold started in N1'. rewrite flat_map_app in N1'. cbn [flat_map] in N1'. rewrite flat_map_app in N1'. cbn [flat_map] in N1'.
    rewrite <- Ec in N1'. fold c in N1'. rewrite Nat.eqb_refl, Elx, Ely, Gx, Gy in N1'. cbn [andb app lop_first] in N1'. subst x1 y1.
    apply NoDup_mid in N1'. exact N1'.
  - left. split; [auto|]. split; [auto|]. destruct (cr_first x); [|reflexivity]. specialize (Fx eq_refl). exfalso. subst. lord.
  - right. split; [auto|]. split; [auto|]. destruct (cr_first y); [|reflexivity]. specialize (Fy eq_refl). exfalso. subst. lord.
  - exfalso. rewrite E in N2. unfold ended in N2. rewrite flat_map_app in N2. cbn [flat_map] in N2. rewrite flat_map_app in N2. cbn [flat_map] in N2.
    rewrite <- Ec in N2. fold c in N2. rewrite Nat.eqb_refl, Elx, Ely, Gx, Gy in N2. cbn [andb app negb] in N2. rewrite map_app in N2. cbn [map] in N2.
    rewrite map_app in N2. cbn [map snd] in N2. subst x2 y2. apply NoDup_mid in N2. exact N2.
Qed.

(** What is worth reporting are two different positions. *)
Lemma worth_distinct : forall p o k l x y, In (p, o) ys -> nth_error o k = Some x -> nth_error o l = Some y -> k < l ->
  worth (ovl_flag o k l) x y = true -> cr_cross x <> cr_cross y.
Proof.
  intros p o k l x y I Ek El L W Ec. unfold worth in W. destruct (ovl_flag o k l) eqn:Ef.
  - assert (Ch : chained o).
    { pose proof (yg_ovl _ _ G p o I) as Ov. clear -Ov. intros k x. revert o Ov x. induction k as [|k IH]; intros o Ov x E Ho; (destruct o as [|x0 o]; [discriminate|]); destruct Ov as [O1 O2].
      - injection E as ->. destruct (O2 Ho) as (y & l & -> & A). exists y. split; [reflexivity|exact A].
      - apply (IH o O1 x E Ho). }
    destruct (flag_chain o Ch l k x y ltac:(lia) Ef Ek El) as [_ E2].
    destruct (same_slice p o k l x y I Ek El L Ec) as [(A1 & A2 & A3)|(A1 & A2 & A3)]; congruence.
  - destruct (same_slice p o k l x y I Ek El L Ec) as [(A1 & A2 & A3)|(A1 & A2 & A3)]; rewrite A1, A2, A3 in W; cbn in W; try discriminate.
Qed.
Lemma chained_slice : forall p o, In (p, o) ys -> chained o.
Proof.
  intros p o I. pose proof (yg_ovl _ _ G p o I) as Ov. clear -Ov. intros k x. revert o Ov x.
  induction k as [|k IH]; intros o Ov x E Ho; (destruct o as [|x0 o]; [discriminate|]); destruct Ov as [O1 O2].
  - injection E as ->. destruct (O2 Ho) as (y & l & -> & A). exists y. split; [reflexivity|exact A].
  - apply (IH o O1 x E Ho).
Qed.

(** The one ending entry of a position through [p]. *)
Lemma ending_entry : forall c p, c < n -> In p V -> on_line (ln c) p -> not_left_end (ln c) p ->
  exists o k x, In (p, o) ys /\ nth_error o k = Some x /\ cr_cross x = c /\ cr_left x = false /\
    forall k' x', nth_error o k' = Some x' -> cr_cross x' = c -> k' <> k -> cr_left x' = true /\ cr_first x' = false.
Proof.
  intros c p L Iv O NL. assert (H : exists o x, In (p, o) ys /\ In x o /\ cr_cross x = c /\ cr_left x = false).
  { apply geo_pts in O. pose proof F as [T St Pt Lg Fi]. destruct (geo c) as [v|a z] eqn:E.
    - simpl in O. subst v. assert (I : In (c, p) (ptlog log)) by (eapply Permutation_in; [symmetry; exact Pt|apply PTS_in; auto]).
      unfold ptlog in I. apply in_flat_map in I as (x & Ix & I). pose proof (Lg x Ix) as (_ & Q & _). apply (log_in ln n ys G) in Ix as (o & I1 & I2).
      destruct (cr_line x) as [q|] eqn:Ex; [|destruct I]. destruct I as [I|[]]. injection I as <- <-.
      exists o, x. unfold crpt in I1. rewrite Ex in I1. split; auto. split; auto. split; auto. apply Q.
    - simpl in O. specialize (T c a z L E). pose proof (geo_lt ln c a z E) as Laz. destruct (on_seg_between _ _ _ Laz O) as [B1 B2].
      destruct (geo_line ln c a z E) as [Ee _]. specialize (NL a z Ee Laz).
      destruct (tile_cover_r _ _ _ _ _ T (lex_le_neq _ _ B1 (fun Q => NL (eq_sym Q))) B2) as (x & y & I & A1 & A2).
      destruct (tile_piece _ _ _ _ _ _ T I) as (Lxy & Vx & Vy & Ox & Oy & _).
      assert (y = p).
      { destruct A2 as [A2|A2]; [|auto]. exfalso. apply (Fi c x y p I Iv); auto. eapply on_seg_mid; eauto; left; auto. }
      subst y. unfold ended in I. apply in_flat_map in I as (k & Ik & J). destruct (Nat.eqb_spec (cr_cross k) c) as [Ec|]; [|destruct J].
      destruct (cr_left k) eqn:El; simpl in J; [destruct J|]. apply (log_in ln n ys G) in Ik as (o & I1 & I2). exists o, k. unfold crpt in I1. rewrite El in I1.
      destruct (cr_line k); simpl in J; [destruct J|]. destruct J as [J|[]]. injection J as <- <-. auto. }
  destruct H as (o & x & Io & Ix & Ec & El). apply In_nth_error in Ix as (k & Ek). exists o, k, x. do 4 (split; [auto|]).
  intros k' x' Ek' Ec' N. destruct (lt_eq_lt_dec k k') as [[L'|L']|L']; [|exfalso; auto|].
  - destruct (same_slice p o k k' x x' Io Ek Ek' L' ltac:(congruence)) as [(A1 & A2 & A3)|(A1 & A2 & A3)]; [congruence|auto].
  - destruct (same_slice p o k' k x' x Io Ek' Ek L' ltac:(congruence)) as [(A1 & A2 & A3)|(A1 & A2 & A3)]; [auto|congruence].
Qed.

Lemma pair_report_in : forall o kl a b i, In (a, b, i) (pair_report ln o kl) ->
  exists x y, nth_error o (fst kl) = Some x /\ nth_error o (snd kl) = Some y /\ cr_cross x = a /\ cr_cross y = b /\
    worth (ovl_flag o (fst kl) (snd kl)) x y = true /\ line_intersection (ln a) (ln b) = Some i.
Proof.
  intros o [k l] a b i I. unfold pair_report in I. cbn [fst snd] in *. destruct (nth_error o k) as [x|]; [|destruct I].
  destruct (nth_error o l) as [y|]; [|destruct I]. destruct (worth _ x y) eqn:W; [|destruct I].
  destruct (line_intersection _ _) as [i'|] eqn:Li; [|destruct I]. destruct I as [I|[]]. injection I as <- <- <-. exists x, y. auto 10.
Qed.
Lemma reports_sound : forall a b i, In (a, b, i) (reports ln ys) ->
  a < n /\ b < n /\ a <> b /\ exact_intersection (ln a) (ln b) i.
Proof.
  intros a b i I. unfold reports in I. apply in_flat_map in I as ([p o] & Io & I). cbn [snd] in I. unfold slice_reports in I.
  apply in_flat_map in I as ([k l] & Ip & I). apply pair_report_in in I as (x & y & Ek & El & <- & <- & W & Li). cbn [fst snd] in *.
  unfold all_pairs in Ip. apply rows_in in Ip.
  assert (Ix : In x log) by (eapply in_log; eauto using nth_error_In). assert (Iy : In y log) by (eapply in_log; eauto using nth_error_In).
  split; [apply (fi_log _ _ _ _ F x Ix)|]. split; [apply (fi_log _ _ _ _ F y Iy)|].
  split; [apply (worth_distinct p o k l x y Io Ek El ltac:(lia) W)|].
  pose proof (line_intersection_all (ln (cr_cross x)) (ln (cr_cross y))) as X. rewrite Li in X. exact X.
Qed.
(** A pair that meets in one point which is the left end of neither. *)
Lemma reports_once : forall i j p, i < n -> j < n -> i <> j -> only_common (ln i) (ln j) p ->
  not_left_end (ln i) p -> not_left_end (ln j) p -> exists t, filter (is_pair i j) (reports ln ys) = [t].
Proof.
  intros i j p Li Lj Nij U Ni Nj. pose proof (common_in_V ln n i j p Li Lj U) as Iv. destruct (proj2 (U p) eq_refl) as [Oi Oj].
  destruct (ending_entry i p Li Iv Oi Ni) as (o & k & x & Io & Ek & Ex & Elx & Ux).
  destruct (ending_entry j p Lj Iv Oj Nj) as (o' & l & y & Io' & El & Ey & Ely & Uy).
  rewrite (slice_unique p o' o Io' Io) in *. clear Io'.
  assert (Nkl : k <> l) by (intros ->; congruence).
  assert (On : forall q u w, In (q, u) ys -> In w u -> on_line (ln (cr_cross w)) q) by (intros q u w A B; apply (sound ln n ys G F q u w A B)).
  assert (Wp : forall a b u w, nth_error o a = Some u -> nth_error o b = Some w -> a < b ->
    (cr_cross u = i /\ cr_cross w = j) \/ (cr_cross u = j /\ cr_cross w = i) -> ovl_flag o a b = false).
  { intros a b u w Ea Eb Lab Lab'. destruct (ovl_flag o a b) eqn:Ef; [|reflexivity]. exfalso.
    destruct (flag_chain o (chained_slice p o Io) b a u w ltac:(lia) Ef Ea Eb) as [Eg _].
    pose proof (sound ln n ys G F p o u Io (nth_error_In _ _ Ea)) as (_ & Su & Zu & _). pose proof (sound ln n ys G F p o w Io (nth_error_In _ _ Eb)) as (_ & Sw & _ & _).
    assert (Al : forall r, on_piece (cr_line u) r -> r = p).
    { intros r R. apply U. pose proof (Su r R) as R1. rewrite <- Eg in R. pose proof (Sw r R) as R2. destruct Lab' as [[Q1 Q2]|[Q1 Q2]]; rewrite Q1 in R1; rewrite Q2 in R2; auto. }
    pose proof (fi_log _ _ _ _ F u (in_log p o u Io (nth_error_In _ _ Ea))) as (_ & Qu & _).
    assert (Ov : exists u', In u' o /\ cr_overlap u' = true /\ cr_line u' = cr_line u /\ cr_cross u' = cr_cross u).
    { exists u. split; [eapply nth_error_In; eauto|]. split; [|auto]. unfold ovl_flag in Ef. rewrite forallb_forall in Ef. apply Ef.
      replace (b - a) with (S (b - a - 1)) by lia. destruct (skipn a o) as [|h tl] eqn:Sk.
      - pose proof (nth_skipn o a 0) as Q. rewrite Sk, Nat.add_0_r, Ea in Q. discriminate.
      - pose proof (nth_skipn o a 0) as Q. rewrite Sk, Nat.add_0_r, Ea in Q. injection Q as ->. left. reflexivity. }
    destruct (cr_line u) as [v|v1 v2] eqn:Gu.
    - (* two coinciding points *)
      destruct Qu as (_ & _ & Qu). destruct Ov as (u' & Iu' & Ou' & Gu' & Cu').
      pose proof (fi_log _ _ _ _ F u' (in_log p o u' Io Iu')) as (_ & Q & _). rewrite Gu' in Q. destruct Q as (_ & _ & Q). congruence.
    - destruct Qu as (_ & _ & _ & Lv & _). pose proof (Al v1 (on_seg_start _ _)). pose proof (Al v2 (on_seg_end _ _)). subst. lord. }
  set (kl := if k <? l then (k, l) else (l, k)).
  assert (Ikl : In kl (all_pairs o)).
  { assert (k < List.length o) by (apply nth_error_Some; congruence). assert (l < List.length o) by (apply nth_error_Some; congruence).
    unfold kl, all_pairs. destruct (Nat.ltb_spec k l); apply rows_in; lia. }
  (* any report of the pair *)
  assert (One : forall q u ab t, In (q, u) ys -> In ab (all_pairs u) -> In t (pair_report ln u ab) -> is_pair i j t = true -> (q, u) = (p, o) /\ ab = kl).
  { intros q u [a b] [[ca cb] r] Iq Iab It Pt. apply pair_report_in in It as (xa & xb & Ea & Eb & <- & <- & W & _). cbn [fst snd] in *.
    unfold all_pairs in Iab. apply rows_in in Iab as [_ Lab].
    assert (Lb : (cr_cross xa = i /\ cr_cross xb = j) \/ (cr_cross xa = j /\ cr_cross xb = i)).
    { unfold is_pair in Pt. cbn [fst snd] in Pt. rewrite orb_true_iff, !andb_true_iff, !Nat.eqb_eq in Pt. exact Pt. }
    assert (Eq : q = p).
    { apply U. pose proof (On q u xa Iq (nth_error_In _ _ Ea)) as R1. pose proof (On q u xb Iq (nth_error_In _ _ Eb)) as R2.
      destruct Lb as [[Q1 Q2]|[Q1 Q2]]; rewrite Q1 in R1; rewrite Q2 in R2; auto. }
    subst q. assert (u = o) by (eapply slice_unique; eauto). subst u. split; [reflexivity|].
    rewrite (Wp a b xa xb Ea Eb ltac:(lia) Lb) in W. unfold worth in W. apply andb_true_iff in W as [Wa Wb].
    assert (Hi : forall c w, nth_error o c = Some w -> cr_cross w = i -> negb (cr_left w) || cr_first w = true -> c = k).
    { intros c w Ec Cc Wc. destruct (Nat.eq_dec c k) as [|N]; [auto|]. exfalso. destruct (Ux c w Ec Cc N) as [A1 A2]. rewrite A1, A2 in Wc. discriminate. }
    assert (Hj : forall c w, nth_error o c = Some w -> cr_cross w = j -> negb (cr_left w) || cr_first w = true -> c = l).
    { intros c w Ec Cc Wc. destruct (Nat.eq_dec c l) as [|N]; [auto|]. exfalso. destruct (Uy c w Ec Cc N) as [A1 A2]. rewrite A1, A2 in Wc. discriminate. }
    unfold kl. destruct Lb as [[Q1 Q2]|[Q1 Q2]].
    - rewrite (Hi a xa Ea Q1 Wa), (Hj b xb Eb Q2 Wb) in *. destruct (Nat.ltb_spec k l); [reflexivity|lia].
    - rewrite (Hj a xa Ea Q1 Wa), (Hi b xb Eb Q2 Wb) in *. destruct (Nat.ltb_spec k l); [lia|reflexivity]. }
  assert (FN : forall q u ab, In (q, u) ys -> In ab (all_pairs u) -> ((q, u), ab) <> ((p, o), kl) -> filter (is_pair i j) (pair_report ln u ab) = []).
  { intros q u ab Iq Iab N. destruct (filter (is_pair i j) (pair_report ln u ab)) as [|t ts] eqn:Ef; [reflexivity|]. exfalso.
    assert (I : In t (filter (is_pair i j) (pair_report ln u ab))) by (rewrite Ef; left; auto). apply filter_In in I as [I Pt].
    destruct (One q u ab t Iq Iab I Pt) as [Q1 Q2]. apply N. congruence. }
  unfold reports. rewrite filter_flat_map. rewrite (flat_map_one _ ys (p, o) Io).
  2:{ apply (NoDup_map_inj fst). apply ssorted_NoDup. apply (yg_sorted _ _ G). }
  2:{ intros [q u] Iq N. unfold slice_reports. cbn [snd]. rewrite filter_flat_map.
      assert (Z : forall l0, (forall ab, In ab l0 -> In ab (all_pairs u)) -> flat_map (fun x0 => filter (is_pair i j) (pair_report ln u x0)) l0 = []).
      { induction l0 as [|ab l0 IH]; intros S; [reflexivity|]. cbn [flat_map]. rewrite (FN q u ab Iq); [|apply S; left; auto|congruence]. apply IH. intros; apply S; right; auto. }
      apply Z. auto. }
  unfold slice_reports. cbn [snd]. rewrite filter_flat_map. rewrite (flat_map_one _ (all_pairs o) kl Ikl (rows_NoDup _ _)).
  2:{ intros ab Iab N. apply (FN p o ab Io Iab). congruence. }
  assert (LI : forall a b, on_line (ln a) p -> on_line (ln b) p -> exists r, line_intersection (ln a) (ln b) = Some r).
  { intros a b A1 A2. pose proof (line_intersection_all (ln a) (ln b)) as X. destruct (line_intersection _ _) as [r|]; [eauto|]. exfalso. apply (X p). auto. }
  unfold kl. destruct (Nat.ltb_spec k l) as [L|L]; unfold pair_report; cbn [fst snd]; rewrite Ek, El.
  - rewrite (Wp k l x y Ek El L (or_introl (conj Ex Ey))). unfold worth. rewrite Elx, Ely. cbn [negb orb andb]. rewrite Ex, Ey.
    destruct (LI i j Oi Oj) as (r & ->). cbn [filter]. unfold is_pair at 1. cbn [fst snd]. rewrite !Nat.eqb_refl. cbn [andb orb]. eauto.
  - rewrite (Wp l k y x El Ek ltac:(lia) (or_intror (conj Ey Ex))). unfold worth. rewrite Elx, Ely. cbn [negb orb andb]. rewrite Ex, Ey.
    destruct (LI j i Oj Oi) as (r & ->). cbn [filter]. unfold is_pair at 1. cbn [fst snd]. rewrite !Nat.eqb_refl. cbn [andb orb]. rewrite orb_true_r. eauto.
Qed.
End IS.
