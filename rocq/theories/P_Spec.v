(** What the run of the sweep means for a user, for inputs named by their
    position. *)
Require Import List String Bool Arith Lia Permutation Sorted.
From Verif Require Import Base Scalar M_Events M_Geo M_LineOrPoint M_Splay M_Slab M_Active M_Sweep M_Crossings.
From Verif Require Import S_Geo S_Sweep P_Geo P_LineOrPoint P_Tilt P_Chain P_Tile P_Inv P_Run P_Param P_Master.
Import Datatypes.
Import ListNotations.
Local Open Scope nat_scope.

Lemma perm_sorted_eq : forall {X} (g : X -> pt) l l', Permutation l l' ->
  StronglySorted lex_lt (map g l) -> StronglySorted lex_lt (map g l') -> l = l'.
Proof.
  intros X g. induction l as [|a l IH]; intros l' P S S'.
  - apply Permutation_nil in P. auto.
  - destruct l' as [|b l']; [apply Permutation_sym, Permutation_nil in P; discriminate|].
    inversion S as [|? ? S1 F1]; subst. inversion S' as [|? ? S2 F2]; subst. rewrite Forall_forall in F1, F2.
    assert (E : a = b).
    { assert (Ia : In a (b :: l')) by (eapply Permutation_in; [exact P|left; auto]).
      assert (Ib : In b (a :: l)) by (eapply Permutation_in; [symmetry; exact P|left; auto]).
      destruct Ia as [|Ia]; [auto|]. destruct Ib as [|Ib]; [auto|].
      pose proof (F1 _ (in_map g _ _ Ib)). pose proof (F2 _ (in_map g _ _ Ia)). exfalso. lord. }
    subst b. f_equal. apply IH; auto. eapply Permutation_cons_inv; eauto.
Qed.
Lemma sorted_le_lt : forall l, StronglySorted lex_le l -> NoDup l -> StronglySorted lex_lt l.
Proof.
  intros l S. induction S as [|a l S IH F]; intros N; constructor; inversion N as [|? ? N1 N2]; subst; auto.
  rewrite Forall_forall in *. intros x I. apply lex_le_neq; auto. intros ->. auto.
Qed.
Lemma sorted_eq : forall l l', (forall x, In x l <-> In x l') -> StronglySorted lex_lt l -> StronglySorted lex_lt l' -> l = l'.
Proof.
  intros l l' E S S'. apply (perm_sorted_eq (fun x => x)); rewrite ?map_id; auto.
  apply NoDup_Permutation; auto using ssorted_NoDup.
Qed.

Section Spec.
Variables (ln : nat -> line) (n : nat).
Notation geo := (geo ln).
Notation V := (cands ln n).
Lemma geo_pts : forall c r, pts (geo c) r <-> on_line (ln c) r.
Proof. intros c r. destruct (lop_of_line_spec (ln c)) as [_ W]. apply W. Qed.
Lemma geo_point : forall c p, geo c = Point p -> l_start (ln c) = p /\ l_end (ln c) = p.
Proof.
  intros c p E. split.
  - pose proof (proj2 (geo_pts c _) (on_seg_start _ _)) as A. rewrite E in A. exact A.
  - pose proof (proj2 (geo_pts c _) (on_seg_end _ _)) as A. rewrite E in A. exact A.
Qed.
Lemma geo_line : forall c a z, geo c = Line a z -> ends (ln c) a z /\ lex_lt a z.
Proof.
  intros c a z E. pose proof (geo_lt ln c a z E) as L. split; auto. unfold geo, lop_of_line in E. split; [left; auto|].
  destruct (pcmp (l_start (ln c)) (l_end (ln c))); inversion E; auto.
Qed.
Lemma ends_geo : forall c a z, ends (ln c) a z -> (lex_lt a z /\ geo c = Line a z) \/ (a = z /\ geo c = Point a).
Proof.
  intros c a z [L E]. destruct (geo c) as [p|a' z'] eqn:G.
  - right. destruct (geo_point c p G) as [E1 E2]. destruct E as [[-> ->]|[-> ->]]; split; congruence.
  - left. destruct (geo_line c a' z' G) as [[_ E'] L']. destruct E as [[-> ->]|[-> ->]], E' as [[-> ->]|[-> ->]]; auto; exfalso; lord.
Qed.
Lemma end_in_V : forall c r, c < n -> is_end_of (ln c) r -> In r V.
Proof.
  intros c r L E. destruct (geo c) as [p|a z] eqn:G.
  - destruct (geo_point c p G) as [E1 E2]. apply (cands0 ln n c); auto. rewrite G. f_equal. destruct E; congruence.
  - destruct (geo_line c a z G) as [[_ E'] _]. destruct (cands1 ln n c a z L G). destruct E as [->| ->], E' as [[-> ->]|[-> ->]]; auto.
Qed.
Lemma common_in_V : forall c c' r, c < n -> c' < n -> only_common (ln c) (ln c') r -> In r V.
Proof.
  intros c c' r L L' U. assert (U' : forall r', pts (geo c) r' /\ pts (geo c') r' <-> r' = r) by (intros r'; rewrite !geo_pts; apply U).
  destruct (proj2 (U' r) eq_refl) as [R R'].
  destruct (geo c) as [p|a z] eqn:G; [simpl in R; subst; apply (cands0 ln n c); auto|].
  destruct (geo c') as [p|a' z'] eqn:G'; [simpl in R'; subst; apply (cands0 ln n c'); auto|].
  eapply (cands2 ln n c c'); eauto. intros r' A B. apply U'. auto.
Qed.
Lemma V_event : forall v, In v V <-> event_point (map ln (seq 0 n)) v.
Proof.
  intros v. assert (M : forall l, In l (map ln (seq 0 n)) <-> exists c, c < n /\ l = ln c).
  { intros l. rewrite in_map_iff. split; [intros (c & <- & I); apply in_seq in I; exists c; split; [lia|auto]|intros (c & L & ->); exists c; split; auto; apply in_seq; lia]. }
  split.
  - intros I. apply cands3 in I as [(c & L & G)|[(c & a & z & L & G & E)|(c & c' & a & z & a' & z' & L & L' & G & G' & O & O' & U)]].
    + left. exists (ln c). split; [apply M; eauto|]. destruct (geo_point c v G). left; auto.
    + left. exists (ln c). split; [apply M; eauto|]. destruct (geo_line c a z G) as [[_ E'] _].
      destruct E as [->| ->], E' as [[-> ->]|[-> ->]]; unfold is_end_of; auto.
    + right. exists (ln c), (ln c'). split; [apply M; eauto|]. split; [apply M; eauto|]. intros r. rewrite <- !geo_pts, G, G'. simpl.
      split; [intros [A B]; auto|intros ->; auto].
  - intros [(l & I & E)|(l & l' & I & I' & U)].
    + apply M in I as (c & L & ->). apply (end_in_V c); auto.
    + apply M in I as (c & L & ->). apply M in I' as (c' & L' & ->). apply (common_in_V c c'); auto.
Qed.

Variable ys : output nat.
Hypothesis G : ygood V ys.
Hypothesis F : final ln n V (List.concat (map snd ys)).
Notation log := (List.concat (map snd ys)).

Lemma log_in : forall x, In x log <-> exists o, In (crpt x, o) ys /\ In x o.
Proof.
  intros x. rewrite in_concat. split.
  - intros (o & I & J). apply in_map_iff in I as ([p o'] & E & I). simpl in E. subst o'. exists o.
    rewrite (yg_pt _ _ G p o x I J). auto.
  - intros (o & I & J). exists o. split; auto. apply in_map_iff. exists (crpt x, o). auto.
Qed.
Lemma hit : forall c v, c < n -> In v V -> pts (geo c) v -> exists o, In (v, o) ys /\ meeting c o.
Proof.
  intros c v L Iv P. destruct F as [T St Pt Lg Fi]. destruct (geo c) as [p|a z] eqn:E.
  - simpl in P. subst v. assert (I : In (c, p) (ptlog log)) by (eapply Permutation_in; [symmetry; exact Pt|apply PTS_in; auto]).
    unfold ptlog in I. apply in_flat_map in I as (x & Ix & I). apply log_in in Ix as (o & I1 & I2).
    destruct (cr_line x) as [q|] eqn:Ex; [|destruct I]. destruct I as [I|[]]. injection I as <- <-.
    exists o. unfold crpt in I1. rewrite Ex in I1. split; auto. exists x. auto.
  - simpl in P. specialize (T c a z L E). pose proof (geo_lt ln c a z E) as Laz. destruct (on_seg_between _ _ _ Laz P) as [B1 B2].
    assert (Hq : exists x y, In (x, y) (ended c log) /\ lex_le x v /\ lex_le v y).
    { destruct B2 as [B2| ->].
      - destruct (tile_cover_l _ _ _ _ _ T B1 B2) as (x & y & I & A1 & A2). exists x, y. split; [auto|]. split; [auto|left; auto].
      - destruct (tile_cover_r _ _ _ _ _ T Laz (lex_le_refl z)) as (x & y & I & A1 & A2). exists x, y. split; [auto|]. split; [left; auto|auto]. }
    destruct Hq as (x & y & I & A1 & A2).
    destruct (tile_piece _ _ _ _ _ _ T I) as (Lxy & Vx & Vy & Ox & Oy & _).
    assert (D : v = x \/ v = y).
    { destruct A1 as [A1|A1]; [|auto]. destruct A2 as [A2|A2]; [|auto]. exfalso.
      apply (Fi c x y v I Iv); auto. eapply on_seg_mid; eauto; left; auto. }
    destruct D as [-> | ->].
    + assert (Is : In x (started c log)) by (eapply Permutation_in; [symmetry; apply St|]; apply in_map_iff; exists (x, y); auto).
      unfold started in Is. apply in_flat_map in Is as (k & Ik & J). destruct (Nat.eqb_spec (cr_cross k) c) as [Ec|]; [|destruct J].
      destruct (cr_left k) eqn:El; simpl in J; [|destruct J]. destruct J as [J|[]]. pose proof (Lg k Ik) as (_ & Gk & _).
      apply log_in in Ik as (o & I1 & I2). exists o. split; [|exists k; auto]. unfold crpt in I1. rewrite El in I1.
      destruct (cr_line k); simpl in J; subst; auto.
    + unfold ended in I. apply in_flat_map in I as (k & Ik & J). destruct (Nat.eqb_spec (cr_cross k) c) as [Ec|]; [|destruct J].
      destruct (cr_left k) eqn:El; simpl in J; [destruct J|]. apply log_in in Ik as (o & I1 & I2). exists o. split; [|exists k; auto].
      unfold crpt in I1. rewrite El in I1. destruct (cr_line k); simpl in J; [destruct J|]. destruct J as [J|[]]. injection J as <- <-. auto.
Qed.

(** The points that are yielded. *)
Lemma yielded : forall p, In p (map fst ys) <-> event_point (map ln (seq 0 n)) p.
Proof.
  intros p. rewrite <- V_event. split.
  - intros I. apply in_map_iff in I as ([q o] & E & I). simpl in E. subst q. eapply yg_V; eauto.
  - intros I. assert (Q : exists c, c < n /\ pts (geo c) p).
    { pose proof (cands3 ln n p I) as [(c & L & E)|[(c & a & z & L & E & D)|(c & c' & a & z & a' & z' & L & L' & E & E' & O & _)]]; exists c; (split; [auto|]); rewrite E; simpl; auto.
      destruct D as [-> | ->]; [apply on_seg_start|apply on_seg_end]. }
    destruct Q as (c & L & P). destruct (hit c p L I P) as (o & J & _). apply in_map_iff. exists (p, o). auto.
Qed.

(** Overlaps end at ends of inputs. *)
Lemma stretch_V : forall c c' r1 r2, c < n -> c' < n -> common_stretch (ln c) (ln c') r1 r2 -> In r1 V /\ In r2 V.
Proof.
  intros c c' r1 r2 L L' [Lr U]. assert (U' : forall r', pts (geo c) r' /\ pts (geo c') r' <-> on_seg r1 r2 r') by (intros r'; rewrite !geo_pts; apply U).
  destruct (proj2 (U' r1) (on_seg_start _ _)) as [R1 R1']. destruct (proj2 (U' r2) (on_seg_end _ _)) as [R2 R2'].
  destruct (geo c) as [p|a z] eqn:E; [simpl in *; subst; exfalso; lord|]. destruct (geo c') as [p|a' z'] eqn:E'; [simpl in *; subst; exfalso; lord|].
  simpl in *. destruct (cands1 ln n c a z L E) as [Va Vz]. destruct (cands1 ln n c' a' z' L' E') as [Va' Vz'].
  pose proof (geo_lt ln c a z E) as La. pose proof (geo_lt ln c' a' z' E') as La'.
  destruct (on_seg_between _ _ _ La R1), (on_seg_between _ _ _ La R2), (on_seg_between _ _ _ La' R1'), (on_seg_between _ _ _ La' R2').
  assert (Co : forall r, cross a z r = 0%Qc <-> cross a' z' r = 0%Qc).
  { intros r. rewrite <- (collinear_same r1 r2 a z r), <- (collinear_same r1 r2 a' z' r); auto using lex_lt_neq; try reflexivity.
    - apply (collinear_same a' z' r1 r2 a'); auto using lex_lt_neq, on_seg_cross. unfold cross; ring.
    - apply (collinear_same a' z' r1 r2 z'); auto using lex_lt_neq, on_seg_cross. unfold cross; ring.
    - apply (collinear_same a z r1 r2 a); auto using lex_lt_neq, on_seg_cross. unfold cross; ring.
    - apply (collinear_same a z r1 r2 z); auto using lex_lt_neq, on_seg_cross. unfold cross; ring. }
  assert (K : forall r, cross a z r = 0%Qc -> lex_le a r -> lex_le r z -> lex_le a' r -> lex_le r z' -> lex_le r1 r /\ lex_le r r2).
  { intros r C1 M1 M2 M3 M4. apply on_seg_between; auto. apply U'. split; apply on_seg_iff; auto. split; auto. apply Co; auto. }
  assert (Ca : cross a z a = 0%Qc) by (unfold cross; ring). assert (Cz : cross a z z = 0%Qc) by (unfold cross; ring).
  assert (Ca' : cross a z a' = 0%Qc) by (apply Co; unfold cross; ring). assert (Cz' : cross a z z' = 0%Qc) by (apply Co; unfold cross; ring).
  split.
  - destruct (lex_le_dec a a') as [Q|Q].
    + assert (r1 = a') as ->; [|auto]. destruct (K a' Ca'); lord.
    + assert (r1 = a) as ->; [|auto]. destruct (K a Ca); lord.
  - destruct (lex_le_dec z z') as [Q|Q].
    + assert (r2 = z) as ->; [|auto]. destruct (K z Cz); lord.
    + assert (r2 = z') as ->; [|auto]. destruct (K z' Cz'); lord.
Qed.

(** Nothing crosses the inside of a finished piece. *)
Lemma fine : forall c c' p q r, In (p, q) (ended c log) -> c < n -> c' < n -> on_seg p q r -> lex_lt p r -> lex_lt r q ->
  on_line (ln c') r -> forall r', on_seg p q r' -> on_line (ln c') r'.
Proof.
  intros c c' p q r I L L' O L1 L2 O' r' O2. apply geo_pts. apply geo_pts in O'. pose proof F as [T St Pt Lg Fi].
  destruct (geo c) as [p0|a z] eqn:E.
  { exfalso. unfold ended in I. apply in_flat_map in I as (k & Ik & J). destruct (Nat.eqb_spec (cr_cross k) c) as [Ec|]; [|destruct J].
    destruct (cr_left k) eqn:El; simpl in J; [destruct J|]. pose proof (Lg k Ik) as (_ & Gk & _).
    destruct (cr_line k); simpl in J; [destruct J|]. destruct Gk as (a & z & Gk & _). rewrite Ec, E in Gk. discriminate. }
  specialize (T c a z L E). pose proof (geo_lt ln c a z E) as La. destruct (tile_piece _ _ _ _ _ _ T I) as (Lpq & Vp & Vq & Op & Oq & _).
  assert (Or : on_seg a z r) by exact (on_seg_convex a z p q r Op Oq O).
  destruct (geo c') as [v|a' z'] eqn:E'.
  { simpl in O'. subst v. exfalso. apply (Fi c p q r I); auto. apply (cands0 ln n c'); auto. }
  simpl in *. pose proof (geo_lt ln c' a' z' E') as La'. destruct (cands1 ln n c' a' z' L' E') as [Va' Vz'].
  destruct (Qc_eq_dec (cross a z a') (cross a z z')) as [Eq|Ne].
  2:{ exfalso. apply (Fi c p q r I); auto. eapply (cands2 ln n c c'); eauto. intros s S1 S2.
      apply (common_unique a z a' z' Ne); apply on_seg_cross; auto. }
  assert (Ca' : cross a z a' = 0%Qc).
  { destruct (meets_straddle a z a' z' r O' (on_seg_cross _ _ _ Or)) as [[? ?]|[? ?]]; rewrite <- Eq in *; qcl. }
  assert (Cz' : cross a z z' = 0%Qc) by congruence.
  destruct (on_seg_between _ _ _ La' O') as [B1 B2].
  assert (Cpq : forall s, cross a z s = 0%Qc -> cross p q s = 0%Qc).
  { intros s Z. apply (collinear_same a z p q s); auto using lex_lt_neq, on_seg_cross. }
  assert (D1 : lex_le a' p).
  { destruct (lex_le_dec a' p) as [|Q]; auto. exfalso. destruct B1 as [B1| ->]; [|apply (Fi c p q r I); auto].
    apply (Fi c p q a' I Va'); auto; [|lord]. apply on_seg_iff; auto. split; [auto|split; lord]. }
  assert (D2 : lex_le q z').
  { destruct (lex_le_dec q z') as [|Q]; auto. exfalso. destruct B2 as [B2| <-]; [|apply (Fi c p q r I); auto].
    apply (Fi c p q z' I Vz'); auto; [|lord]. apply on_seg_iff; auto. split; [auto|split; lord]. }
  destruct (on_seg_between _ _ _ Lpq O2). apply on_seg_iff; auto. split; [|split; lord].
  apply (collinear_same a z a' z' r'); auto using lex_lt_neq. apply on_seg_cross. exact (on_seg_convex a z p q r' Op Oq O2).
Qed.

(** Order. *)
Lemma log_sorted : StronglySorted lex_le (map crpt log).
Proof.
  destruct G as [S _ _ Pt _]. clear G F. induction ys as [|[p o] l IH]; [constructor|].
  cbn [map snd fst List.concat] in *. inversion S as [|? ? S1 F1]; subst. rewrite Forall_forall in F1.
  assert (IH' : StronglySorted lex_le (map crpt (List.concat (map snd l)))) by (apply IH; auto; intros q u x I J; apply (Pt q u x); auto; right; auto).
  assert (Po : forall x, In x o -> crpt x = p) by (intros x I; apply (Pt p o); auto; left; auto).
  assert (Lo : forall q, In q (map crpt (List.concat (map snd l))) -> lex_le p q).
  { intros q I. apply in_map_iff in I as (x & <- & I). apply in_concat in I as (u & Iu & I). apply in_map_iff in Iu as ([q u'] & E & Iu).
    simpl in E. subst u'. rewrite (Pt q u x) by (auto; right; auto). left. apply F1. apply in_map_iff. exists (q, u). auto. }
  rewrite map_app. clear S S1 F1 IH. induction o as [|x o IH]; [exact IH'|]. cbn [map app]. constructor.
  - apply IH; [intros q u y [J|J] I|intros y I; apply Po; right; auto]; [|apply (Pt q u y); auto; right; auto].
    injection J as <- <-. apply Po. right; auto.
  - apply Forall_forall. intros q I. rewrite (Po x) by (left; auto). apply in_app_iff in I as [I|I]; [|auto].
    apply in_map_iff in I as (y & <- & I). rewrite (Po y) by (right; auto). apply lex_le_refl.
Qed.
Lemma flat_sorted : forall {X} (g : X -> pt) (h : crossing -> list X) l,
  (forall x y, In x l -> In y (h x) -> g y = crpt x) -> (forall x, List.length (h x) <= 1) ->
  StronglySorted lex_le (map crpt l) -> StronglySorted lex_le (map g (flat_map h l)).
Proof.
  intros X g h l. induction l as [|x l IH]; intros E L S; [constructor|]. cbn [flat_map map] in *. inversion S as [|? ? S1 F1]; subst.
  assert (IH' : StronglySorted lex_le (map g (flat_map h l))) by (apply IH; auto; intros; apply E; auto; right; auto).
  specialize (L x). destruct (h x) as [|y [|]] eqn:Eh; cbn [app List.length] in *; [exact IH'| |lia]. cbn [map]. constructor; auto.
  rewrite Forall_forall in *. intros q I. apply in_map_iff in I as (w & <- & I). apply in_flat_map in I as (k & Ik & I).
  rewrite (E k w) by (auto; right; auto). rewrite (E x y) by (try rewrite Eh; left; auto). apply F1. apply in_map; auto.
Qed.
Lemma ended_sorted : forall c, StronglySorted lex_le (map snd (ended c log)).
Proof.
  intros c. unfold ended. apply flat_sorted; [|intros x; destruct (_ && _); [destruct (cr_line x)|]; simpl; lia|apply log_sorted].
  intros x [p q] _ I. destruct (cr_cross x =? c); [|destruct I]. unfold crpt. destruct (cr_left x); [destruct I|]. simpl in I.
  destruct (cr_line x); [destruct I|]. destruct I as [I|[]]. injection I as <- <-. reflexivity.
Qed.
Lemma started_sorted : forall c, StronglySorted lex_le (started c log).
Proof.
  intros c. rewrite <- (map_id (started c log)). unfold started.
  apply flat_sorted; [|intros x; destruct (_ && _); simpl; lia|apply log_sorted].
  intros x p _ I. destruct (cr_cross x =? c); [|destruct I]. unfold crpt. destruct (cr_left x); [|destruct I]. simpl in I.
  destruct I as [<-|[]]. destruct (cr_line x); reflexivity.
Qed.
Lemma steps_consecutive : forall xs a, ssorted (a :: xs) -> consecutive a (last xs a) (map (fun pq => Line (fst pq) (snd pq)) (steps a xs)).
Proof.
  induction xs as [|x xs IH]; intros a S; [constructor|]. rewrite last_cons. cbn [steps map fst snd].
  inversion S as [|? ? S1 F1]; subst. rewrite Forall_forall in F1. constructor; [apply F1; left; auto|apply IH; auto].
Qed.
Lemma ended_steps : forall c a z, c < n -> geo c = Line a z ->
  exists xs, ended c log = steps a xs /\ ssorted (a :: xs) /\ last xs a = z.
Proof.
  intros c a z L E. pose proof (fi_tile _ _ _ _ F c a z L E) as T. pose proof (tile_NoDup_snd _ _ _ _ T) as ND.
  destruct T as (xs & S & La & _ & P). exists xs. split; [|auto].
  symmetry. apply (perm_sorted_eq snd); auto.
  - rewrite steps_snd. inversion S; auto.
  - apply sorted_le_lt; auto. apply ended_sorted.
Qed.
Lemma started_eq : forall c a z, c < n -> geo c = Line a z -> started c log = map fst (ended c log).
Proof.
  intros c a z L E. pose proof (fi_start _ _ _ _ F c) as P. pose proof (fi_tile _ _ _ _ F c a z L E) as T.
  pose proof (tile_NoDup_fst _ _ _ _ T) as ND. destruct (ended_steps c a z L E) as (xs & Es & S & La).
  apply (perm_sorted_eq (fun x => x)); rewrite ?map_id; auto.
  - apply sorted_le_lt; [apply started_sorted|]. eapply Permutation_NoDup; [symmetry; exact P|auto].
  - rewrite Es. pose proof (steps_fst xs a) as Q. rewrite Q in S. apply ssorted_app in S as [S _]. exact S.
Qed.
Lemma ending_ended : forall c l, (forall x, In x l -> cr_cross x = c -> is_line (cr_line x) = true) ->
  ending (filter (fun x => cr_cross x =? c) l) = map (fun pq => Line (fst pq) (snd pq)) (ended c l).
Proof.
  intros c l. induction l as [|x l IH]; intros A; [reflexivity|]. cbn [filter ended flat_map].
  assert (IH' := IH (fun y I => A y (or_intror I))). destruct (Nat.eqb_spec (cr_cross x) c) as [Ec|]; cbn [andb]; [|exact IH'].
  specialize (A x (or_introl eq_refl) Ec). unfold ending in *. cbn [filter]. destruct (cr_left x); cbn [negb]; [exact IH'|].
  cbn [map]. destruct (cr_line x); [discriminate|]. cbn [app map fst snd]. f_equal. exact IH'.
Qed.
Lemma starting_started : forall c l, map lop_first (starting (filter (fun x => cr_cross x =? c) l)) = started c l.
Proof.
  intros c l. induction l as [|x l IH]; [reflexivity|]. cbn [filter started flat_map].
  destruct (Nat.eqb_spec (cr_cross x) c) as [Ec|]; cbn [andb]; [|exact IH].
  unfold starting in *. cbn [filter]. destruct (cr_left x); [|exact IH]. cbn [map app]. f_equal. exact IH.
Qed.

(** A piece reported at its start covers the piece reported at its end. *)
Definition begins (l : line) (s g : lop) : Prop :=
  exists p q y, s = Line p y /\ g = Line p q /\ lex_lt p q /\ lex_le q y /\ on_line l p /\ on_line l y.

Lemma pieces : forall c a z, c < n -> ends (ln c) a z -> lex_lt a z ->
  consecutive a z (ending (crossings_of c ys)) /\
  Forall2 (begins (ln c)) (starting (crossings_of c ys)) (ending (crossings_of c ys)).
Proof.
  intros c a z L E La. destruct (ends_geo c a z E) as [[_ Gc]|[-> _]]; [|exfalso; lord].
  pose proof F as [T St Pt Lg Fi].
  assert (AL : forall x, In x log -> cr_cross x = c -> is_line (cr_line x) = true).
  { intros x I Ex. destruct (Lg x I) as (_ & Q & _). destruct (cr_line x); [|reflexivity]. destruct Q as [Q _]. rewrite Ex, Gc in Q. discriminate. }
  unfold crossings_of. destruct (ended_steps c a z L Gc) as (xs & Es & S & Lz).
  pose proof (started_eq c a z L Gc) as Ss. pose proof (starting_started c log) as Sg.
  rewrite (ending_ended c log AL). split.
  - rewrite Es, <- Lz. apply steps_consecutive. auto.
  - assert (B : forall s, In s (starting (filter (fun x => cr_cross x =? c) log)) -> exists p y, s = Line p y /\ lex_lt p y /\ In y V /\ on_seg a z p /\ on_seg a z y).
    { intros s I. unfold starting in I. apply in_map_iff in I as (x & <- & I). apply filter_In in I as [I Il]. apply filter_In in I as [I Ic].
      apply Nat.eqb_eq in Ic. pose proof (Lg x I) as (_ & Q & _). specialize (AL x I Ic). destruct (cr_line x) as [|p y]; [discriminate|].
      destruct Q as (a0 & z0 & Q & Q1 & Q2 & Q3 & Q4 & Q5). rewrite Ic, Gc in Q. injection Q as <- <-. exists p, y. auto. }
    rewrite Ss in Sg.
    assert (I0 : forall pq, In pq (ended c log) -> In pq (ended c log)) by auto.
    revert Sg B I0. generalize (starting (filter (fun x => cr_cross x =? c) log)) as ss. generalize (ended c log) at 1 2 4 as es.
    induction es as [|[p q] es IH]; intros ss Q B I0; destruct ss as [|s ss]; try discriminate; [constructor|].
    cbn [map] in *. injection Q as Q1 Q2. constructor; [|apply IH; auto; intros; [apply B|apply I0]; right; auto].
    destruct (B s (or_introl eq_refl)) as (p' & y & -> & Lpy & Vy & Op & Oy). simpl in Q1. subst p'.
    destruct (tile_piece _ _ _ _ _ _ (T c a z L Gc) (I0 _ (or_introl eq_refl))) as (Lpq & Vp & Vq & _ & Oq & _).
    exists p, q, y. split; [auto|]. split; [auto|]. split; [auto|]. split.
    + destruct (lex_le_dec q y) as [|Lyq]; auto. exfalso. apply (Fi c p q y (I0 _ (or_introl eq_refl)) Vy); auto.
      eapply on_seg_mid; eauto; left; auto.
    + split; apply geo_pts; rewrite Gc; auto.
Qed.
Lemma one_point : forall c a, c < n -> ends (ln c) a a -> exists x, crossings_of c ys = [x] /\ cr_line x = Point a /\ cr_left x = false.
Proof.
  intros c a L E. destruct (ends_geo c a a E) as [[Q _]|[_ Gc]]; [exfalso; lord|]. pose proof F as [T St Pt Lg Fi].
  assert (A1 : forall l, (forall x, In x l -> In x log) -> filter (fun y => fst y =? c) (ptlog l) = map (fun x => (c, a)) (filter (fun x => cr_cross x =? c) l)).
  { induction l as [|x l IH]; intros S; [reflexivity|]. cbn [ptlog flat_map filter]. fold (ptlog l). rewrite filter_app, IH by (intros; apply S; right; auto).
    destruct (Lg x (S x (or_introl eq_refl))) as (_ & Q & _).
    destruct (Nat.eqb_spec (cr_cross x) c) as [Ec|Ec].
    - rewrite Ec in Q. destruct (cr_line x) as [p|]; [|destruct Q as (? & ? & Q & _); rewrite Gc in Q; discriminate].
      destruct Q as [Q _]. rewrite Gc in Q. injection Q as <-. cbn [filter fst]. rewrite Ec, Nat.eqb_refl. reflexivity.
    - destruct (cr_line x) as [p|]; [|reflexivity]. cbn [filter fst]. apply Nat.eqb_neq in Ec. rewrite Ec. reflexivity. }
  assert (A2 : List.length (filter (fun y => fst y =? c) (PTS ln n)) = 1).
  { unfold PTS. replace n with (c + S (n - S c)) by lia. rewrite seq_app, flat_map_app, filter_app, app_length. cbn [seq flat_map plus]. rewrite Gc.
    cbn [app filter fst]. rewrite Nat.eqb_refl. cbn [List.length].
    assert (Z : forall l, ~ In c l -> filter (fun y => fst y =? c) (flat_map (fun c0 => match geo c0 with Point p => [(c0, p)] | Line _ _ => [] end) l) = []).
    { induction l as [|k l IH]; intros N; [reflexivity|]. cbn [flat_map]. rewrite filter_app, IH by (intros I; apply N; right; auto). rewrite app_nil_r.
      destruct (geo k); [|reflexivity]. cbn [filter fst]. destruct (Nat.eqb_spec k c) as [->|]; [exfalso; apply N; left; auto|reflexivity]. }
    rewrite !Z; [reflexivity|rewrite in_seq; lia|rewrite in_seq; lia]. }
  assert (PF : forall (l l' : list (nat * pt)), Permutation l l' -> Permutation (filter (fun y => fst y =? c) l) (filter (fun y => fst y =? c) l')).
  { intros l l' P. induction P as [|[k v] l l' P IH|[k v] [k' v'] l|l l' l'' P1 IH1 P2 IH2]; cbn [filter fst]; auto.
    - destruct (k =? c); auto.
    - destruct (k =? c), (k' =? c); auto. constructor.
    - eapply perm_trans; eauto. }
  pose proof (Permutation_length (PF _ _ Pt)) as A3. rewrite A2, A1, map_length in A3 by auto.
  unfold crossings_of. destruct (filter _ log) as [|x [|]] eqn:Ef; try discriminate. exists x. split; [auto|].
  assert (I : In x (filter (fun x => cr_cross x =? c) log)) by (rewrite Ef; left; auto). apply filter_In in I as [I Ec]. apply Nat.eqb_eq in Ec.
  destruct (Lg x I) as (_ & Q & _). rewrite Ec in Q. destruct (cr_line x) as [p|]; [|destruct Q as (? & ? & Q & _); rewrite Gc in Q; discriminate].
  destruct Q as [Q [Q' _]]. rewrite Gc in Q. injection Q as <-. auto.
Qed.
(** Where a crossing is reported, and of what. *)
Lemma sound : forall p o x, In (p, o) ys -> In x o -> cr_cross x < n /\
  (forall r, on_piece (cr_line x) r -> on_line (ln (cr_cross x)) r) /\
  (if cr_left x then starts_at (cr_line x) p else ends_at (cr_line x) p) /\ on_line (ln (cr_cross x)) p.
Proof.
  intros p o x I J. assert (K : In x log) by (apply in_concat; exists o; split; auto; apply in_map_iff; exists (p, o); auto).
  destruct (fi_log _ _ _ _ F x K) as (L & Q & _). pose proof (yg_pt _ _ G p o x I J) as E. unfold crpt in E. split; auto.
  destruct (cr_line x) as [v|u v].
  - destruct Q as [Q [El _]]. subst v. rewrite El. split; [|split; [reflexivity|apply geo_pts; rewrite Q; reflexivity]].
    intros r R. apply geo_pts. rewrite Q. exact R.
  - destruct Q as (a & z & Q & Luv & _ & _ & O1 & O2). split; [|split].
    + intros r R. apply geo_pts. rewrite Q. simpl in *. exact (on_seg_convex a z u v r O1 O2 R).
    + destruct (cr_left x); subst p; split; auto.
    + apply geo_pts. rewrite Q. simpl. destruct (cr_left x); subst p; auto.
Qed.
End Spec.
