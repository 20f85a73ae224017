(** The invariant of the sweep: what storage, event queue and reports say about
    the input. *)
Require Import List String Bool Arith Lia Permutation Sorted.
From Verif Require Import Base Scalar M_Events M_Geo M_LineOrPoint M_Splay M_Slab M_Active M_Sweep.
From Verif Require Import S_Geo P_Geo P_LineOrPoint P_Slab P_Active P_Chain P_Bundle P_Tile P_Heap P_Order.
Import Datatypes.
Import ListNotations.
Local Open Scope nat_scope.

Notation bundle := (bundle nat).
Notation crossing := (crossing nat).
Notation sweep := (sweep nat).

(** ** What a log of reports says *)
Definition ended (c : nat) (log : list crossing) : list (pt * pt) :=
  flat_map (fun x => if (cr_cross x =? c) && negb (cr_left x)
                     then match cr_line x with Line p q => [(p, q)] | Point _ => [] end else []) log.
Definition started (c : nat) (log : list crossing) : list pt :=
  flat_map (fun x => if (cr_cross x =? c) && cr_left x then [lop_first (cr_line x)] else []) log.
Definition ptlog (log : list crossing) : list (nat * pt) :=
  flat_map (fun x => match cr_line x with Point p => [(cr_cross x, p)] | Line _ _ => [] end) log.
Definition current (c : nat) (bs : list bundle) : list (pt * pt) :=
  flat_map (fun b => map (fun _ => (b_p b, b_q b)) (filter (fun m => m_c m =? c) (b_mem b))) bs.
(** The point at which an entry is reported. *)
Definition crpt (x : crossing) : pt :=
  match cr_line x with Point p => p | Line p q => if cr_left x then p else q end.

Lemma ended_app : forall c l l', ended c (l ++ l') = ended c l ++ ended c l'.
Proof. intros. apply flat_map_app. Qed.
Lemma started_app : forall c l l', started c (l ++ l') = started c l ++ started c l'.
Proof. intros. apply flat_map_app. Qed.
Lemma ptlog_app : forall l l', ptlog (l ++ l') = ptlog l ++ ptlog l'.
Proof. intros. apply flat_map_app. Qed.
Lemma current_app : forall c l l', current c (l ++ l') = current c l ++ current c l'.
Proof. intros. apply flat_map_app. Qed.
Lemma current_cons : forall c b l, current c (b :: l) = map (fun _ => (b_p b, b_q b)) (filter (fun m => m_c m =? c) (b_mem b)) ++ current c l.
Proof. reflexivity. Qed.
Lemma current_perm : forall c l l', Permutation l l' -> Permutation (current c l) (current c l').
Proof. intros. apply Permutation_flat_map. auto. Qed.
Lemma ended_right : forall c p q ms, ended c (reports (Line p q) false ms) = map (fun _ => (p, q)) (filter (fun m => m_c m =? c) ms).
Proof.
  intros c p q. induction ms as [|m ms IH]; [reflexivity|]. cbn [reports ended flat_map cr_cross cr_left cr_line filter negb].
  destruct (m_c m =? c); cbn [andb app map]; [f_equal|]; apply IH.
Qed.
Lemma ended_left : forall c p q ms, ended c (reports (Line p q) true ms) = [].
Proof.
  intros c p q. induction ms as [|m ms IH]; [reflexivity|]. cbn [reports ended flat_map cr_cross cr_left cr_line filter negb].
  rewrite andb_false_r. cbn [andb app map]. apply IH.
Qed.
Lemma started_left : forall c p q ms, started c (reports (Line p q) true ms) = map (fun _ => p) (filter (fun m => m_c m =? c) ms).
Proof.
  intros c p q. induction ms as [|m ms IH]; [reflexivity|]. cbn [reports started flat_map cr_cross cr_left cr_line filter lop_first].
  rewrite andb_true_r. destruct (m_c m =? c); cbn [app map]; [f_equal|]; apply IH.
Qed.
Lemma started_right : forall c p q ms, started c (reports (Line p q) false ms) = [].
Proof.
  intros c p q. induction ms as [|m ms IH]; [reflexivity|]. cbn [reports started flat_map cr_cross cr_left cr_line filter lop_first].
  rewrite andb_false_r. cbn [app map]. apply IH.
Qed.
Lemma ptlog_reports : forall p q l ms, ptlog (reports (Line p q) l ms) = [].
Proof. intros p q l. induction ms as [|m ms IH]; [reflexivity|]. cbn [reports ptlog flat_map cr_line app]. apply IH. Qed.
Lemma reports_in : forall g l (ms : list (mem nat)) x, In x (reports g l ms) ->
  cr_line x = g /\ cr_left x = l /\ exists m, In m ms /\ cr_cross x = m_c m /\ cr_first x = m_first m.
Proof.
  intros g l. induction ms as [|m ms IH]; intros x I; [destruct I|]. cbn [reports] in I. destruct I as [<-|I].
  - simpl. repeat split. exists m. split; [left; auto|auto].
  - destruct (IH x I) as (A & B & m' & D & E). repeat split; auto. exists m'. split; [right; auto|auto].
Qed.
Lemma current_in : forall c bs x y, In (x, y) (current c bs) ->
  exists b m, In b bs /\ In m (b_mem b) /\ m_c m = c /\ x = b_p b /\ y = b_q b.
Proof.
  intros c bs x y I. apply in_flat_map in I as (b & Ib & I). apply in_map_iff in I as (m & E & I).
  apply filter_In in I as [Im Ec]. apply Nat.eqb_eq in Ec. injection E as <- <-. exists b, m. auto.
Qed.
Lemma in_current : forall c bs b m, In b bs -> In m (b_mem b) -> m_c m = c -> In (b_p b, b_q b) (current c bs).
Proof.
  intros c bs b m Ib Im E. apply in_flat_map. exists b. split; auto. apply in_map_iff. exists m. split; auto.
  apply filter_In. split; auto. apply Nat.eqb_eq; auto.
Qed.
Lemma ended_in : forall c log x y, In (x, y) (ended c log) ->
  exists r, In r log /\ cr_cross r = c /\ cr_left r = false /\ cr_line r = Line x y.
Proof.
  intros c log x y I. apply in_flat_map in I as (r & Ir & I). destruct (cr_cross r =? c) eqn:E; [|destruct I].
  destruct (cr_left r) eqn:EL; [destruct I|]. cbn [andb negb] in I. destruct (cr_line r) as [p|p q] eqn:EG; [destruct I|].
  destruct I as [I|[]]. injection I as <- <-. exists r. apply Nat.eqb_eq in E. auto.
Qed.
Lemma started_in : forall c log x, In x (started c log) ->
  exists r, In r log /\ cr_cross r = c /\ cr_left r = true /\ lop_first (cr_line r) = x.
Proof.
  intros c log x I. apply in_flat_map in I as (r & Ir & I). destruct (cr_cross r =? c) eqn:E; [|destruct I].
  destruct (cr_left r) eqn:EL; [|destruct I]. destruct I as [I|[]]. exists r. apply Nat.eqb_eq in E. auto.
Qed.
Lemma ptlog_in : forall log c p, In (c, p) (ptlog log) -> exists r, In r log /\ cr_cross r = c /\ cr_line r = Point p.
Proof.
  intros log c p I. apply in_flat_map in I as (r & Ir & I). destruct (cr_line r) as [q|] eqn:E; [|destruct I].
  destruct I as [I|[]]. injection I as <- <-. exists r. auto.
Qed.

(** ** Event kinds *)
Definition isLL (ev : event) : bool := ty_eqb (ev_ty ev) LineLeft.
Definition isPL (ev : event) : bool := ty_eqb (ev_ty ev) PointLeft.
Definition evLL (b : bundle) : event := ev_LL (b_p b) b.
Definition pin : Type := nat * nat * pt.  (** key, input, place *)
Definition evPL (x : pin) : event := let '(k, _, p) := x in mkEvent p PointLeft k.
Definition pcell (x : pin) : nat * segment nat := let '(k, c, p) := x in (k, mkSeg (Point p) k c true false None false).
Definition pin_cp (x : pin) : nat * pt := let '(_, c, p) := x in (c, p).

(** A report that announces an overlap is followed by a report of the same
    piece, on the same side. *)
Fixpoint ovl_ok (l : list crossing) : Prop :=
  match l with
  | [] => True
  | x :: l' => ovl_ok l' /\
      (cr_overlap x = true -> exists y l'', l' = y :: l'' /\ cr_line y = cr_line x /\ cr_left y = cr_left x)
  end.
Lemma ovl_ok_reports : forall g l ms, ovl_ok (reports g l ms).
Proof.
  intros g l. induction ms as [|m ms IH]; [exact I|]. cbn [reports ovl_ok]. split; auto. cbn [cr_overlap].
  destruct ms as [|m' ms]; [discriminate|]. intros _. eexists _, _. split; [reflexivity|]. split; reflexivity.
Qed.
Lemma ovl_ok_app : forall l l', ovl_ok l -> ovl_ok l' -> ovl_ok (l ++ l').
Proof.
  induction l as [|x l IH]; intros l' A B; [exact B|]. destruct A as [A1 A2]. simpl. split; auto.
  intros E. destruct (A2 E) as (y & l'' & -> & R). exists y, (l'' ++ l'). split; auto.
Qed.

Section Inv.
Variables (ln : nat -> line) (n : nat) (V : list pt).

Definition geo (c : nat) : lop := lop_of_line (ln c).
(** The inputs that are points. *)
Definition PTS : list (nat * pt) :=
  flat_map (fun c => match geo c with Point p => [(c, p)] | Line _ _ => [] end) (seq 0 n).
Lemma PTS_in : forall c p, In (c, p) PTS <-> c < n /\ geo c = Point p.
Proof.
  intros c p. unfold PTS. rewrite in_flat_map. split.
  - intros (c' & I & J). apply in_seq in I. destruct (geo c') eqn:E; [|destruct J]. destruct J as [J|[]]. injection J as <- <-. split; [lia|auto].
  - intros [L E]. exists c. rewrite in_seq, E. split; [lia|left; auto].
Qed.

(** How many pieces of inputs there are. *)
Definition is_end (x : crossing) : bool := negb (cr_left x) && is_line (cr_line x).
Definition np (log : list crossing) (bs : list bundle) : nat :=
  List.length (filter is_end log) + list_sum (map (fun b => List.length (b_mem b)) bs).

Record core (mu : nat) (sl : slab (segment nat)) (heap : list event) (log : list crossing)
  (allb pend : list bundle) (pts ppend : list pin) : Prop := {
  co_srep : srep sl (flat_map bcells allb ++ map pcell pts);
  co_ne : forall b, In b allb -> b_mem b <> [];
  co_ll : Permutation (filter isLL heap) (map evLL pend);
  co_pl : Permutation (filter isPL heap) (map evPL ppend);
  co_pr : forall ev, In ev heap -> ev_ty ev = PointRight -> exists k c p, In (k, c, p) pts /\ ev = mkEvent p PointRight k;
  co_evV : forall ev, In ev heap -> In (ev_point ev) V;
  co_pp : incl ppend pts;
  co_ptin : forall k c p, In (k, c, p) pts -> c < n /\ geo c = Point p;
  co_mem : forall b m, In b allb -> In m (b_mem b) -> m_c m < n /\ exists a z, geo (m_c m) = Line a z;
  co_tile : forall c a z, c < n -> geo c = Line a z -> tile V a z (ended c log ++ current c allb);
  co_pts : Permutation (ptlog log ++ map pin_cp ppend) PTS;
  co_first : forall b m, In b allb -> In m (b_mem b) -> m_first m = true -> lop_first (geo (m_c m)) = b_p b;
  co_log : forall x, In x log -> cr_cross x < n /\
     match cr_line x with
     | Point p => geo (cr_cross x) = Point p /\ cr_left x = false /\ cr_overlap x = false
     | Line p y => exists a z, geo (cr_cross x) = Line a z /\ lex_lt p y /\ In p V /\ In y V /\ on_seg a z p /\ on_seg a z y
     end /\ (cr_first x = true -> lop_first (cr_line x) = lop_first (geo (cr_cross x)));
  co_fine : forall c p q v, In (p, q) (ended c log) -> In v V -> on_seg p q v -> lex_lt p v -> lex_lt v q -> False;
  co_mu : List.length heap + 4 * (n * List.length V) <= mu + 4 * np log allb
}.

Lemma Forall2_length : forall {X Y} (R : X -> Y -> Prop) l l', Forall2 R l l' -> List.length l = List.length l'.
Proof. intros X Y R l l' F. induction F; simpl; auto. Qed.
Lemma np_perm : forall log l l', Permutation l l' -> np log l = np log l'.
Proof.
  intros log l l' P. unfold np. f_equal. induction P; simpl; lia.
Qed.
Lemma filter_none : forall {X} (f : X -> bool) l, (forall x, In x l -> f x = false) -> filter f l = [].
Proof.
  intros X f l K. induction l as [|a l IH]; [reflexivity|]. cbn [filter]. rewrite (K a (or_introl eq_refl)). apply IH. intros; apply K; right; auto.
Qed.
Lemma np_app : forall log l bs, np (log ++ l) bs = List.length (filter is_end l) + np log bs.
Proof. intros. unfold np. rewrite filter_app, app_length. lia. Qed.
Lemma end_reports : forall p q l ms, List.length (filter is_end (reports (Line p q) l ms)) = if l then 0 else List.length ms.
Proof.
  intros p q l. induction ms as [|m ms IH]; [destruct l; reflexivity|]. cbn [reports filter]. unfold is_end at 1. cbn [cr_left cr_line is_line].
  destruct l; cbn [negb andb List.length]; [exact IH|rewrite IH; reflexivity].
Qed.
Lemma np_cons : forall log b bs, np log (b :: bs) = List.length (b_mem b) + np log bs.
Proof. intros. unfold np. simpl. lia. Qed.
Lemma core_perm : forall mu sl heap log allb allb' pend pts ppend, Permutation allb allb' ->
  core mu sl heap log allb pend pts ppend -> core mu sl heap log allb' pend pts ppend.
Proof.
  intros mu sl heap log allb allb' pend pts ppend P [A1 A2 A3 A4 A5 A6 A7 A8 A9 A10 A11 A12 A13 A14 A15].
  assert (Q : forall b, In b allb' -> In b allb) by (intros b; apply Permutation_in; symmetry; auto).
  constructor; eauto.
  - eapply srep_perm; [|exact A1]. apply Permutation_app_tail. apply Permutation_flat_map. auto.
  - intros c a z L G. eapply tile_perm; [|apply (A10 c a z L G)]. apply Permutation_app_head. apply current_perm. auto.
  - rewrite <- (np_perm log _ _ P). auto.
Qed.
(** There are at most so many pieces. *)
Lemma count_bound : forall k n0 (L : list nat), (forall x, In x L -> x < n0) ->
  (forall c, c < n0 -> List.length (filter (fun x => x =? c) L) <= k) -> List.length L <= n0 * k.
Proof.
  intros k n0. induction n0 as [|n0 IH]; intros L HL HC.
  - destruct L as [|x L]; [auto|]. specialize (HL x (or_introl eq_refl)). lia.
  - assert (E : List.length L = List.length (filter (fun x => x =? n0) L) + List.length (filter (fun x => negb (x =? n0)) L)).
    { clear. induction L as [|x L IH]; [reflexivity|]. cbn [filter]. destruct (x =? n0); cbn [negb List.length]; lia. }
    pose proof (HC n0 (Nat.lt_succ_diag_r n0)). rewrite E.
    assert (List.length (filter (fun x => negb (x =? n0)) L) <= n0 * k); [|simpl; lia].
    apply IH.
    + intros x Hx. apply filter_In in Hx as [I Q]. specialize (HL x I). apply negb_true_iff, Nat.eqb_neq in Q. lia.
    + intros c Lc. specialize (HC c). assert (Q : List.length (filter (fun x => x =? c) (filter (fun x => negb (x =? n0)) L)) = List.length (filter (fun x => x =? c) L)).
      { clear - Lc. induction L as [|x L IH]; [reflexivity|]. cbn [filter]. destruct (Nat.eqb_spec x n0), (Nat.eqb_spec x c); cbn [negb filter List.length]; auto.
        - lia.
        - destruct (Nat.eqb_spec x c); [|contradiction]. cbn [List.length]. auto.
        - destruct (Nat.eqb_spec x c); [contradiction|]. auto. }
      rewrite Q. apply HC. lia.
Qed.
Definition owners (log : list crossing) (bs : list bundle) : list nat :=
  map cr_cross (filter is_end log) ++ flat_map (fun b => map m_c (b_mem b)) bs.
Lemma owners_length : forall log bs, List.length (owners log bs) = np log bs.
Proof.
  intros. unfold owners, np. rewrite app_length, map_length. f_equal. induction bs as [|b bs IH]; [reflexivity|].
  cbn [flat_map map list_sum fold_right]. rewrite app_length, map_length, IH. reflexivity.
Qed.
Lemma owners_count : forall c log bs, List.length (filter (fun x => x =? c) (owners log bs)) = List.length (ended c log ++ current c bs).
Proof.
  intros c log bs. unfold owners. rewrite filter_app, !app_length. f_equal.
  - induction log as [|x log IH]; [reflexivity|]. cbn [filter ended flat_map]. unfold is_end at 1.
    destruct (cr_left x), (cr_line x); cbn [negb andb is_line map filter]; rewrite ?andb_false_r, ?andb_true_r; cbn [app]; auto.
    + destruct (cr_cross x =? c); cbn [app]; auto.
    + destruct (cr_cross x =? c); cbn [app List.length]; auto.
  - induction bs as [|b bs IH]; [reflexivity|]. cbn [flat_map current]. rewrite filter_app, !app_length, IH, map_length. f_equal.
    induction (b_mem b) as [|m ms IHm]; [reflexivity|]. cbn [map filter]. destruct (m_c m =? c); cbn [List.length]; auto.
Qed.
Lemma core_np : forall mu sl heap log allb pend pts ppend, core mu sl heap log allb pend pts ppend -> np log allb <= n * List.length V.
Proof.
  intros mu sl heap log allb pend pts ppend [A1 A2 A3 A4 A5 A6 A7 A8 A9 A10 A11 A12 A13 A14 A15].
  rewrite <- owners_length.
  assert (Ln : forall x, In x (owners log allb) -> x < n /\ exists a z, geo x = Line a z).
  { intros x Hx. unfold owners in Hx. apply in_app_iff in Hx as [Hx|Hx].
    - apply in_map_iff in Hx as (r & E & I). apply filter_In in I as [I J]. destruct (A13 r I) as (L & M & _). rewrite <- E. split; auto.
      unfold is_end in J. destruct (cr_line r); [rewrite andb_false_r in J; discriminate|]. destruct M as (a & z & M & _). eauto.
    - apply in_flat_map in Hx as (b & Ib & Hx). apply in_map_iff in Hx as (m & E & Im). rewrite <- E. eauto. }
  apply count_bound; [intros x Hx; apply Ln; auto|].
  intros c Lc. destruct (geo c) as [p|a z] eqn:G.
  - assert (E : filter (fun x => x =? c) (owners log allb) = []).
    { apply filter_none. intros x Hx. apply Nat.eqb_neq. intros ->. destruct (Ln c Hx) as (_ & a & z & G'). congruence. }
    rewrite E. simpl. lia.
  - rewrite owners_count. apply (tile_length V a z). auto.
Qed.
Lemma core_len : forall mu sl heap log allb pend pts ppend, core mu sl heap log allb pend pts ppend -> List.length heap <= mu.
Proof. intros mu sl heap log allb pend pts ppend Co. pose proof (core_np _ _ _ _ _ _ _ _ Co). pose proof (co_mu _ _ _ _ _ _ _ _ Co). lia. Qed.
Lemma core_heap : forall mu sl heap heap' log allb pend pts ppend, Permutation heap heap' ->
  core mu sl heap log allb pend pts ppend -> core mu sl heap' log allb pend pts ppend.
Proof.
  intros mu sl heap heap' log allb pend pts ppend P [A1 A2 A3 A4 A5 A6 A7 A8 A9 A10 A11 A12 A13 A14 A15].
  assert (Q : forall ev, In ev heap' -> In ev heap) by (intros ev; apply Permutation_in; symmetry; auto).
  assert (PF : forall f, Permutation (filter f heap') (filter f heap)).
  { intros f. clear - P. induction P; simpl; auto.
    - destruct (f x); auto.
    - destruct (f x), (f y); auto. apply perm_swap.
    - eapply perm_trans; eauto. }
  constructor; eauto.
  - eapply perm_trans; [apply PF|exact A3].
  - eapply perm_trans; [apply PF|exact A4].
  - rewrite <- (Permutation_length P). auto.
Qed.
(** Dropping an event that is neither LL nor PL. *)
Lemma core_drop : forall mu sl ev heap log allb pend pts ppend, isLL ev = false -> isPL ev = false ->
  core mu sl (ev :: heap) log allb pend pts ppend -> exists mu', mu = S mu' /\ core mu' sl heap log allb pend pts ppend.
Proof.
  intros mu sl ev heap log allb pend pts ppend N1 N2 Co. pose proof (core_len _ _ _ _ _ _ _ _ Co) as LM.
  destruct mu as [|mu]; [cbn [List.length] in LM; lia|]. exists mu. split; auto. revert Co. intros [A1 A2 A3 A4 A5 A6 A7 A8 A9 A10 A11 A12 A13 A14 A15].
  cbn [filter] in A3, A4. rewrite N1 in A3. rewrite N2 in A4.
  constructor; auto; try (intros; first [apply A5|apply A6]; auto; right; auto; fail).
  cbn [List.length] in A15. lia.
Qed.
Lemma core_pend : forall mu sl heap log allb pend pend' pts ppend, Permutation (map evLL pend) (map evLL pend') ->
  core mu sl heap log allb pend pts ppend -> core mu sl heap log allb pend' pts ppend.
Proof.
  intros mu sl heap log allb pend pend' pts ppend P [A1 A2 A3 A4 A5 A6 A7 A8 A9 A10 A11 A12 A13 A14 A15].
  constructor; auto. eapply perm_trans; eauto.
Qed.
(** Taking an LL event. *)
Lemma core_takeLL : forall mu sl ev heap log allb pend pts ppend, isLL ev = true ->
  core mu sl (ev :: heap) log allb pend pts ppend ->
  exists mu' b pend', mu = S mu' /\ Permutation pend (b :: pend') /\ ev = evLL b /\ core mu' sl heap log allb pend' pts ppend.
Proof.
  intros mu sl ev heap log allb pend pts ppend N Co. pose proof (core_len _ _ _ _ _ _ _ _ Co) as LM.
  destruct mu as [|mu]; [cbn [List.length] in LM; lia|]. exists mu. revert Co. intros [A1 A2 A3 A4 A5 A6 A7 A8 A9 A10 A11 A12 A13 A14 A15].
  cbn [filter] in A3, A4. rewrite N in A3.
  assert (N2 : isPL ev = false) by (unfold isLL, isPL in *; destruct (ev_ty ev); try discriminate; auto).
  rewrite N2 in A4.
  assert (I : In ev (map evLL pend)) by (eapply Permutation_in; [exact A3|left; auto]).
  apply in_map_iff in I as (b & E & I). apply in_split in I as (l1 & l2 & ->).
  exists b, (l1 ++ l2). split; [auto|split; [symmetry; apply Permutation_middle|split; auto]].
  constructor; auto.
  - rewrite map_app in *. cbn [map] in A3. apply Permutation_cons_inv with (a := ev). rewrite A3, E. symmetry. apply Permutation_middle.
  - intros; apply A5; auto; right; auto.
  - intros; apply A6; auto; right; auto.
  - cbn [List.length] in A15. lia.
Qed.
(** Taking a PL event. *)
Lemma core_takePL : forall mu sl ev heap log allb pend pts ppend, isPL ev = true ->
  core mu sl (ev :: heap) log allb pend pts ppend ->
  exists mu' x ppend', mu = S mu' /\ Permutation ppend (x :: ppend') /\ ev = evPL x /\ In x pts /\
    forall left_ key, core mu' sl heap (log ++ [mkCrossing (fst (pin_cp x)) (Point (snd (pin_cp x))) left_ false false key]) allb pend pts ppend'.
Proof.
  intros mu sl ev heap log allb pend pts ppend N Co. pose proof (core_len _ _ _ _ _ _ _ _ Co) as LM.
  destruct mu as [|mu]; [cbn [List.length] in LM; lia|]. exists mu. revert Co. intros [A1 A2 A3 A4 A5 A6 A7 A8 A9 A10 A11 A12 A13 A14 A15].
  cbn [filter] in A3, A4. rewrite N in A4.
  assert (N2 : isLL ev = false) by (unfold isLL, isPL in *; destruct (ev_ty ev); try discriminate; auto).
  rewrite N2 in A3.
  assert (I : In ev (map evPL ppend)) by (eapply Permutation_in; [exact A4|left; auto]).
  apply in_map_iff in I as (x & E & I). assert (Ix := A7 _ I). apply in_split in I as (l1 & l2 & ->).
  exists x, (l1 ++ l2). split; [auto|split; [symmetry; apply Permutation_middle|split; [auto|split; [auto|]]]].
  intros fst_ key. destruct x as [[k c] p]. cbn [pin_cp fst snd] in *. destruct (A8 k c p Ix) as [Lc Gc].
  set (x := mkCrossing c (Point p) fst_ false false key).
  assert (EE : forall c', ended c' (log ++ [x]) = ended c' log).
  { intros c'. rewrite ended_app. cbn [ended flat_map x cr_cross cr_left cr_line app]. destruct ((c =? c') && negb false); rewrite app_nil_r; auto. }
  constructor; auto.
  - rewrite map_app in *. cbn [map] in A4. apply Permutation_cons_inv with (a := ev). rewrite A4, E. symmetry. apply Permutation_middle.
  - intros; apply A5; auto; right; auto.
  - intros; apply A6; auto; right; auto.
  - intros y Hy. apply A7. apply in_app_iff in Hy. apply in_app_iff. simpl. tauto.
  - intros. rewrite EE. auto.
  - rewrite <- A11. rewrite ptlog_app, !map_app. cbn [map ptlog flat_map x cr_line cr_cross app pin_cp]. rewrite <- !app_assoc.
    apply Permutation_app_head. apply (Permutation_middle (map pin_cp l1)).
  - intros y Hy. apply in_app_iff in Hy as [Hy|[<-|[]]]; [auto|]. cbn [x cr_cross cr_line cr_left cr_first]. split; auto.
    split; [split; auto|]. intros _. rewrite Gc. reflexivity.
  - intros c' p' q' v. rewrite EE. apply A14.
  - rewrite np_app. cbn [List.length] in A15. lia.
Qed.

(** Pieces of a bundle. *)
Lemma core_bundle : forall mu sl heap log allb pend pts ppend b m, core mu sl heap log allb pend pts ppend ->
  In b allb -> In m (b_mem b) ->
  exists a z, geo (m_c m) = Line a z /\ m_c m < n /\ lex_lt (b_p b) (b_q b) /\ In (b_p b) V /\ In (b_q b) V /\
    on_seg a z (b_p b) /\ on_seg a z (b_q b) /\ lex_le a (b_p b) /\ lex_le (b_q b) z.
Proof.
  intros mu sl heap log allb pend pts ppend b m Co Ib Im. destruct (co_mem _ _ _ _ _ _ _ _ Co b m Ib Im) as (L & a & z & G).
  exists a, z. split; [auto|split; [auto|]].
  apply (tile_piece V a z _ _ _ (co_tile _ _ _ _ _ _ _ _ Co (m_c m) a z L G)).
  apply in_or_app. right. eapply in_current; eauto.
Qed.
(** A piece of an input line. *)
Definition piece (g : lop) : Prop := exists p q c a z, g = Line p q /\ c < n /\ geo c = Line a z /\ lex_lt p q /\ on_seg a z p /\ on_seg a z q.
Lemma core_piece : forall mu sl heap log allb pend pts ppend b, core mu sl heap log allb pend pts ppend -> In b allb -> piece (b_geom b).
Proof.
  intros mu sl heap log allb pend pts ppend b Co Ib. pose proof (co_ne _ _ _ _ _ _ _ _ Co b Ib) as N.
  destruct (b_mem b) as [|m ms] eqn:E; [contradiction|].
  destruct (core_bundle _ _ _ _ _ _ _ _ b m Co Ib) as (a & z & G & Lm & L & _ & _ & Oa & Oz & _); [rewrite E; left; auto|].
  exists (b_p b), (b_q b), (m_c m), a, z. repeat (split; [auto|]). auto.
Qed.
Lemma core_good : forall mu sl heap log allb pend pts ppend b, core mu sl heap log allb pend pts ppend -> In b allb -> good V b.
Proof.
  intros mu sl heap log allb pend pts ppend b Co Ib. pose proof (co_ne _ _ _ _ _ _ _ _ Co b Ib) as N.
  destruct (b_mem b) as [|m ms] eqn:E; [contradiction|].
  destruct (core_bundle _ _ _ _ _ _ _ _ b m Co Ib) as (a & z & _ & _ & L & A & B & _); [rewrite E; left; auto|].
  split; [auto|split; auto].
Qed.

Lemma NoDup_app_r : forall {X} (l l' : list X), NoDup (l ++ l') -> NoDup l'.
Proof. induction l as [|x l IH]; intros l' N; auto. inversion N; auto. Qed.
(** Each input has a piece at most once. *)
Lemma filter_le1 : forall mu sl heap log b rest pend pts ppend c a z, core mu sl heap log (b :: rest) pend pts ppend ->
  c < n -> geo c = Line a z -> filter (fun m => m_c m =? c) (b_mem b) = [] \/ exists m, filter (fun m => m_c m =? c) (b_mem b) = [m].
Proof.
  intros mu sl heap log b rest pend pts ppend c a z Co L G.
  pose proof (tile_NoDup_fst _ _ _ _ (co_tile _ _ _ _ _ _ _ _ Co c a z L G)) as N.
  rewrite current_cons, !map_app in N. destruct (filter _ (b_mem b)) as [|m [|m' l]]; [auto|right; eauto|].
  exfalso. apply NoDup_app_r in N. cbn [map app] in N. inversion N as [|? ? N1 _]; subst. apply N1. left; auto.
Qed.
(** Cutting the pieces of a bundle. *)
Lemma cur_split : forall (c : nat) (ms ms' : list (mem nat)), Forall2 copy_of ms ms' ->
  List.length (filter (fun m => m_c m =? c) ms') = List.length (filter (fun m => m_c m =? c) ms).
Proof.
  intros c ms ms' F. induction F as [|m m' ms ms' (E & _) F IH]; [reflexivity|]. cbn [filter]. rewrite E.
  destruct (m_c m =? c); cbn [List.length]; auto.
Qed.
Lemma map_const_len : forall {X Y} (y : Y) (l l' : list X), List.length l = List.length l' -> map (fun _ => y) l = map (fun _ => y) l'.
Proof. intros X Y y. induction l as [|x l IH]; intros [|x' l'] E; try discriminate; auto. simpl. f_equal. apply IH. injection E; auto. Qed.
Lemma clear_first_filter : forall (c : nat) (ms : list (mem nat)),
  List.length (filter (fun m => m_c m =? c) (clear_first ms)) = List.length (filter (fun m => m_c m =? c) ms).
Proof. intros c [|m ms]; [reflexivity|]. cbn [clear_first filter m_c]. destruct (m_c m =? c); reflexivity. Qed.
Lemma clear_first_in : forall (ms : list (mem nat)) m, In m (clear_first ms) ->
  exists m', In m' ms /\ m_c m' = m_c m /\ m_key m' = m_key m /\ m_done m' = m_done m /\ (m_first m = true -> m_first m' = true).
Proof.
  intros [|m0 ms] m I; [destruct I|]. cbn [clear_first] in I. destruct I as [<-|I].
  - exists m0. split; [left; auto|]. cbn [m_c m_key m_done m_first]. repeat split; auto. discriminate.
  - exists m. split; [right; auto|auto].
Qed.
Lemma clear_first_length : forall (ms : list (mem nat)), List.length (clear_first ms) = List.length ms.
Proof. intros [|m ms]; reflexivity. Qed.
Lemma clear_first_ne : forall (ms : list (mem nat)), ms <> [] -> clear_first ms <> [].
Proof. intros [|m ms] N; [contradiction|discriminate]. Qed.
Lemma copy_in : forall (ms ms' : list (mem nat)) m', Forall2 copy_of ms ms' -> In m' ms' ->
  m_first m' = false /\ m_done m' = false /\ exists m, In m ms /\ m_c m = m_c m'.
Proof.
  intros ms ms' m' F. induction F as [|x y ms ms' (E1 & E2 & E3) F IH]; intros I; [destruct I|]. destruct I as [<-|I].
  - repeat split; auto. exists x. split; [left; auto|auto].
  - destruct (IH I) as (A & B & m & D & E). repeat split; auto. exists m. split; [right; auto|auto].
Qed.

Lemma core_split : forall mu sl sl' heap log b rest pend pts ppend r nb,
  core mu sl heap log (b :: rest) pend pts ppend ->
  fresh_part b r (b_q b) nb -> In r V -> on_seg (b_p b) (b_q b) r -> lex_lt (b_p b) r -> lex_lt r (b_q b) ->
  srep sl' (bcells nb ++ bcells (trunc r b) ++ flat_map bcells rest ++ map pcell pts) ->
  core mu sl' (ev_LR (b_q b) nb :: ev_LL r nb :: ev_LR r b :: heap) log (trunc r b :: nb :: rest) (nb :: pend) pts ppend.
Proof.
  intros mu sl sl' heap log b rest pend pts ppend r nb Co (F1 & F2 & F3 & F4) Vr O L1 L2 R.
  pose proof (core_good _ _ _ _ _ _ _ _ b Co (or_introl eq_refl)) as G.
  pose proof Co as [A1 A2 A3 A4 A5 A6 A7 A8 A9 A10 A11 A12 A13 A14 A15].
  constructor; auto.
  - eapply srep_perm; [|exact R]. cbn [flat_map]. rewrite <- !app_assoc. rewrite !app_assoc. apply Permutation_app_tail.
    apply Permutation_app_tail. apply Permutation_app_comm.
  - intros x [<-|[<-|Hx]]; [|auto|apply A2; right; auto]. apply clear_first_ne. apply A2. left; auto.
  - cbn [filter isLL ev_LR ev_LL ev_ty ty_eqb ty_rank Nat.eqb]. cbn [map]. unfold evLL at 1. rewrite F1. constructor. auto.
  - intros ev [<-|[<-|[<-|I]]] E; try discriminate. auto.
  - intros ev [<-|[<-|[<-|I]]]; cbn [ev_LR ev_LL ev_point]; auto. apply G.
  - intros x m [<-|[<-|Hx]] Im.
    + apply clear_first_in in Im as (m' & I' & E & _). rewrite <- E. apply (A9 b); [left; auto|auto].
    + destruct (copy_in _ _ _ F3 Im) as (_ & _ & m' & I' & E). rewrite <- E. apply (A9 b); [left; auto|auto].
    + apply (A9 x); [right; auto|auto].
  - intros c a z Lc Gc. pose proof (A10 c a z Lc Gc) as T. rewrite !current_cons in *.
    rewrite (map_const_len _ _ (filter (fun m => m_c m =? c) (b_mem b))) by (apply clear_first_filter).
    rewrite (map_const_len (b_p nb, b_q nb) _ (filter (fun m => m_c m =? c) (b_mem b))) by (apply cur_split; auto).
    rewrite F1, F2. cbn [trunc b_p b_q].
    destruct (filter_le1 _ _ _ _ _ _ _ _ _ _ _ _ Co Lc Gc) as [E|[m E]]; rewrite E in *; cbn [map app] in *; [exact T|].
    eapply tile_perm; [|apply (tile_split V a z (b_p b) (b_q b) r (ended c log ++ current c rest))]; auto.
    + rewrite <- !Permutation_middle. reflexivity.
    + eapply tile_perm; [|exact T]. symmetry. apply Permutation_middle.
  - intros x m [<-|[<-|Hx]] Im Hf.
    + apply clear_first_in in Im as (m' & I' & E & _ & _ & Hf'). rewrite <- E. apply (A12 b); [left; auto|auto|auto].
    + destruct (copy_in _ _ _ F3 Im) as (E & _). congruence.
    + apply (A12 x); [right; auto|auto|auto].
  - rewrite !np_cons in *. cbn [trunc b_mem List.length]. rewrite clear_first_length, <- (Forall2_length _ _ _ F3). 
    assert (List.length (b_mem b) <> 0) by (rewrite length_zero_iff_nil; apply A2; left; auto). lia.
Qed.

Lemma core_split2 : forall mu sl sl' heap log b rest pend pts ppend r1 r2 nb mb,
  core mu sl heap log (b :: rest) pend pts ppend ->
  fresh_part b r2 (b_q b) nb -> fresh_part b r1 r2 mb ->
  In r1 V -> In r2 V -> on_seg (b_p b) (b_q b) r1 -> on_seg (b_p b) (b_q b) r2 ->
  lex_lt (b_p b) r1 -> lex_lt r1 r2 -> lex_lt r2 (b_q b) ->
  srep sl' (bcells mb ++ bcells nb ++ bcells (trunc r1 b) ++ flat_map bcells rest ++ map pcell pts) ->
  core mu sl' (ev_LR r2 mb :: ev_LL r1 mb :: ev_LR (b_q b) nb :: ev_LL r2 nb :: ev_LR r1 b :: heap) log
    (trunc r1 b :: mb :: nb :: rest) (mb :: nb :: pend) pts ppend.
Proof.
  intros mu sl sl' heap log b rest pend pts ppend r1 r2 nb mb Co (F1 & F2 & F3 & F4) (M1 & M2 & M3 & M4) V1 V2 O1 O2 L1 L2 L3 R.
  pose proof (core_good _ _ _ _ _ _ _ _ b Co (or_introl eq_refl)) as G.
  pose proof Co as [A1 A2 A3 A4 A5 A6 A7 A8 A9 A10 A11 A12 A13 A14 A15].
  constructor; auto.
  - eapply srep_perm; [|exact R]. cbn [flat_map]. rewrite <- !app_assoc. rewrite (app_assoc (bcells mb) (bcells nb)).
    rewrite (app_assoc (bcells mb ++ bcells nb)), (Permutation_app_comm (bcells mb ++ bcells nb) (bcells (trunc r1 b))).
    rewrite <- !app_assoc. reflexivity.
  - intros x [<-|[<-|[<-|Hx]]]; [|auto|auto|apply A2; right; auto]. apply clear_first_ne. apply A2. left; auto.
  - cbn [filter isLL ev_LR ev_LL ev_ty ty_eqb ty_rank Nat.eqb]. cbn [map]. unfold evLL at 1 2. rewrite F1, M1. constructor. constructor. auto.
  - intros ev [<-|[<-|[<-|[<-|[<-|I]]]]] E; try discriminate. auto.
  - intros ev [<-|[<-|[<-|[<-|[<-|I]]]]]; cbn [ev_LR ev_LL ev_point]; auto. apply G.
  - intros x m [<-|[<-|[<-|Hx]]] Im.
    + apply clear_first_in in Im as (m' & I' & E & _). rewrite <- E. apply (A9 b); [left; auto|auto].
    + destruct (copy_in _ _ _ M3 Im) as (_ & _ & m' & I' & E). rewrite <- E. apply (A9 b); [left; auto|auto].
    + destruct (copy_in _ _ _ F3 Im) as (_ & _ & m' & I' & E). rewrite <- E. apply (A9 b); [left; auto|auto].
    + apply (A9 x); [right; auto|auto].
  - intros c a z Lc Gc. pose proof (A10 c a z Lc Gc) as T. rewrite !current_cons in *.
    rewrite (map_const_len _ _ (filter (fun m => m_c m =? c) (b_mem b))) by (apply clear_first_filter).
    rewrite (map_const_len (b_p nb, b_q nb) _ (filter (fun m => m_c m =? c) (b_mem b))) by (apply cur_split; auto).
    rewrite (map_const_len (b_p mb, b_q mb) _ (filter (fun m => m_c m =? c) (b_mem b))) by (apply cur_split; auto).
    rewrite F1, F2, M1, M2. cbn [trunc b_p b_q].
    destruct (filter_le1 _ _ _ _ _ _ _ _ _ _ _ _ Co Lc Gc) as [E|[m E]]; rewrite E in *; cbn [map app] in *; [exact T|].
    assert (T1 : tile V a z ((b_p b, r1) :: (r1, b_q b) :: ended c log ++ current c rest)).
    { apply tile_split; auto; [|lord]. eapply tile_perm; [|exact T]. symmetry. apply Permutation_middle. }
    eapply tile_perm; [|apply (tile_split V a z r1 (b_q b) r2 ((b_p b, r1) :: ended c log ++ current c rest))]; auto.
    + rewrite <- !Permutation_middle. transitivity ((b_p b, r1) :: (r1, r2) :: (r2, b_q b) :: ended c log ++ current c rest); [|reflexivity].
      eapply perm_trans; [apply perm_skip; apply perm_swap|]. apply perm_swap.
    + eapply tile_perm; [|exact T1]. apply perm_swap.
    + apply (on_seg_mid (b_p b) (b_q b)); auto; try lord. apply on_seg_end.
  - intros x m [<-|[<-|[<-|Hx]]] Im Hf.
    + apply clear_first_in in Im as (m' & I' & E & _ & _ & Hf'). rewrite <- E. apply (A12 b); [left; auto|auto|auto].
    + destruct (copy_in _ _ _ M3 Im) as (E & _). congruence.
    + destruct (copy_in _ _ _ F3 Im) as (E & _). congruence.
    + apply (A12 x); [right; auto|auto|auto].
  - rewrite !np_cons in *. cbn [trunc b_mem List.length]. rewrite clear_first_length, <- (Forall2_length _ _ _ F3), <- (Forall2_length _ _ _ M3).
    assert (List.length (b_mem b) <> 0) by (rewrite length_zero_iff_nil; apply A2; left; auto). lia.
Qed.

Definition merged (b1 b2 : bundle) : bundle := mkB (b_p b1) (b_q b1) (b_mem b1 ++ b_mem b2).
Lemma core_merge : forall mu sl sl' heap log b1 b2 rest pend pts ppend,
  core mu sl heap log (b1 :: b2 :: rest) pend pts ppend -> b_p b1 = b_p b2 -> b_q b1 = b_q b2 ->
  srep sl' (bcells (merged b1 b2) ++ flat_map bcells rest ++ map pcell pts) ->
  core mu sl' heap log (merged b1 b2 :: rest) pend pts ppend.
Proof.
  intros mu sl sl' heap log b1 b2 rest pend pts ppend Co Ep Eq R.
  pose proof Co as [A1 A2 A3 A4 A5 A6 A7 A8 A9 A10 A11 A12 A13 A14 A15].
  constructor; auto.
  - cbn [flat_map]. rewrite <- app_assoc. exact R.
  - intros x [<-|Hx]; [|apply A2; right; right; auto]. cbn [merged b_mem]. pose proof (A2 b1 (or_introl eq_refl)).
    destruct (b_mem b1); [contradiction|discriminate].
  - intros x m [<-|Hx] Im; [|apply (A9 x); [right; right; auto|auto]]. cbn [merged b_mem] in Im. apply in_app_iff in Im as [Im|Im].
    + apply (A9 b1); [left; auto|auto].
    + apply (A9 b2); [right; left; auto|auto].
  - intros c a z Lc Gc. pose proof (A10 c a z Lc Gc) as T. rewrite !current_cons in *. cbn [merged b_mem b_p b_q].
    rewrite filter_app, map_app, <- app_assoc. rewrite <- Ep, <- Eq in T. exact T.
  - intros x m [<-|Hx] Im; [|apply (A12 x); [right; right; auto|auto]]. cbn [merged b_mem b_p] in *. apply in_app_iff in Im as [Im|Im].
    + apply (A12 b1); [left; auto|auto].
    + rewrite Ep. apply (A12 b2); [right; left; auto|auto].
  - rewrite !np_cons in *. cbn [merged b_mem]. rewrite app_length. lia.
Qed.

(** Members may be marked as reported. *)
Definition same_mem (m m' : mem nat) : Prop := m_key m' = m_key m /\ m_c m' = m_c m /\ m_first m' = m_first m.
Lemma same_filter : forall (c : nat) (ms ms' : list (mem nat)), Forall2 same_mem ms ms' ->
  List.length (filter (fun m => m_c m =? c) ms') = List.length (filter (fun m => m_c m =? c) ms).
Proof.
  intros c ms ms' F. induction F as [|m m' ms ms' (_ & E & _) F IH]; [reflexivity|]. cbn [filter]. rewrite E.
  destruct (m_c m =? c); cbn [List.length]; auto.
Qed.
Lemma same_in : forall (ms ms' : list (mem nat)) m', Forall2 same_mem ms ms' -> In m' ms' ->
  exists m, In m ms /\ m_c m = m_c m' /\ m_first m = m_first m'.
Proof.
  intros ms ms' m' F. induction F as [|x y ms ms' (E1 & E2 & E3) F IH]; intros I; [destruct I|]. destruct I as [<-|I].
  - exists x. split; [left; auto|auto].
  - destruct (IH I) as (m & D & E). exists m. split; [right; auto|auto].
Qed.
Lemma core_redone : forall mu sl sl' heap log p q ms ms' rest pend pts ppend,
  core mu sl heap log (mkB p q ms :: rest) pend pts ppend -> Forall2 same_mem ms ms' ->
  srep sl' (bcells (mkB p q ms') ++ flat_map bcells rest ++ map pcell pts) ->
  core mu sl' heap log (mkB p q ms' :: rest) pend pts ppend.
Proof.
  intros mu sl sl' heap log p q ms ms' rest pend pts ppend Co F R.
  pose proof Co as [A1 A2 A3 A4 A5 A6 A7 A8 A9 A10 A11 A12 A13 A14 A15].
  constructor; auto.
  - cbn [flat_map]. rewrite <- app_assoc. exact R.
  - intros x [<-|Hx]; [|apply A2; right; auto]. pose proof (A2 _ (or_introl eq_refl)) as N. cbn [b_mem] in *.
    destruct F; [contradiction|discriminate].
  - intros x m [<-|Hx] Im; [|apply (A9 x); [right; auto|auto]]. cbn [b_mem] in Im. destruct (same_in _ _ _ F Im) as (m0 & I0 & E & _).
    rewrite <- E. apply (A9 (mkB p q ms)); [left; auto|auto].
  - intros c a z Lc Gc. pose proof (A10 c a z Lc Gc) as T. rewrite !current_cons in *. cbn [b_mem b_p b_q] in *.
    rewrite (map_const_len _ _ (filter (fun m => m_c m =? c) ms)) by (apply same_filter; auto). exact T.
  - intros x m [<-|Hx] Im; [|apply (A12 x); [right; auto|auto]]. cbn [b_mem b_p] in *. destruct (same_in _ _ _ F Im) as (m0 & I0 & E & E').
    rewrite <- E, <- E'. apply (A12 (mkB p q ms)); [left; auto|auto].
  - rewrite !np_cons in *. cbn [b_mem] in *. rewrite <- (Forall2_length _ _ _ F). lia.
Qed.
(** Reports of starts. *)
Lemma core_left : forall mu sl heap log b ms allb pend pts ppend,
  core mu sl heap log allb pend pts ppend -> In b allb -> incl ms (b_mem b) ->
  core mu sl heap (log ++ reports (b_geom b) true ms) allb pend pts ppend.
Proof.
  intros mu sl heap log b ms allb pend pts ppend Co Ib Im.
  pose proof Co as [A1 A2 A3 A4 A5 A6 A7 A8 A9 A10 A11 A12 A13 A14 A15].
  assert (EE : forall c, ended c (log ++ reports (b_geom b) true ms) = ended c log).
  { intros c. unfold b_geom. rewrite ended_app, ended_left, app_nil_r. auto. }
  constructor; auto.
  - intros. rewrite EE. auto.
  - unfold b_geom. rewrite ptlog_app, ptlog_reports, app_nil_r. auto.
  - intros x Hx. apply in_app_iff in Hx as [Hx|Hx]; [auto|]. apply reports_in in Hx as (E1 & E2 & m & I & E3 & E4).
    destruct (core_bundle _ _ _ _ _ _ _ _ b m Co Ib (Im _ I)) as (a & z & Gc & Lc & L & Vp & Vq & Op & Oq & _).
    rewrite E1, E2, E3, E4. split; [auto|split].
    + unfold b_geom. exists a, z. repeat split; auto.
    + intros Hf. symmetry. apply (A12 b); auto.
  - intros c p q v. rewrite EE. apply A14.
  - rewrite np_app. lia.
Qed.
(** The end of a bundle. *)
Lemma core_end : forall mu sl sl' heap log a rest pend pts ppend,
  core mu sl heap log (a :: rest) pend pts ppend ->
  (forall v, In v V -> on_seg (b_p a) (b_q a) v -> lex_lt (b_p a) v -> lex_lt v (b_q a) -> False) ->
  srep sl' (flat_map bcells rest ++ map pcell pts) ->
  core mu sl' heap (log ++ reports (b_geom a) false (b_mem a)) rest pend pts ppend.
Proof.
  intros mu sl sl' heap log a rest pend pts ppend Co NV R.
  pose proof Co as [A1 A2 A3 A4 A5 A6 A7 A8 A9 A10 A11 A12 A13 A14 A15].
  constructor; auto.
  - intros x Hx. apply A2. right; auto.
  - intros x m Hx. apply A9. right; auto.
  - intros c a0 z Lc Gc. pose proof (A10 c a0 z Lc Gc) as T. rewrite current_cons in T. unfold b_geom. rewrite ended_app, ended_right, <- app_assoc. exact T.
  - unfold b_geom. rewrite ptlog_app, ptlog_reports, app_nil_r. auto.
  - intros x m Hx. apply A12. right; auto.
  - intros x Hx. apply in_app_iff in Hx as [Hx|Hx]; [auto|]. apply reports_in in Hx as (E1 & E2 & m & I & E3 & E4).
    destruct (core_bundle _ _ _ _ _ _ _ _ a m Co (or_introl eq_refl) I) as (a0 & z & Gc & Lc & L & Vp & Vq & Op & Oq & _).
    rewrite E1, E2, E3, E4. split; [auto|split].
    + unfold b_geom. exists a0, z. repeat split; auto.
    + intros Hf. symmetry. apply (A12 a); auto. left; auto.
  - intros c p q v I. rewrite ended_app in I. apply in_app_iff in I as [I|I]; [eapply A14; eauto|].
    unfold b_geom in I. rewrite ended_right in I. apply in_map_iff in I as (m & E & _). injection E as <- <-. apply NV.
  - rewrite np_app. unfold b_geom. rewrite end_reports. rewrite np_cons in A15. lia.
Qed.
End Inv.

(** An arithmetic that intersects the pieces of the input lines exactly. *)
Class faithful (ar : arith) (ln : nat -> line) (n : nat) : Prop := {
  f_point : forall p b, valid b -> is_line b = true -> meet (Point p) b = intersect_line_ordered (Point p) b;
  f_line : forall a b, piece ln n a -> piece ln n b -> meet a b = intersect_line_ordered a b
}.
#[global] Instance exact_faithful (ln : nat -> line) (n : nat) : faithful exact ln n.
Proof. split; reflexivity. Qed.
