(** Monotone decomposition: every point of the interior is in exactly one piece. *)
Require Import List String Bool Arith Lia Permutation Sorted.
From Verif Require Import Base Scalar M_Events M_Geo M_LineOrPoint M_Slab M_Active M_MonoPoly M_Rings M_Op M_MonoSweep M_Chains.
From Verif Require Import S_Geo P_Geo P_LineOrPoint P_Tilt P_Chain P_Bundle P_Order P_Inv P_Slab P_BTree.
From Verif Require Import S_Mono S_Op P_OpLab P_OpStep P_OpPlane P_OpPoly P_OpCount P_MonoGeo P_MonoSweep P_MonoStep P_ChainDesc P_ChainEvent P_MonoChains P_ChainStep P_ChainSteps P_MonoRun S_Chains P_MonoAbove.
Import Datatypes.
Import ListNotations.
Local Open Scope nat_scope.

Notation above := P_OpPlane.above.
Definition nb {X} (f : X -> bool) (l : list X) : nat := length (filter f l).
Definition bn (b : bool) : nat := if b then 1 else 0.
Lemma nb_cons : forall {X} (f : X -> bool) x l, nb f (x :: l) = bn (f x) + nb f l.
Proof. intros. unfold nb, bn. cbn [filter]. destruct (f x); reflexivity. Qed.
Lemma nb_app : forall {X} (f : X -> bool) l l', nb f (l ++ l') = nb f l + nb f l'.
Proof. intros. unfold nb. rewrite filter_app, app_length. reflexivity. Qed.
Lemma nb_perm : forall {X} (f : X -> bool) l l', Permutation l l' -> nb f l = nb f l'.
Proof. intros X f l l' P. induction P; rewrite ?nb_cons; try congruence; lia. Qed.
Lemma nb_map : forall {X Y} (g : X -> Y) (f : Y -> bool) l, nb f (map g l) = nb (fun x => f (g x)) l.
Proof. intros X Y g f l. induction l as [|x l IH]; auto. cbn [map]. rewrite !nb_cons, IH. reflexivity. Qed.
Lemma nb_ext : forall {X} (f g : X -> bool) l, (forall x, In x l -> f x = g x) -> nb f l = nb g l.
Proof. intros X f g l. induction l as [|x l IH]; intros E; auto. rewrite !nb_cons, IH by (intros; apply E; right; auto). rewrite E by (left; auto). reflexivity. Qed.
Lemma nb_none : forall {X} (f : X -> bool) l, (forall x, In x l -> f x = false) -> nb f l = 0.
Proof. intros X f l E. unfold nb. rewrite filter_none; auto. Qed.
Lemma odd_nb : forall {X} (f : X -> bool) l, odd (map f l) = Nat.odd (nb f l).
Proof.
  intros X f l. induction l as [|x l IH]; auto. rewrite nb_cons. cbn [map odd fold_right]. fold (odd (map f l)). rewrite IH. destruct (f x); [|cbn; destruct (Nat.odd (nb f l)); reflexivity]. cbn [bn plus]. rewrite Nat.odd_succ, <- Nat.negb_odd. destruct (Nat.odd (nb f l)); auto.
Qed.

Definition up (q : pt) (x : pt * pt) : bool := above (fst x) (snd x) q.
(** A chain has one edge at the abscissa of [q], if it reaches that far on both sides. *)
Lemma chain_act : forall q l z r, dec (z :: l) -> last (z :: l) z = r ->
  if isact r z q then exists u v, In (u, v) (redges (z :: l)) /\ isact u v q = true /\ nb (up q) (redges (z :: l)) = bn (above u v q) else nb (up q) (redges (z :: l)) = 0.
Proof.
  intros q l. induction l as [|a l IH]; intros z r S E.
  - cbn in E. subst r. destruct (isact z z q) eqn:A; [|reflexivity]. exfalso. apply isact_iff in A as [A B]. lord.
  - rewrite redges_cons, nb_cons. assert (E' : last (a :: l) a = r) by (rewrite <- E; cbn [last]; clear; revert a; induction l as [|b l IH]; intros a; auto; cbn [last] in *; destruct l; auto; rewrite <- (IH b); destruct l; auto).
    pose proof (dec_tail _ _ S) as S'. pose proof (IH a r S' E') as Q. assert (La : lex_lt a z) by (inversion S as [|? ? _ F]; subst; inversion F; auto).
    assert (Lr : lex_le r a). { assert (Ir : In r (a :: l)). { rewrite <- E'. clear. generalize a at 2. induction (a :: l) as [|x k IH] eqn:Ek; [discriminate|]. clear. revert x. induction k as [|y k IH]; intros x d; [left; auto|]. right. apply (IH y d). }
      destruct Ir as [->|Ir]; [apply lex_le_refl|]. inversion S' as [|? ? _ F]; subst. rewrite Forall_forall in F. apply lex_lt_le. apply F; auto. }
    destruct (isact r z q) eqn:A.
    + apply isact_iff in A as [A1 A2]. destruct (lex_le_dec a q) as [L|L].
      * exists a, z. split; [left; auto|]. split; [apply isact_iff; auto|]. unfold up at 1. cbn [fst snd]. assert (N : isact r a q = false) by (apply not_true_iff_false; rewrite isact_iff; intros [_ X]; lord). rewrite N in Q. rewrite Q. lia.
      * assert (N : isact r a q = true) by (apply isact_iff; split; auto). rewrite N in Q. destruct Q as (u & v & I & Iv & Q). exists u, v. split; [right; auto|]. split; auto. rewrite Q. unfold up, above. cbn [fst snd]. assert (N' : isact a z q = false) by (apply not_true_iff_false; rewrite isact_iff; intros [X _]; lord). rewrite N'. reflexivity.
    + assert (N' : isact a z q = false) by (apply not_true_iff_false; rewrite isact_iff; intros [X Y]; apply not_true_iff_false in A; apply A; apply isact_iff; split; auto; lord). unfold up at 1, above. cbn [fst snd]. rewrite N'. cbn [andb bn plus].
      assert (N : isact r a q = false) by (apply not_true_iff_false; rewrite isact_iff; intros [X Y]; apply not_true_iff_false in A; apply A; apply isact_iff; split; auto; lord). rewrite N in Q. exact Q.
Qed.
Lemma edges_snoc : forall l a b, edges (l ++ [a; b]) = edges (l ++ [a]) ++ [(a, b)].
Proof.
  unfold edges. induction l as [|x l IH]; intros a b; [reflexivity|]. destruct l as [|y l]; [reflexivity|]. cbn [app tl combine] in *. f_equal. apply IH.
Qed.
Lemma edges_rev : forall l, edges (rev l) = rev (redges l).
Proof.
  induction l as [|z l IH]; auto. destruct l as [|a l]; auto. rewrite redges_cons. cbn [rev] in *. rewrite <- app_assoc. cbn [app]. rewrite edges_snoc, IH. reflexivity.
Qed.

Section Count.
Context {ln : nat -> line} {n : nat} {e : Qc} {V V' : list pt} {top : nat -> bool}.
Context (G : mono_geo ln n e V V' top).
Notation tl := (tilt e).
Notation H := (P_Order.H e).
Notation K := (P_Order.K e).
Notation ea := (ea ln).
Notation ez := (ez ln).
Notation eb := (eb ln).
Notation actb := (actb ln).
Notation lo := (@lo ln e).
Notation sorted := (@sorted ln n e).
Notation alt := (@alt top).
Notation pw := (@pw e V V').
Notation done := (@done e V V').
Notation tag := (@tag ln top).
Variable q : pt.
Hypothesis Vq : In q V'.

Lemma above_hgt : forall u v, In u V' -> In v V' -> lex_lt u v -> above u v q = true <-> isact u v q = true /\ (hgt e u v (tl q) < cy q)%Qc.
Proof.
  intros u v Vu Vv L. unfold above. rewrite andb_true_iff, qltb_iff. pose proof (tlt G _ _ Vu Vv L) as T. rewrite (cross_hgt e u v q T). split; intros [A B]; split; auto.
  - clear - T B. destruct (Qclt_le_dec (hgt e u v (tl q)) (cy q)) as [Z|Z]; auto. exfalso. assert (W : ((tl v - tl u) * (cy q - hgt e u v (tl q)) <= 0)%Qc) by qc. qcl.
  - clear - T B. qc.
Qed.
Lemma in_edges : forall l u v, dec l -> (forall w, In w l -> In w V') -> In (u, v) (redges l) -> In u V' /\ In v V' /\ lex_lt u v.
Proof. intros [|z l] u v S W I; [destruct I|]. destruct (redges_le l z u v S I) as (_ & A & B & C). auto. Qed.
Lemma piece_count : forall o, done o -> nb (up q) (redges (ob o)) = nb (up q) (redges (ot o)) + bn (piece_in (piece o) q).
Proof.
  intros o [[Pb Pt PV (r & k1 & k2 & R1 & R2) _ Pw] (z & l1 & l2 & E1 & E2 & N)].
  assert (VV : forall w, In w (ob o) \/ In w (ot o) -> In w V') by (intros w I; apply (mg_incl _ _ _ _ _ _ G); auto).
  assert (Ray : forall l, dec l -> (forall w, In w l -> In w V') -> odd (map (ray_crosses q) (edges (rev l))) = Nat.odd (nb (up q) (redges l))).
  { intros l S W. rewrite edges_rev, odd_nb. rewrite <- (nb_perm _ _ _ (Permutation_rev _)). f_equal. apply nb_ext. intros [u v] I. destruct (in_edges _ _ _ S W I) as (_ & _ & L). unfold up. cbn [fst snd]. apply (above_ray u v q L). }
  assert (Pi : piece_in (piece o) q = xorb (Nat.odd (nb (up q) (redges (ot o)))) (Nat.odd (nb (up q) (redges (ob o))))).
  { unfold piece_in, piece. cbn [mp_top mp_bot]. rewrite map_app, odd_app, !Ray; auto. }
  rewrite Pi. clear Pi Ray.
  pose proof (chain_act q l1 z r) as Cb. pose proof (chain_act q l2 z r) as Ct. rewrite <- E1 in Cb. rewrite <- E2 in Ct.
  assert (L1 : last (ob o) z = r) by (rewrite R1; apply last_last). assert (L2 : last (ot o) z = r) by (rewrite R2; apply last_last).
  specialize (Cb Pb L1). specialize (Ct Pt L2). destruct (isact r z q).
  - destruct Cb as (u & v & I & A & ->). destruct Ct as (u' & v' & I' & A' & ->). pose proof (proj2 (Pw u v u' v' I I') q Vq A A') as Le.
    destruct (in_edges _ _ _ Pb (fun w I => VV w (or_introl I)) I) as (B1 & B2 & B3). destruct (in_edges _ _ _ Pt (fun w I => VV w (or_intror I)) I') as (T1 & T2 & T3).
    assert (Im : above u' v' q = true -> above u v q = true).
    { intros X. apply above_hgt in X as [_ X]; auto. apply above_hgt; auto. split; auto. eapply Qcle_lt_trans; eauto. }
    destruct (above u' v' q), (above u v q); auto. discriminate Im; auto.
  - rewrite Cb, Ct. reflexivity.
Qed.
Lemma piece_ordered : forall o, done o -> ordered_at q (edges (mp_bot (piece o))) (edges (mp_top (piece o))).
Proof.
  intros o [[Pb Pt PV _ _ Pw] _] u v u' v' I I'. unfold piece in I, I'. cbn [mp_bot mp_top] in I, I'. rewrite edges_rev, <- in_rev in I, I'.
  assert (VV : forall w, In w (ob o) \/ In w (ot o) -> In w V') by (intros w J; apply (mg_incl _ _ _ _ _ _ G); auto).
  destruct (Pw u v u' v' I I') as [[Sk _] Le]. split; auto. intros A A'. specialize (Le q Vq A A').
  destruct (in_edges _ _ _ Pb (fun w I => VV w (or_introl I)) I) as (B1 & B2 & B3). destruct (in_edges _ _ _ Pt (fun w I => VV w (or_intror I)) I') as (T1 & T2 & T3).
  pose proof (tlt G _ _ B1 B2 B3) as Tb. pose proof (tlt G _ _ T1 T2 T3) as Tt. rewrite (cross_hgt e u v q Tb), (cross_hgt e u' v' q Tt).
  set (h := hgt e u v (tl q)) in *. set (h' := hgt e u' v' (tl q)) in *. set (d := (tl v - tl u)%Qc) in *. set (d' := (tl v' - tl u')%Qc) in *.
  assert (D1 : (0 < d)%Qc) by (unfold d; qcl). assert (D2 : (0 < d')%Qc) by (unfold d'; qcl). clearbody h h' d d'. clear - Le D1 D2. split; intros X.
  - destruct (Qclt_le_dec h' (cy q)) as [Z|Z]; [assert (W : (0 < cy q - h)%Qc) by qcl; clear - D1 W; qc|exfalso; assert (W : (d' * (cy q - h') <= 0)%Qc) by (clear X; qc); qcl].
  - destruct (Qclt_le_dec (cy q) h') as [Z|Z]; [exfalso; assert (W : (d' * (cy q - h') < 0)%Qc) by (clear X; qc); qcl|assert (W : (0 <= cy q - h)%Qc) by qcl; clear - D1 W; qc].
Qed.

Lemma piece_tight : forall o, done o -> tight (mp_bot (piece o)) (mp_top (piece o)).
Proof.
  intros o [[_ _ _ _ Pa Pw] _]. unfold piece. cbn [mp_bot mp_top]. split.
  - intros u v u' v' I I'. rewrite edges_rev, <- in_rev in I, I'. apply (Pw u v u' v' I I').
  - intros v I J. apply in_rev in I, J. destruct (Pa v I J) as [(l & E)|(l & l' & E & E')].
    + left. exists (rev l). rewrite E, rev_app_distr. reflexivity.
    + right. exists (rev l). rewrite E. reflexivity.
Qed.

(** * The edges around [q] *)
Lemma sort_act : forall L, NoDup L -> (forall c, In c L -> c < n /\ actb q c = true) -> exists l, Permutation L l /\ ForallOrdPairs (lo q) l.
Proof.
  induction L as [|c L IH]; intros N A; [exists []; split; auto; constructor|]. inversion N as [|? ? N1 N2]; subst. destruct (IH N2) as (l & P & F); [intros; apply A; right; auto|].
  assert (Al : forall x, In x l -> x < n /\ actb q x = true /\ x <> c).
  { intros x I. apply (Permutation_in _ (Permutation_sym P)) in I. destruct (A x (or_intror I)). split; auto. split; auto. intros ->. auto. }
  destruct (A c (or_introl eq_refl)) as [Lc Ac].
  destruct (split3 (lo q) (fun x => K (tl q) (eb x) (eb c)) l F) as (X & M & Y & -> & PX & PM & PY).
  - intros a b Ia Ib Lo Q. apply K_gt_iff in Q. apply K_gt_iff. apply (lo_trans q c a b); auto.
  - intros a b Ia Ib Lo Q. apply (lo_trans q a b c); auto.
  - destruct M as [|m M].
    + exists (X ++ c :: Y). split; [apply Permutation_cons_app; exact P|]. apply FOP_app in F as (F1 & F2 & F3). cbn [app] in *. apply FOP_app. split; auto. split.
      * constructor; auto. apply Forall_forall. intros y I. apply K_gt_iff. auto.
      * intros a b Ia [<-|Ib]; auto. apply (PX a Ia).
    + exfalso. destruct (Al m) as (Lm & Am & Nm); [apply in_or_app; right; left; auto|]. apply (not_eq G q m c); auto. apply PM. left; auto.
Qed.
Lemma sorted_ex : exists l, sorted q l /\ Permutation (filter (actb q) (seq 0 n)) l.
Proof.
  destruct (sort_act (filter (actb q) (seq 0 n))) as (l & P & F).
  - apply NoDup_filter. apply seq_NoDup.
  - intros c I. apply filter_In in I as [I A]. apply in_seq in I. split; auto; lia.
  - exists l. split; auto. constructor; auto. intros c. split.
    + intros I. apply (Permutation_in _ (Permutation_sym P)) in I. apply filter_In in I as [I A]. apply in_seq in I. split; auto; lia.
    + intros [L A]. apply (Permutation_in _ P). apply filter_In. split; auto. apply in_seq. lia.
Qed.
Definition upc (c : nat) : bool := above (ea c) (ez c) q.
Lemma alt_count : forall l b, alt b l -> ForallOrdPairs (fun a c => upc c = true -> upc a = true) l ->
  nb (fun c => upc c && Bool.eqb (top c) b) l = nb (fun c => upc c && negb (Bool.eqb (top c) b)) l + bn (Nat.odd (nb upc l)).
Proof.
  induction l as [|c l IH]; intros b A F; auto. destruct A as [Tc A]. inversion F as [|? ? F1 F2]; subst. rewrite !nb_cons. rewrite Bool.eqb_reflx. rewrite Forall_forall in F1. destruct (upc c) eqn:U; cbn [andb negb bn].
  - specialize (IH _ A F2). rewrite Nat.add_1_l, Nat.odd_succ, <- Nat.negb_odd.
    assert (X1 : nb (fun x => upc x && Bool.eqb (top x) (negb (top c))) l = nb (fun x => upc x && negb (Bool.eqb (top x) (top c))) l) by (apply nb_ext; intros x _; destruct (top x), (top c); auto).
    assert (X2 : nb (fun x => upc x && negb (Bool.eqb (top x) (negb (top c)))) l = nb (fun x => upc x && Bool.eqb (top x) (top c)) l) by (apply nb_ext; intros x _; destruct (top x), (top c); auto).
    rewrite X1, X2 in IH. destruct (Nat.odd (nb upc l)); cbn [negb bn] in *; lia.
  - assert (Z : forall x, In x l -> upc x = false) by (intros x I; apply not_true_iff_false; intros Q; specialize (F1 x I Q); congruence).
    rewrite !nb_none by (intros x I; rewrite (Z x I); reflexivity). reflexivity.
Qed.
Lemma edge_count : nb upc (filter (fun c => negb (top c)) (seq 0 n)) = nb upc (filter top (seq 0 n)) + bn (odd (map upc (seq 0 n))).
Proof.
  destruct sorted_ex as (l & S & P). destruct (alt_sorted G q l Vq S) as [A _].
  assert (U : forall c, c < n -> upc c = true <-> actb q c = true /\ (H (eb c) (tl q) < cy q)%Qc) by (intros c L; apply (above_H ln n e V V' (mg_tilt _ _ _ _ _ _ G) (mg_incl _ _ _ _ _ _ G) (mg_ends _ _ _ _ _ _ G) (mg_line _ _ _ _ _ _ G)); auto).
  assert (F : ForallOrdPairs (fun a c => upc c = true -> upc a = true) l).
  { apply (FOP_impl (lo q)); [|apply S]. intros a b Ia Ib Lo Q. apply U in Q as [Q1 Q2]; [|apply (so_lt _ _ _ S Ib)]. apply U; [apply (so_lt _ _ _ S Ia)|]. split; [apply (so_actb _ _ _ S Ia)|]. unfold P_MonoGeo.lo in Lo. apply K_lt_iff in Lo as [Lo|[Lo _]]; qcl. }
  pose proof (alt_count l false A F) as C.
  assert (R : forall g : nat -> bool, nb (fun c => upc c && g c) l = nb upc (filter g (seq 0 n))).
  { intros g. rewrite <- (nb_perm _ _ _ P). assert (Us : forall c, In c (seq 0 n) -> actb q c = false -> upc c = false) by (intros c I W; apply in_seq in I; apply not_true_iff_false; intros Z; apply U in Z as [Z _]; [congruence|lia]).
    revert Us. generalize (seq 0 n). clear. induction l as [|c l IH]; intros W; auto. cbn [filter]. assert (W' : forall x, In x l -> actb q x = false -> upc x = false) by (intros x I; apply W; right; auto).
    destruct (actb q c) eqn:Ac, (g c) eqn:Gc; rewrite ?nb_cons, ?Gc, ?andb_true_r, ?andb_false_r, (IH W'); auto. rewrite (W c) by (auto; left; auto). reflexivity. }
  assert (R0 : nb upc l = nb upc (seq 0 n)).
  { transitivity (nb (fun c => upc c && true) l); [apply nb_ext; intros; symmetry; apply andb_true_r|]. rewrite (R (fun _ => true)). rewrite filter_all; auto. }
  rewrite odd_nb, <- R0, <- (R (fun c => negb (top c))), <- (R top).
  etransitivity; [|etransitivity; [exact C|]].
  - apply nb_ext. intros x _. destruct (top x); auto.
  - f_equal. apply nb_ext. intros x _. destruct (top x); auto.
Qed.

(** * All pieces *)
Definition upt (b : bool) (x : tge) : bool := Bool.eqb (snd x) b && up q (fst x).
Lemma upt_tagged : forall b b' l, nb (upt b) (tagged b' l) = if Bool.eqb b' b then nb (up q) (redges l) else 0.
Proof.
  intros b b' l. unfold tagged. rewrite nb_map. unfold upt. cbn [fst snd]. destruct (Bool.eqb b' b); cbn [andb]; auto. apply nb_none. auto.
Qed.
Lemma upt_edges : forall b D, nb (upt b) (flat_map tedges D) = list_sum (map (fun o => nb (up q) (redges (if b then ot o else ob o))) D).
Proof.
  intros b D. induction D as [|o D IH]; auto. cbn [flat_map map list_sum fold_right]. rewrite nb_app, IH. unfold tedges. rewrite nb_app, !upt_tagged. destruct b; cbn; unfold list_sum; lia.
Qed.
Lemma upt_twice : forall d, nb (upt true) (twice d) = nb (upt false) (twice d).
Proof. induction d as [|x d IH]; auto. cbn [twice flat_map app]. fold (twice d). rewrite !nb_cons. unfold upt at 1 2 4 5. cbn. lia. Qed.
Lemma upt_tag : forall b, nb (upt b) (map tag (seq 0 n)) = nb upc (filter (fun c => Bool.eqb (top c) b) (seq 0 n)).
Proof.
  intros b. rewrite nb_map. induction (seq 0 n) as [|c l IH]; auto. cbn [filter]. rewrite nb_cons, IH. unfold upt at 1, P_ChainStep.tag at 1 2, up. cbn [fst snd]. fold (upc c). destruct (Bool.eqb (top c) b); cbn [andb bn]; rewrite ?nb_cons; reflexivity.
Qed.
Theorem cover_once : forall D d, (forall o, In o D -> done o) -> Permutation (flat_map tedges D) (map tag (seq 0 n) ++ twice d) ->
  nb (fun m => piece_in m q) (map piece D) = bn (odd (map upc (seq 0 n))).
Proof.
  intros D d W P. rewrite nb_map. pose proof (upt_edges true D) as T. pose proof (upt_edges false D) as B. rewrite (nb_perm _ _ _ P), nb_app, upt_tag in T. rewrite (nb_perm _ _ _ P), nb_app, upt_tag in B. rewrite (upt_twice d) in T.
  assert (S : list_sum (map (fun o => nb (up q) (redges (ob o))) D) = list_sum (map (fun o => nb (up q) (redges (ot o))) D) + nb (fun o => piece_in (piece o) q) D).
  { clear - G Vq W. induction D as [|o D IH]; auto. cbn [map list_sum fold_right]. rewrite nb_cons. rewrite (piece_count o) by (apply W; left; auto). unfold list_sum in IH. rewrite IH by (intros; apply W; right; auto). lia. }
  pose proof edge_count as E.
  assert (X1 : nb upc (filter (fun c => Bool.eqb (top c) true) (seq 0 n)) = nb upc (filter top (seq 0 n))) by (f_equal; apply filter_ext; intros a; destruct (top a); auto).
  assert (X2 : nb upc (filter (fun c => Bool.eqb (top c) false) (seq 0 n)) = nb upc (filter (fun c => negb (top c)) (seq 0 n))) by (f_equal; apply filter_ext; intros a; destruct (top a); auto).
  lia.
Qed.
End Count.
