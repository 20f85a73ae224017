(** Polygon assembly: the sweep over the edges of the rings. *)
Require Import List String Bool Arith Lia Permutation Sorted.
From Verif Require Import Base Scalar M_Events M_Geo M_LineOrPoint M_Splay M_Slab M_Active M_Sweep M_Crossings M_Rings M_Op M_Laminar.
From Verif Require Import S_Geo P_Geo P_LineOrPoint P_Tilt P_Slab P_Active P_Chain P_Bundle P_Tile P_Heap P_Order P_Inv P_Store P_Handle P_LL P_Step P_Run.
From Verif Require Import S_Op P_OpLab P_OpPoint P_OpStep P_OpRun P_OpCount P_Rings.
Import Datatypes.
Import ListNotations.
Local Open Scope nat_scope.

(** * Sorting *)
Section Sort.
Variable kx : crossing -> Qc.
Definition lcmp (x y : crossing) : comparison :=
  match cr_left x, cr_left y with
  | true, false => Lt
  | false, true => Gt
  | false, false => Eq
  | true, true => (kx x ?= kx y)%Qc
  end.
Definition lle (x y : crossing) : Prop := lcmp x y <> Gt.
Lemma lle_trans : forall x y z, lle x y -> lle y z -> lle x z.
Proof.
  intros x y z. unfold lle, lcmp. destruct (cr_left x), (cr_left y), (cr_left z); try congruence;
    destruct (qcmp_spec (kx x) (kx y)), (qcmp_spec (kx y) (kx z)), (qcmp_spec (kx x) (kx z)); intros A B E; try congruence;
    exfalso; subst; qcl.
Qed.
Lemma lcmp_gt : forall x y, lcmp x y = Gt -> lle y x.
Proof.
  intros x y. unfold lle, lcmp. destruct (cr_left x), (cr_left y); try discriminate. rewrite (qcmp_opp (kx y) (kx x)). destruct (kx y ?= kx x)%Qc; cbn; discriminate.
Qed.
Lemma linsert_ok : forall x l, (forall y, In y l -> laminar_compare x y = Ok (lcmp x y)) -> StronglySorted lle l ->
  exists l', laminar_insert x l = Ok l' /\ Permutation (x :: l) l' /\ StronglySorted lle l'.
Proof.
  intros x l HC SL. induction SL as [|y l SL IH F]; cbn [laminar_insert].
  - exists [x]. split; [reflexivity|]. split; [auto|constructor; constructor].
  - rewrite HC by (left; auto). cbn [bind]. destruct (lcmp x y) eqn:E.
    + exists (x :: y :: l). split; [reflexivity|]. split; [auto|].
      constructor; [constructor; auto|]. rewrite Forall_forall in *. intros z [<-|Iz]; [unfold lle; congruence|].
      apply (lle_trans x y z); [unfold lle; congruence|auto].
    + exists (x :: y :: l). split; [reflexivity|]. split; [auto|].
      constructor; [constructor; auto|]. rewrite Forall_forall in *. intros z [<-|Iz]; [unfold lle; congruence|].
      apply (lle_trans x y z); [unfold lle; congruence|auto].
    + destruct IH as (l' & E1 & P & SL'); [intros z Iz; apply HC; right; auto|]. rewrite E1. cbn [bind].
      exists (y :: l'). split; [reflexivity|]. split; [eapply perm_trans; [apply perm_swap|]; constructor; exact P|].
      constructor; auto. rewrite Forall_forall in *. intros z Iz. apply (Permutation_in _ (Permutation_sym P)) in Iz. destruct Iz as [<-|Iz]; auto.
      apply lcmp_gt; auto.
Qed.
Lemma lsort_ok : forall l, (forall x y, In x l -> In y l -> laminar_compare x y = Ok (lcmp x y)) ->
  exists l', laminar_sort l = Ok l' /\ Permutation l l' /\ StronglySorted lle l'.
Proof.
  induction l as [|x l IH]; intros HC.
  - exists []. split; [reflexivity|]. split; [auto|constructor].
  - destruct IH as (l1 & E1 & P1 & S1); [intros; apply HC; right; auto|]. cbn [laminar_sort]. rewrite E1. cbn [bind].
    destruct (linsert_ok x l1) as (l' & E & P & SL); auto.
    { intros y Iy. apply HC; [left; auto|right]. eapply Permutation_in; [symmetry; exact P1|auto]. }
    exists l'. split; [exact E|]. split; [eapply perm_trans; [constructor; exact P1|exact P]|exact SL].
Qed.
Lemma lsorted_split : forall l, StronglySorted lle l -> exists S E, l = S ++ E /\
  (forall x, In x E -> cr_left x = false) /\ (forall x, In x S -> cr_left x = true) /\ StronglySorted (kle kx) S.
Proof.
  intros l SL. induction SL as [|x l SL IH F].
  - exists [], []. split; [reflexivity|]. split; [intros x []|]. split; [intros x []|constructor].
  - rewrite Forall_forall in F. destruct IH as (S & E & -> & LE & LS & SS).
    destruct (cr_left x) eqn:Ex.
    + exists (x :: S), E. split; [reflexivity|]. split; [auto|]. split; [intros y [<-|Iy]; auto|]. constructor; auto.
      apply Forall_forall. intros y Iy. specialize (F y (in_or_app _ _ _ (or_introl Iy))). unfold lle, lcmp in F. rewrite Ex, (LS y Iy) in F. unfold kle. apply Qcle_alt. auto.
    + assert (S = []) as ->.
      { destruct S as [|y S]; [reflexivity|]. exfalso. specialize (F y (or_introl eq_refl)). unfold lle, lcmp in F. rewrite Ex, (LS y (or_introl eq_refl)) in F. congruence. }
      exists [], (x :: E). split; [reflexivity|]. split; [intros y [<-|Iy]; auto|]. split; [intros y []|constructor].
Qed.
End Sort.
Lemma ovl_in : forall l x, ovl_ok l -> In x l -> cr_overlap x = true -> exists l1 y l2, l = l1 ++ x :: y :: l2 /\ cr_line y = cr_line x /\ cr_left y = cr_left x.
Proof.
  induction l as [|z l IH]; intros x O I Q; [destruct I|]. cbn [ovl_ok] in O. destruct O as [O1 O2]. destruct I as [->|I].
  - destruct (O2 Q) as (y & l2 & -> & A & B). exists [], y, l2. auto.
  - destruct (IH x O1 I Q) as (l1 & y & l2 & -> & A & B). exists (z :: l1), y, l2. auto.
Qed.

Section Lam.
Variables (ln : nat -> line) (tie : nat -> nat) (n : nat) (e : Qc) (V V' : list pt).
Hypothesis HT' : tilts e (fun p => In p V').
Hypothesis HVV : incl V V'.
Hypothesis HV1 : forall c a z, c < n -> geo ln c = Line a z -> In a V /\ In z V.
Hypothesis HV2 : forall c c' a z a' z' r, c < n -> c' < n -> geo ln c = Line a z -> geo ln c' = Line a' z' ->
  on_seg a z r -> on_seg a' z' r -> (forall r', on_seg a z r' -> on_seg a' z' r' -> r' = r) -> In r V.
Hypothesis HV3 : forall v, In v V ->
  (exists c, c < n /\ geo ln c = Point v) \/ (exists c a z, c < n /\ geo ln c = Line a z /\ (v = a \/ v = z)) \/
  (exists c c' a z a' z', c < n /\ c' < n /\ geo ln c = Line a z /\ geo ln c' = Line a' z' /\ on_seg a z v /\ on_seg a' z' v /\
     (forall r', on_seg a z r' -> on_seg a' z' r' -> r' = v)).
Context {ar : arith} {fa : faithful ar ln n}.
Hypothesis HL : forall c, c < n -> exists a z, geo ln c = Line a z.
(** The rings of the edges; whether the region is above an edge; whether no more
    than two edges meet at a vertex; which rings are around which. *)
Variables (rs : list ring) (rc : nat -> nat) (wc : nat -> bool) (sm : bool) (J : nat -> nat -> bool).
Definition hole (R : nat) : bool := match nth_error rs R with Some r => r_hole r | None => false end.
Notation tl := (tilt e).
Notation H := (P_Order.H e).
Notation ea := (ea ln).
Notation ez := (ez ln).
Notation eb := (eb ln).
Notation thr := (thr ln).
Notation actb := (actb ln).
Notation upto := (upto ln e).
Notation dst := (dst ln n e V).
Notation rst := (rst ln n e V).
Notation kx := (kx e).
Notation tot := (par (fun _ => true) n true).
Notation prt R := (par (fun c => rc c =? R) n true).
Hypothesis Rc : forall c, c < n -> rc c < List.length rs.
Hypothesis NO : no_overlap ln n.
Hypothesis Ends : forall v c, c < n -> In v V -> thr v c -> v = ea c \/ v = ez c.
Hypothesis HBt : forall b (g : pt -> bool), par (fun _ => true) n b (fun c => xorb (g (ea c)) (g (ez c))) = false.
Hypothesis HBr : forall R b (g : pt -> bool), par (fun c => rc c =? R) n b (fun c => xorb (g (ea c)) (g (ez c))) = false.
Hypothesis side : forall c, c < n -> tot (upto (ea c) c) = wc c.
Hypothesis own : forall c, c < n -> prt (rc c) (upto (ea c) c) = xorb (hole (rc c)) (wc c).
Hypothesis HJ : sm = true -> forall c R, c < n -> R <> rc c -> prt R (upto (ea c) c) = J (rc c) R.
Hypothesis JR : forall R, J R R = false.
Hypothesis Janti : sm = true -> forall R R', R <> R' -> R < List.length rs -> R' < List.length rs -> J R R' = true -> J R' R = true -> False.

Let HT : tilts e (fun p => In p V).
Proof. intros a b A B. apply HT'; auto. Qed.

Definition is_some {X} (o : option X) : bool := match o with Some _ => true | None => false end.
(** The rings around a place: none, or ring number [i] and those around it. *)
Definition nest (o : option nat) (R : nat) : bool := match o with None => false | Some i => (R =? i) || J i R end.
Definition vis (o : option nat) : option nat := match o with Some i => if hole i then None else Some i | None => None end.
(** A label: the exterior ring of the polygon that a region of the result belongs to. *)
Definition good_label (o : option nat) (f : nat -> bool) : Prop :=
  is_some o = tot f /\ (forall i, o = Some i -> i < List.length rs /\ hole i = false) /\
  (sm = true -> exists inn, (forall R, prt R f = nest inn R) /\ o = vis inn /\ forall i, inn = Some i -> i < List.length rs).
(** A ring: the innermost ring around it, which is a hole unless the ring is. *)
Definition good_ring (R p : nat) : Prop :=
  (hole R = true -> p < List.length rs /\ hole p = false) /\
  (sm = true -> exists inn, (forall R', J R R' = nest inn R') /\ (forall i, inn = Some i -> i < List.length rs /\ hole i = negb (hole R)) /\
     (hole R = true -> inn = Some p)).

Lemma good_ext : forall o f g, (forall c, c < n -> f c = g c) -> good_label o f -> good_label o g.
Proof.
  intros o f g E (A & B & C). split; [rewrite A; apply par_ext; auto|]. split; auto. intros S. destruct (C S) as (inn & C1 & C2). exists inn. split; auto. intros R.
  rewrite <- (C1 R). symmetry. apply par_ext; auto.
Qed.
Lemma adv_par : forall fs, (forall b (g : pt -> bool), par fs n b (fun c => xorb (g (ea c)) (g (ez c))) = false) ->
  forall p p' c, c < n -> In p V' -> In p' V' -> lex_lt p p' ->
  (forall v, In v V -> lex_lt p v -> lex_lt v p' -> False) -> actb p c = true -> actb p' c = true -> (In p' V -> thr p' c -> False) ->
  forall b, par fs n b (upto p c) = par fs n b (upto p' c).
Proof.
  intros fs HB p p' c L Vp Vp' Lp NV A A' NT. apply (lab_inv n Union fs). apply (advance ln n e V V' HT' HVV HV1 HV2 HL Union fs HB); auto.
Qed.
Lemma good_adv : forall o p p' c, c < n -> In p V' -> In p' V' -> lex_lt p p' ->
  (forall v, In v V -> lex_lt p v -> lex_lt v p' -> False) -> actb p c = true -> actb p' c = true -> (In p' V -> thr p' c -> False) ->
  good_label o (upto p c) -> good_label o (upto p' c).
Proof.
  intros o p p' c L Vp Vp' Lp NV A A' NT (G1 & G2 & G3). split; [|split; auto].
  - rewrite G1. apply (adv_par _ HBt); auto.
  - intros S. destruct (G3 S) as (inn & C1 & C2). exists inn. split; auto. intros R. rewrite <- (C1 R). symmetry. apply (adv_par _ (HBr R)); auto.
Qed.

(** ** What is known between two points *)
Record lin (p0 : pt) (es : list ledge) (parents : list nat) : Prop := {
  li_len : List.length es = n;
  li_es : forall c, c < n -> exists ed, nth_error es c = Some ed /\ le_ring ed = rc c /\ (actb p0 c = true -> good_label (le_region ed) (upto p0 c));
  li_plen : List.length parents = List.length rs;
  li_par : forall c, c < n -> lex_le (ea c) p0 -> good_ring (rc c) (nth (rc c) parents 0)
}.

Section Point.
Variables (p0 p1 : pt) (mu : nat) (sw : sweep) (act pend : list bundle) (pts ppend : list pin) (past : list crossing) (es : list ledge) (parents : list nat).
Hypothesis V0 : In p0 V'.
Hypothesis V1 : In p1 V.
Hypothesis L01 : lex_lt p0 p1.
Hypothesis NoV : forall v, In v V -> lex_lt p0 v -> lex_lt v p1 -> False.
Hypothesis D : dst p1 mu sw act pend pts ppend past.
Hypothesis NP : nopass e p1 act.
Hypothesis Li : lin p0 es parents.
Notation under := (P_OpStep.under ln e p1).

Lemma old_good : forall c ed, c < n -> nth_error es c = Some ed -> actb p1 c = true -> ~ thr p1 c -> good_label (le_region ed) (upto p1 c).
Proof.
  intros c ed L E A NT. pose proof (eV ln n V HV1 HL c L) as [Va Vz]. pose proof A as A'. apply actb_iff in A' as [A1 A2].
  assert (A0 : actb p0 c = true).
  { apply actb_iff. split; [|lord]. apply (V_le V p0 p1 NoV); auto. apply lex_le_neq; auto. intros Q. apply NT. rewrite <- Q. apply on_seg_start. }
  destruct (li_es _ _ _ Li c L) as (ed' & E' & _ & G). rewrite E in E'. injection E' as <-. apply (good_adv _ p0 p1); auto.
Qed.
Lemma start_at : forall x, In x (sw_out sw) -> cr_left x = true -> cr_cross x < n /\ ea (cr_cross x) = p1 /\ actb p1 (cr_cross x) = true /\ thr p1 (cr_cross x).
Proof.
  intros x I Lx. destruct (out_shape ln n e V HL p1 mu sw act pend pts ppend past D x I) as (L & _).
  destruct (proj1 (starts_iff ln tie n e V V' HT' HVV HV1 HL p1 mu sw act pend pts ppend past V1 D NP _ L)) as [A T]; [eauto|].
  split; auto. split; [|auto]. destruct (Ends p1 _ L V1 T) as [Q|Q]; auto. exfalso. apply actb_iff in A as [_ A]. rewrite <- Q in A. lord.
Qed.
Lemma start_inj : forall x y, In x (sw_out sw) -> In y (sw_out sw) -> cr_left x = true -> cr_left y = true -> kx x = kx y -> cr_cross x = cr_cross y.
Proof.
  intros x y Ix Iy Lx Ly Ek. destruct (Nat.eq_dec (cr_cross x) (cr_cross y)) as [Ec|Nc]; auto. exfalso.
  destruct (out_shape ln n e V HL p1 mu sw act pend pts ppend past D x Ix) as (L1 & p & q & E3 & Lt & Vp & Vq & T1 & T2 & P). rewrite Lx in P. subst p.
  destruct (out_shape ln n e V HL p1 mu sw act pend pts ppend past D y Iy) as (L2 & p & q' & E4 & Lt' & Vp' & Vq' & T1' & T2' & P). rewrite Ly in P. subst p.
  pose proof (ebg ln n V HV1 HL) as EBG.
  assert (Sm : same_line e (eb (cr_cross x)) (eb (cr_cross y))).
  { apply (K_eq_same e (tl p1)). apply K_eq_iff. rewrite <- !(kx_edge ln n e V V' HT' HVV HV1 HL p1 mu sw act pend pts ppend past D) by auto. split; auto.
    rewrite (onb_H e V HT _ p1 (EBG _ L1) T1), (onb_H e V HT _ p1 (EBG _ L2) T1'). reflexivity. }
  destruct (lex_le_dec q q') as [Lq|Lq].
  - apply (lex_lt_neq _ _ Lt). apply (NO (cr_cross x) (cr_cross y) p1 q); auto.
    pose proof (thr_between ln n HL _ _ L2 T2') as [_ Z]. pose proof (thr_between ln n HL _ _ L2 T1') as [Z' _].
    apply (onb_of e V HT (eb (cr_cross y)) q); [apply EBG; auto|auto|cbn [b_p P_OpLab.eb]; lord|cbn [b_q P_OpLab.eb]; lord|].
    rewrite <- (proj2 Sm). apply (onb_H e V HT); [apply EBG; auto|exact T2].
  - apply (lex_lt_neq _ _ Lt'). apply (NO (cr_cross x) (cr_cross y) p1 q'); auto.
    pose proof (thr_between ln n HL _ _ L1 T2) as [_ Z]. pose proof (thr_between ln n HL _ _ L1 T1) as [Z' _].
    apply (onb_of e V HT (eb (cr_cross x)) q'); [apply EBG; auto|auto|cbn [b_p P_OpLab.eb]; lord|cbn [b_q P_OpLab.eb]; lord|].
    rewrite (proj2 Sm). apply (onb_H e V HT); [apply EBG; auto|exact T2'].
Qed.
Lemma no_ovl : forall x, In x (sw_out sw) -> cr_left x = true -> cr_overlap x = false.
Proof.
  intros x I Lx. destruct (cr_overlap x) eqn:Q; auto. exfalso.
  destruct (ovl_in _ x (ba_ovl _ _ _ _ _ _ _ _ _ _ _ _ (dt_base _ _ _ _ _ _ _ _ _ _ _ _ D)) I Q) as (l1 & y & l2 & El & Ey & Ly).
  assert (Iy : In y (sw_out sw)) by (rewrite El; apply in_or_app; right; right; left; auto).
  assert (Ec : cr_cross x = cr_cross y) by (apply start_inj; auto; [congruence|unfold P_OpStep.kx; rewrite Ey; auto]).
  pose proof (starts_NoDup ln n e V HL p1 mu sw act pend pts ppend past D) as N. rewrite El, filter_app in N. cbn [filter] in N. rewrite Lx in N. rewrite Lx in Ly. rewrite Ly in N.
  rewrite map_app in N. cbn [map] in N. apply NoDup_remove_2 in N. apply N. apply in_or_app. right. left. auto.
Qed.
Lemma lcmp_ok : forall x y, In x (sw_out sw) -> In y (sw_out sw) -> laminar_compare x y = Ok (lcmp kx x y).
Proof.
  intros x y Ix Iy. pose proof (cmp_ok ln n e V V' HT' HVV HL p1 mu sw act pend pts ppend past D x y Ix Iy) as Q.
  unfold laminar_compare, lcmp, compare_crossings, ccmp in *. destruct (cr_left x), (cr_left y); auto.
  destruct (lop_partial_cmp (cr_line x) (cr_line y)) as [o|]; cbn [expect bind] in *; [|discriminate]. injection Q as ->. reflexivity.
Qed.

Section Starts.
Variables (S E l' : list crossing).
Hypothesis Pl : Permutation (sw_out sw) l'.
Hypothesis El : l' = S ++ E.
Hypothesis LE : forall x, In x E -> cr_left x = false.
Hypothesis LS : forall x, In x S -> cr_left x = true.
Hypothesis SS : StronglySorted (kle kx) S.
Let HS : forall x, In x S <-> In x (sw_out sw) /\ cr_left x = true.
Proof.
  intros x. split.
  - intros I. split; [|auto]. eapply Permutation_in; [symmetry; exact Pl|]. rewrite El. apply in_or_app; auto.
  - intros [I Lx]. apply (Permutation_in _ Pl) in I. rewrite El in I. apply in_app_iff in I as [I|I]; auto. rewrite (LE x I) in Lx. discriminate.
Qed.
Let NDS : NoDup (map (@cr_cross nat) S).
Proof.
  pose proof (starts_NoDup ln n e V HL p1 mu sw act pend pts ppend past D) as Q. eapply Permutation_NoDup; [|exact Q]. apply Permutation_map.
  eapply perm_trans; [apply perm_filter; exact Pl|]. rewrite El, filter_app, (filter_none2 _ E) by auto. rewrite app_nil_r, filter_all by auto. reflexivity.
Qed.
(** Up to a start: the starts before it. *)
Lemma lower_pre : forall pre x l, S = pre ++ x :: l -> P_OpPoint.lower kx S x = map (@cr_cross nat) (pre ++ [x]).
Proof.
  intros pre x l Q. assert (SS' := SS). assert (ND := NDS). assert (HS' := HS). unfold P_OpPoint.lower. rewrite Q in SS', ND, HS' |- *.
  assert (F1 : forall y, In y pre -> (kx y <= kx x)%Qc).
  { intros y I. clear - SS' I. induction pre as [|z pre IH]; [destruct I|]. cbn [app] in SS'. inversion SS' as [|? ? S1 F]; subst. destruct I as [->|I]; auto.
    rewrite Forall_forall in F. apply F. apply in_or_app; right; left; auto. }
  assert (F2 : forall y, In y l -> ~ (kx y <= kx x)%Qc).
  { intros y I Z. assert (Z' : (kx x <= kx y)%Qc).
    { clear - SS' I. induction pre as [|z pre IH]; cbn [app] in SS'; inversion SS' as [|? ? S1 F]; subst; auto. rewrite Forall_forall in F. apply F; auto. }
    assert (Ix : In x (pre ++ x :: l)) by (apply in_or_app; right; left; auto). assert (Iy : In y (pre ++ x :: l)) by (apply in_or_app; right; right; auto).
    apply HS' in Ix as [Ix Lx]. apply HS' in Iy as [Iy Ly]. pose proof (start_inj x y Ix Iy Lx Ly (Qcle_antisym _ _ Z' Z)) as Ec.
    rewrite map_app in ND. cbn [map] in ND. apply NoDup_remove_2 in ND. apply ND. apply in_or_app. right. rewrite Ec. apply in_map; auto. }
  rewrite filter_app. cbn [filter]. rewrite (proj2 (qleb_iff _ _) (Qcle_refl (kx x))). rewrite filter_all by (intros y I; apply qleb_iff; auto).
  rewrite (filter_none2 _ l); [reflexivity|]. intros y I. destruct (qleb (kx y) (kx x)) eqn:Z; auto. apply qleb_iff in Z. destruct (F2 y I Z).
Qed.
Lemma Perm' : Permutation (sw_out sw) (E ++ S).
Proof. rewrite Pl, El. apply Permutation_app_comm. Qed.
Lemma upto_pre : forall pre x l c, S = pre ++ x :: l -> c < n -> upto p1 (cr_cross x) c = xorb (under c) (inb (map (@cr_cross nat) (pre ++ [x])) c).
Proof.
  intros pre x l c Q L. rewrite <- (lower_pre pre x l Q). assert (Ix : In x S) by (rewrite Q; apply in_or_app; right; left; auto).
  assert (P2 := Perm'). assert (LS2 := LS). assert (SS2 := SS).
  assert (Z : exists bot S0, S = bot :: S0) by (clear - Ix; destruct S as [|bot S0]; [destruct Ix|eauto]). destruct Z as (bot & S0 & Z).
  rewrite Z in P2, LS2, SS2, Ix |- *.
  apply (start_upto ln tie n e V V' HT' HVV HV1 HL p1 mu sw act pend pts ppend past V1 D NP (E ++ bot :: S0) E bot S0 P2 eq_refl LE LS2); auto.
Qed.

(** In the middle of the starts at a point. *)
Definition before (pre : list crossing) (c : nat) : bool := xorb (under c) (inb (map (@cr_cross nat) pre) c).
Record mid (pre : list crossing) (es : list ledge) (parents : list nat) (below : option nat) : Prop := {
  mi_len : List.length es = n;
  mi_below : good_label below (before pre);
  mi_es : forall c, c < n -> exists ed, nth_error es c = Some ed /\ le_ring ed = rc c /\
    (actb p1 c = true -> ~ thr p1 c \/ In c (map (@cr_cross nat) pre) -> good_label (le_region ed) (upto p1 c));
  mi_plen : List.length parents = List.length rs;
  mi_par : forall c, c < n -> lex_lt (ea c) p1 \/ In c (map (@cr_cross nat) pre) -> good_ring (rc c) (nth (rc c) parents 0)
}.
Lemma inb_snoc : forall pre x c, ~ In (cr_cross x) (map (@cr_cross nat) pre) -> inb (map (@cr_cross nat) (pre ++ [x])) c = xorb (inb (map (@cr_cross nat) pre) c) (c =? cr_cross x).
Proof.
  intros pre x c N. rewrite map_app, inb_app. cbn [map inb existsb]. rewrite orb_false_r. destruct (Nat.eqb_spec c (cr_cross x)) as [->|Q].
  - destruct (inb _ (cr_cross x)) eqn:Z; auto. apply inb_spec in Z. contradiction.
  - rewrite orb_false_r, xorb_false_r. reflexivity.
Qed.
Lemma cross_step : forall pre x l es parents below, S = pre ++ x :: l -> mid pre es parents below ->
  (exists b' ps', laminar_cross rs (rc (cr_cross x)) parents below = Ok (b', ps') /\ good_label b' (upto p1 (cr_cross x)) /\
     List.length ps' = List.length rs /\ (forall c, c < n -> lex_lt (ea c) p1 \/ In c (map (@cr_cross nat) (pre ++ [x])) -> good_ring (rc c) (nth (rc c) ps' 0))) \/
  (sm = false /\ exists m, laminar_cross rs (rc (cr_cross x)) parents below = Panic m).
Proof.
  intros pre x l es0 ps below Q M. assert (Ix : In x S) by (rewrite Q; apply in_or_app; right; left; auto).
  assert (Ixo := Ix). apply HS in Ixo as [Ixo Lx]. destruct (start_at x Ixo Lx) as (L & Eap & Ac & Th). set (c := cr_cross x) in *. set (R := rc c) in *.
  assert (Npre : ~ In c (map (@cr_cross nat) pre)).
  { assert (ND := NDS). rewrite Q, map_app in ND. cbn [map] in ND. apply NoDup_remove_2 in ND. intros I. apply ND. apply in_or_app; auto. }
  (** the parities change by this edge *)
  assert (UB : forall c', c' < n -> upto p1 c c' = xorb (before pre c') (c' =? c)).
  { intros c' L'. unfold c. rewrite (upto_pre pre x l c' Q L'). unfold before. rewrite inb_snoc by exact Npre. rewrite xorb_assoc. reflexivity. }
  assert (PT : forall fs b, par fs n b (upto p1 c) = xorb (par fs n b (before pre)) (Bool.eqb (fs c) b)).
  { intros fs b. rewrite (par_ext fs n b _ _ UB), par_xor, par_eqb by auto. reflexivity. }
  assert (Wc : tot (upto p1 c) = wc c) by (rewrite <- Eap; apply side; auto).
  assert (Ow : prt R (upto p1 c) = xorb (hole R) (wc c)) by (rewrite <- Eap; apply own; auto).
  assert (Bt : tot (before pre) = negb (wc c)).
  { pose proof (PT (fun _ => true) true) as Z. rewrite Wc in Z. cbn [Bool.eqb] in Z. rewrite Z. destruct (tot (before pre)); reflexivity. }
  assert (BR : prt R (before pre) = negb (xorb (hole R) (wc c))).
  { pose proof (PT (fun c => rc c =? R) true) as Z. rewrite Ow in Z. fold R in Z. rewrite Nat.eqb_refl in Z. cbn [Bool.eqb] in Z. rewrite Z. destruct (prt R (before pre)); reflexivity. }
  assert (BO : forall R', R' <> R -> prt R' (before pre) = prt R' (upto p1 c)).
  { intros R' N. rewrite (PT (fun c => rc c =? R') true). fold R. destruct (Nat.eqb_spec R R') as [Z|_]; [congruence|]. cbn [Bool.eqb]. rewrite xorb_false_r. reflexivity. }
  assert (BJ : sm = true -> forall R', R' <> R -> prt R' (upto p1 c) = J R R').
  { intros Sm R' N. rewrite <- Eap. apply HJ; auto. }
  assert (LR : R < List.length rs) by (apply Rc; auto).
  destruct (nth_error rs R) as [r|] eqn:Er; [|apply nth_error_None in Er; lia].
  assert (Hr : hole R = r_hole r) by (unfold hole; rewrite Er; reflexivity).
  destruct (mi_below _ _ _ _ M) as (B1 & B2 & B3). unfold laminar_cross, ring_at. fold R. rewrite Er. cbn [expect bind].
  (** rings that have been met before *)
  assert (Met : prt R (before pre) = true -> good_ring R (nth R ps 0)).
  { intros Pb. assert (Z : exists c', c' < n /\ rc c' = R /\ (lex_lt (ea c') p1 \/ In c' (map (@cr_cross nat) pre))).
    { destruct (existsb (fun c' => (rc c' =? R) && before pre c') (seq 0 n)) eqn:Ex.
      - apply existsb_exists in Ex as (c' & I & Z). apply in_seq in I. apply andb_true_iff in Z as [Z1 Z2]. apply Nat.eqb_eq in Z1. exists c'. split; [lia|]. split; auto.
        unfold before in Z2. destruct (inb (map (@cr_cross nat) pre) c') eqn:Z3; [right; apply inb_spec; auto|]. rewrite xorb_false_r in Z2. left.
        unfold P_OpStep.under in Z2. apply andb_true_iff in Z2 as [Z2 Z4]. apply actb_iff in Z2 as [Z2 Z5]. apply lex_le_neq; auto. intros Z6.
        apply qltb_iff in Z4. assert (T : thr p1 c') by (rewrite <- Z6; apply on_seg_start).
        apply (thr_iff ln n e V V' HT' HVV HV1 HL) in T; auto; [rewrite T in Z4; destruct (Qclt_not_eq _ _ Z4 eq_refl)|lia|apply lex_lt_le; auto].
      - exfalso. assert (Z : prt R (before pre) = false).
        { apply odd_none. intros c' I. destruct ((rc c' =? R) && before pre c') eqn:Z; [|destruct (rc c' =? R), (before pre c'); try reflexivity; discriminate].
          assert (Z' : existsb (fun c' => (rc c' =? R) && before pre c') (seq 0 n) = true) by (apply existsb_exists; eauto). congruence. }
        congruence. }
    destruct Z as (c' & L' & Z1 & Z2). rewrite <- Z1. apply (mi_par _ _ _ _ M); auto. }
  (** nothing changes for the other rings *)
  assert (Keep : forall ps', (forall k, k <> R -> nth k ps' 0 = nth k ps 0) -> good_ring R (nth R ps' 0) ->
    forall c', c' < n -> lex_lt (ea c') p1 \/ In c' (map (@cr_cross nat) (pre ++ [x])) -> good_ring (rc c') (nth (rc c') ps' 0)).
  { intros ps' K G c' L' I. destruct (Nat.eq_dec (rc c') R) as [Z|Z]; [rewrite Z; exact G|]. rewrite (K _ Z). apply (mi_par _ _ _ _ M); auto.
    destruct I as [I|I]; auto. right. rewrite map_app in I. apply in_app_iff in I as [I|[I|[]]]; auto. exfalso. apply Z. rewrite <- I. reflexivity. }
  destruct below as [ext|].
  - cbn [is_some] in B1. rewrite Bt in B1. symmetry in B1. apply negb_true_iff in B1. destruct (B2 ext eq_refl) as (E1 & E2). destruct (r_hole r) eqn:Hh.
    + left. eexists _, _. split; [reflexivity|]. split; [|split; [rewrite set_length; apply (mi_plen _ _ _ _ M)|]].
      * split; [rewrite Wc; symmetry; exact B1|]. split; [intros i Z; discriminate|]. intros Sm. exists (Some R). split; [|split; [cbn [vis]; rewrite Hr; reflexivity|intros i Z; injection Z as <-; auto]].
        intros R'. cbn [nest]. destruct (Nat.eqb_spec R' R) as [->|N]; [rewrite Ow, Hr, B1; reflexivity|]. apply BJ; auto.
      * assert (GP : good_ring R ext).
        { split; [auto|]. intros Sm. exists (Some ext). split; [|split; [intros i Z; injection Z as <-; rewrite Hr; auto|auto]].
          destruct (B3 Sm) as (inn & I1 & I2 & _). assert (inn = Some ext) as ->.
          { destruct inn as [i|]; cbn [vis] in I2; [destruct (hole i); congruence|congruence]. }
          intros R'. rewrite <- I1. destruct (Nat.eq_dec R' R) as [->|N].
          - rewrite JR, BR, Hr, B1. reflexivity.
          - rewrite (BO R' N), (BJ Sm R' N). reflexivity. }
        assert (Nn : nth R (list_set R ext ps) 0 = ext).
        { erewrite nth_error_nth; [reflexivity|]. apply (set_nth_eq R ext (nth R ps 0)). apply nth_error_nth'. rewrite (mi_plen _ _ _ _ M). exact LR. }
        apply Keep; [|rewrite Nn; exact GP]. intros k Nk. destruct (le_lt_dec (List.length ps) k) as [Lk|Lk].
        -- rewrite !nth_overflow; auto. rewrite set_length. auto.
        -- erewrite nth_error_nth; [reflexivity|]. rewrite set_nth_ne by auto. apply nth_error_nth'. exact Lk.
    + destruct (Nat.eqb_spec R ext) as [Z|Z].
      * assert (GR : good_ring R (nth R ps 0)) by (apply Met; rewrite BR, Hr, B1; reflexivity).
        left. exists None, ps. split; [cbn [check bind]; reflexivity|]. split; [|split; [apply (mi_plen _ _ _ _ M)|apply Keep; auto]].
        split; [rewrite Wc; symmetry; exact B1|]. split; [intros i Z'; discriminate|]. intros Sm. destruct GR as [_ GR]. destruct (GR Sm) as (inn & I1 & I2 & _). exists inn.
        split; [|split; [destruct inn as [i|]; [|reflexivity]; cbn [vis]; destruct (I2 i eq_refl) as [_ ->]; rewrite Hr; reflexivity|intros i Q1; apply (I2 i Q1)]].
        intros R'. rewrite <- I1. destruct (Nat.eq_dec R' R) as [->|N]; [rewrite JR, Ow, Hr, B1; reflexivity|apply BJ; auto].
      * right. split; [|cbn [check bind]; eauto]. destruct sm eqn:Sm; auto. exfalso. destruct (B3 eq_refl) as (inn & I1 & I2 & _). assert (inn = Some ext) as ->.
        { destruct inn as [i|]; cbn [vis] in I2; [destruct (hole i); congruence|congruence]. }
        assert (J1 : J ext R = true).
        { pose proof (I1 R) as Q1. rewrite BR, Hr, B1 in Q1. cbn in Q1. destruct (Nat.eqb_spec R ext); [contradiction|]. symmetry. exact Q1. }
        assert (J2 : J R ext = true).
        { assert (N : ext <> R) by congruence. rewrite <- (BJ eq_refl ext N), <- (BO ext N), (I1 ext). cbn [nest]. rewrite Nat.eqb_refl. reflexivity. }
        apply (Janti eq_refl ext R); auto.
  - cbn [is_some] in B1. rewrite Bt in B1. symmetry in B1. apply negb_false_iff in B1. destruct (r_hole r) eqn:Hh.
    + assert (GR : good_ring R (nth R ps 0)) by (apply Met; rewrite BR, Hr, B1; reflexivity).
      left. exists (Some (nth R ps 0)), ps. split; [rewrite (nth_error_nth' ps 0) by (rewrite (mi_plen _ _ _ _ M); exact LR); reflexivity|].
      split; [|split; [apply (mi_plen _ _ _ _ M)|apply Keep; auto]]. destruct GR as [G1 G2]. destruct (G1 Hr) as [G3 G4].
      split; [rewrite Wc, B1; reflexivity|]. split; [intros i Z; injection Z as <-; auto|]. intros Sm. destruct (G2 Sm) as (inn & I1 & I2 & I3). rewrite (I3 Hr) in *.
      exists (Some (nth R ps 0)). split; [|split; [cbn [vis]; rewrite G4; reflexivity|intros i Z; injection Z as <-; auto]].
      intros R'. rewrite <- I1. destruct (Nat.eq_dec R' R) as [->|N]; [|apply BJ; auto]. rewrite JR, Ow, Hr, B1. reflexivity.
    + assert (GR : good_ring R (nth R ps 0)).
      { split; [congruence|]. intros Sm. destruct (B3 Sm) as (inn & I1 & I2 & I3). exists inn. split; [|split; [|congruence]].
        - intros R'. rewrite <- I1. destruct (Nat.eq_dec R' R) as [->|N]; [rewrite JR, BR, Hr, B1; reflexivity|]. rewrite (BO R' N), (BJ Sm R' N). reflexivity.
        - intros i ->. split; auto. cbn [vis] in I2. rewrite Hr. destruct (hole i); [reflexivity|discriminate]. }
      left. exists (Some R), ps. split; [reflexivity|]. split; [|split; [apply (mi_plen _ _ _ _ M)|apply Keep; auto]].
      split; [rewrite Wc, B1; reflexivity|]. split; [intros i Z; injection Z as <-; auto|]. intros Sm. exists (Some R). split; [|split; [cbn [vis]; rewrite Hr; reflexivity|intros i Z; injection Z as <-; auto]].
      intros R'. cbn [nest]. destruct (Nat.eqb_spec R' R) as [->|N]; [rewrite Ow, Hr, B1; reflexivity|]. apply BJ; auto.
Qed.
Lemma mid_step : forall pre x l es parents below b' ps' ed, S = pre ++ x :: l -> mid pre es parents below -> nth_error es (cr_cross x) = Some ed ->
  good_label b' (upto p1 (cr_cross x)) -> List.length ps' = List.length rs ->
  (forall c, c < n -> lex_lt (ea c) p1 \/ In c (map (@cr_cross nat) (pre ++ [x])) -> good_ring (rc c) (nth (rc c) ps' 0)) ->
  mid (pre ++ [x]) (list_set (cr_cross x) (mkLedge (le_geom ed) (le_ring ed) b') es) ps' b'.
Proof.
  intros pre x l es0 ps below b' ps' ed Q M Ed G Lp GP. assert (Ix : In x S) by (rewrite Q; apply in_or_app; right; left; auto).
  apply HS in Ix as [Ixo Lx]. destruct (start_at x Ixo Lx) as (L & Eap & Ac & Th). constructor; auto.
  - rewrite set_length. apply (mi_len _ _ _ _ M).
  - apply (good_ext b' (upto p1 (cr_cross x))); auto. intros c Lc. apply (upto_pre pre x l); auto.
  - intros c Lc. rewrite set_nth. destruct (mi_es _ _ _ _ M c Lc) as (ed' & E1 & E2 & E3). destruct (Nat.eqb_spec c (cr_cross x)) as [->|N].
    + rewrite (mi_len _ _ _ _ M), (proj2 (Nat.ltb_lt _ _) L). cbn [andb]. eexists. split; [reflexivity|]. rewrite Ed in E1. injection E1 as <-. cbn [le_ring le_region]. split; auto.
    + cbn [andb]. exists ed'. split; auto. split; auto. intros A I. apply E3; auto. destruct I as [I|I]; auto. right. rewrite map_app in I. apply in_app_iff in I as [I|[I|[]]]; auto. congruence.
Qed.
Lemma starts_ok : forall l pre es parents below, S = pre ++ l -> mid pre es parents below ->
  (exists es' parents' below', laminar_starts rs es parents (l ++ E) below = Ok (es', parents') /\ mid S es' parents' below') \/
  (sm = false /\ exists m, laminar_starts rs es parents (l ++ E) below = Panic m).
Proof.
  induction l as [|x l IH]; intros pre es0 ps below Q M.
  - left. rewrite app_nil_r in Q. subst pre. exists es0, ps, below. split; [|exact M]. cbn [app]. destruct E as [|y E']; [reflexivity|]. cbn [laminar_starts].
    rewrite (LE y (or_introl eq_refl)). reflexivity.
  - cbn [app laminar_starts]. assert (Ix : In x S) by (rewrite Q; apply in_or_app; right; left; auto). assert (Ixo := Ix). apply HS in Ixo as [Ixo Lx].
    rewrite Lx, (no_ovl x Ixo Lx). cbn [negb check bind]. destruct (start_at x Ixo Lx) as (L & _).
    destruct (mi_es _ _ _ _ M _ L) as (ed & E1 & E2 & _). unfold ledge_at. rewrite E1. cbn [expect bind]. rewrite E2.
    destruct (cross_step pre x l es0 ps below Q M) as [(b' & ps' & E3 & G & Lp & GP)|(Sm & m & E3)].
    + rewrite E3. cbn [bind]. assert (Q' : S = (pre ++ [x]) ++ l) by (rewrite <- app_assoc; exact Q).
      pose proof (mid_step pre x l es0 ps below b' ps' ed Q M E1 G Lp GP) as M'. rewrite E2 in M'. exact (IH (pre ++ [x]) _ _ _ Q' M').
    + right. split; auto. rewrite E3. cbn [bind]. eauto.
Qed.
End Starts.

Lemma lpoint_ok : 
  (exists it2 es' parents', laminar_point rs sw es parents = Ok (it2, es', parents') /\
     (exists t l, it2 = set_active t (set_out l sw) /\ holds t (map b_key act)) /\ lin p1 es' parents') \/
  (sm = false /\ exists m, laminar_point rs sw es parents = Panic m).
Proof.
  destruct (lsort_ok kx (sw_out sw) lcmp_ok) as (l' & Es & Pl & SL). destruct (lsorted_split kx l' SL) as (S & E & El & LE & LS & SS).
  assert (HS : forall x, In x S <-> In x (sw_out sw) /\ cr_left x = true).
  { intros x. split.
    - intros I. split; [|auto]. eapply Permutation_in; [symmetry; exact Pl|]. rewrite El. apply in_or_app; auto.
    - intros [I Lx]. apply (Permutation_in _ Pl) in I. rewrite El in I. apply in_app_iff in I as [I|I]; auto. rewrite (LE x I) in Lx. discriminate. }
  pose proof (out_ne ln tie n e V HT HV3 _ _ _ _ _ _ _ _ D V1) as Ne.
  unfold laminar_point, ci_intersections. rewrite Es. cbn [bind].
  (** edges that start here *)
  assert (New : forall c, c < n -> ea c = p1 -> exists x, In x S /\ cr_cross x = c).
  { intros c L Q. destruct (proj2 (starts_iff ln tie n e V V' HT' HVV HV1 HL p1 mu sw act pend pts ppend past V1 D NP c L)) as (x & Ix & Lx & Ex).
    - split; [apply actb_iff; rewrite Q; split; [apply lex_le_refl|]; rewrite <- Q; apply (e_lt ln n HL); auto|rewrite <- Q; apply on_seg_start].
    - exists x. split; [apply HS; auto|auto]. }
  assert (Fin : forall es' ps' b', mid S es' ps' b' -> lin p1 es' ps').
  { intros es' ps' b' [M1 M2 M3 M4 M5]. constructor; auto.
    - intros c L. destruct (M3 c L) as (ed & E1 & E2 & E3). exists ed. split; auto. split; auto. intros A. apply E3; auto.
      destruct (dec_thr ln n e V V' HT' HVV HV1 HL p1 c L (HVV _ V1) A) as [T|T]; auto. right.
      destruct (Ends p1 c L V1 T) as [Q|Q]; [|exfalso; apply actb_iff in A as [_ A]; rewrite <- Q in A; lord].
      destruct (New c L (eq_sym Q)) as (x & Ix & <-). apply in_map; auto.
    - intros c L Le. apply M5; auto. destruct (pt_dec (ea c) p1) as [Q|Q]; [right|left; apply lex_le_neq; auto]. destruct (New c L Q) as (x & Ix & <-). apply in_map; auto. }
  assert (Ini : forall below, good_label below under -> mid [] es parents below).
  { intros below G. constructor.
    - apply (li_len _ _ _ Li).
    - apply (good_ext below under); auto. intros c _. unfold before. cbn. rewrite xorb_false_r. reflexivity.
    - intros c L. destruct (li_es _ _ _ Li c L) as (ed & E1 & E2 & E3). exists ed. split; auto. split; auto. intros A [T|[]]. apply old_good; auto.
    - apply (li_plen _ _ _ Li).
    - intros c L [Q|[]]. apply (li_par _ _ _ Li); auto. apply (V_le V p0 p1 NoV); auto. apply (eV ln n V HV1 HL); auto. }
  destruct S as [|bot S0].
  - cbn [app] in El. subst l'. destruct E as [|y E].
    + exfalso. apply Ne. apply Permutation_sym, Permutation_nil in Pl. exact Pl.
    + left. rewrite (LE y (or_introl eq_refl)). cbn [negb]. eexists _, _, _. split; [reflexivity|]. split.
      * exists (sw_active sw), (y :: E). split; [destruct sw; reflexivity|]. apply (ba_act _ _ _ _ _ _ _ _ _ _ _ _ (dt_base _ _ _ _ _ _ _ _ _ _ _ _ D)).
      * constructor.
        -- apply (li_len _ _ _ Li).
        -- intros c L. destruct (li_es _ _ _ Li c L) as (ed & E1 & E2 & E3). exists ed. split; auto. split; auto. intros A. apply old_good; auto.
           intros T. destruct (Ends p1 c L V1 T) as [Q|Q]; [|apply actb_iff in A as [_ A]; rewrite <- Q in A; lord]. destruct (New c L (eq_sym Q)) as (x & [] & _).
        -- apply (li_plen _ _ _ Li).
        -- intros c L Le. apply (li_par _ _ _ Li); auto. apply (V_le V p0 p1 NoV); [apply (eV ln n V HV1 HL); auto|]. apply lex_le_neq; auto. intros Q. destruct (New c L Q) as (x & [] & _).
  - rewrite El. cbn [app]. rewrite (LS bot (or_introl eq_refl)). cbn [negb].
    destruct (prev_seg ln tie n e V V' HT' HVV HV1 HL p1 mu sw act pend pts ppend past V1 D NP (E ++ bot :: S0) E bot S0 (Perm' (bot :: S0) E l' Pl El) eq_refl LE LS SS (or_intror NO))
      as (t & prev & Ep & Ht & Q).
    rewrite Ep. cbn [bind].
    assert (Bl : exists below, match prev with Some sg => let* ed := ledge_at es (sg_cross sg) in Ok (le_region ed) | None => Ok None end = Ok below /\ good_label below under).
    { destruct prev as [sg|].
      - destruct Q as (L & A & NT & _ & U). destruct (li_es _ _ _ Li _ L) as (ed & E1 & _). exists (le_region ed). unfold ledge_at. rewrite E1. split; [reflexivity|].
        apply (good_ext _ (upto p1 (sg_cross sg))); auto. apply old_good; auto.
      - exists None. split; [reflexivity|]. split; [symmetry; apply par_none; auto|]. split; [intros i Z; discriminate|].
        intros _. exists None. split; [intros R; apply par_none; auto|]. split; [reflexivity|intros i Z; discriminate]. }
    destruct Bl as (below & Eb & G). rewrite Eb. cbn [bind].
    destruct (starts_ok (bot :: S0) E l' Pl El LE LS SS (bot :: S0) [] es parents below eq_refl (Ini below G)) as [(es' & ps' & b' & E1 & M)|(Sm & m & E1)].
    + left. cbn [app] in E1. rewrite E1. cbn [bind]. eexists _, _, _. split; [reflexivity|]. split; [exists t; eexists; split; [reflexivity|auto]|]. eapply Fin; eauto.
    + right. split; auto. cbn [app] in E1. rewrite E1. cbn [bind]. eauto.
Qed.
End Point.

(** ** The loop *)
Notation rdyo := (rdyo ln n e V).
Theorem lloop_ok : forall mu sw past p0 es parents N fuel, rdyo mu sw past p0 -> lin p0 es parents -> (forall x, In x past -> lex_le (crpt x) p0) -> In p0 V' -> mu < fuel -> mu < N ->
  (exists parents', laminar_loop tie N fuel ln rs sw es parents = Ok parents' /\ List.length parents' = List.length rs /\
     forall c, c < n -> good_ring (rc c) (nth (rc c) parents' 0)) \/
  (sm = false /\ exists m, laminar_loop tie N fuel ln rs sw es parents = Panic m).
Proof.
  induction mu as [mu IH] using lt_wf_ind. intros sw past p0 es ps N fuel R Li Pst V0 Lf LN. destruct N as [|N]; [lia|]. cbn [laminar_loop].
  destruct R as [(p1 & act & pend & pts & ppend & Ep & V1 & L01 & NoV & R)|[E F]].
  - destruct (next_dst ln tie n e V V' HT' HVV HV1 HV2 HV3 mu sw past fuel p1 act pend pts ppend Ep V1 R Lf) as (sw2 & mu2 & act2 & pend2 & ppend2 & E1 & Lm & D & NP).
    rewrite E1. cbn [bind].
    destruct (lpoint_ok p0 p1 mu2 sw2 act2 pend2 pts ppend2 past es ps V0 V1 L01 NoV D NP Li) as [(it2 & es' & ps' & E2 & (t & l & Et & Ht) & Li')|(Sm & m & E2)].
    + rewrite E2. cbn [bind]. pose proof (dt_base _ _ _ _ _ _ _ _ _ _ _ _ D) as Ba.
      assert (Pst' : forall x, In x (past ++ sw_out sw2) -> lex_le (crpt x) p1).
      { intros x I. apply in_app_iff in I as [I|I]; [apply lex_lt_le; apply (ba_past _ _ _ _ _ _ _ _ _ _ _ _ Ba x I)|].
        rewrite (ba_out _ _ _ _ _ _ _ _ _ _ _ _ Ba x I). apply lex_le_refl. }
      apply (IH mu2 ltac:(lia) it2 (past ++ sw_out sw2) p1); auto; try lia.
      destruct (peek_point sw2) as [p2|] eqn:Ep2.
      * left. destruct (to_next ln tie n e V HT HV3 p1 p2 _ _ _ _ _ _ _ D NP V1 Ep2) as (V2 & L12 & R2 & NV2).
        exists p2, act2, pend2, pts, ppend2. split; [rewrite Et; exact Ep2|]. split; auto. split; auto. split; auto. rewrite Et. apply rst_active; auto.
      * right. apply peek_none in Ep2. split; [rewrite Et; exact Ep2|]. eapply base_final; [exact tie|apply D|apply D|exact Ep2].
    + right. split; auto. rewrite E2. cbn [bind]. eauto.
  - left. assert (En : ci_next ln tie fuel sw = Ok (set_out [] sw, None)).
    { unfold ci_next. assert (Ep : peek_point (set_out [] sw) = None) by (unfold peek_point; cbn [set_out sw_events]; rewrite E; reflexivity).
      rewrite Ep. destruct fuel as [|fuel]; [lia|]. cbn [ci_loop]. rewrite Ep. reflexivity. }
    rewrite En. cbn [bind]. exists ps. split; [reflexivity|]. split; [apply (li_plen _ _ _ Li)|]. intros c L.
    apply (li_par _ _ _ Li); auto. destruct (HL c L) as (a & z & Eg). pose proof (fi_tile _ _ _ _ F c a z L Eg) as T. pose proof (e_lt ln n HL c L) as Lt.
    assert (Ea : ea c = a) by (unfold P_OpLab.ea; rewrite Eg; reflexivity). assert (Ez : ez c = z) by (unfold P_OpLab.ez; rewrite Eg; reflexivity). rewrite Ea, Ez in Lt.
    destruct (tile_cover_l V a z _ a T (lex_le_refl a) Lt) as (x & y & I & A & B). apply ended_in in I as (r & Ir & _ & Lr & Er).
    pose proof (Pst r Ir) as Q. unfold crpt in Q. rewrite Er, Lr in Q. rewrite Ea. lord.
Qed.
Theorem lam_run : forall s0 es fuel, In s0 V' -> (forall v, In v V -> lex_lt s0 v) -> List.length es = n ->
  (forall c, c < n -> exists ed, nth_error es c = Some ed /\ le_ring ed = rc c) -> bound n V < fuel ->
  exists sw, ci_from_iter ln (seq 0 n) = Ok sw /\
  ((exists parents, laminar_loop tie fuel fuel ln rs sw es (repeat 0 (List.length rs)) = Ok parents /\ List.length parents = List.length rs /\
      forall c, c < n -> good_ring (rc c) (nth (rc c) parents 0)) \/
   (sm = false /\ exists m, laminar_loop tie fuel fuel ln rs sw es (repeat 0 (List.length rs)) = Panic m)).
Proof.
  intros s0 es fuel Vs Hs Le W Lf. destruct (start_o ln tie n e V HV1 HV3 HL s0 Hs) as (sw & E & R). exists sw. split; [exact E|].
  assert (Na : forall c, c < n -> lex_le (ea c) s0 -> False).
  { intros c L Q. pose proof (eV ln n V HV1 HL c L) as [Va _]. pose proof (Hs _ Va). lord. }
  apply (lloop_ok (bound n V) sw [] s0); auto; [|intros x []]. constructor; auto.
  - intros c L. destruct (W c L) as (ed & E1 & E2). exists ed. split; auto. split; auto. intros A. apply actb_iff in A as [A _]. destruct (Na c L A).
  - apply repeat_length.
  - intros c L Q. destruct (Na c L Q).
Qed.
(** Another arithmetic in which [next] returns whenever it does in this one. *)
Theorem lloop_same : forall (ar2 : arith) fuel, (forall sw r, ci_next (ar := ar) ln tie fuel sw = Ok r -> ci_next (ar := ar2) ln tie fuel sw = Ok r) ->
  forall mu sw past p0 es parents N, rdyo mu sw past p0 -> lin p0 es parents -> (forall x, In x past -> lex_le (crpt x) p0) -> In p0 V' -> mu < fuel -> mu < N ->
  laminar_loop (ar := ar2) tie N fuel ln rs sw es parents = laminar_loop (ar := ar) tie N fuel ln rs sw es parents.
Proof.
  intros ar2 fuel Nx. induction mu as [mu IH] using lt_wf_ind. intros sw past p0 es ps N R Li Pst V0 Lf LN. destruct N as [|N]; [lia|]. cbn [laminar_loop].
  destruct R as [(p1 & act & pend & pts & ppend & Ep & V1 & L01 & NoV & R)|[E F]].
  - destruct (next_dst ln tie n e V V' HT' HVV HV1 HV2 HV3 mu sw past fuel p1 act pend pts ppend Ep V1 R Lf) as (sw2 & mu2 & act2 & pend2 & ppend2 & E1 & Lm & D & NP).
    rewrite (Nx _ _ E1), E1. cbn [bind].
    destruct (lpoint_ok p0 p1 mu2 sw2 act2 pend2 pts ppend2 past es ps V0 V1 L01 NoV D NP Li) as [(it2 & es' & ps' & E2 & (t & l & Et & Ht) & Li')|(Sm & m & E2)].
    + rewrite E2. cbn [bind]. pose proof (dt_base _ _ _ _ _ _ _ _ _ _ _ _ D) as Ba.
      assert (Pst' : forall x, In x (past ++ sw_out sw2) -> lex_le (crpt x) p1).
      { intros x I. apply in_app_iff in I as [I|I]; [apply lex_lt_le; apply (ba_past _ _ _ _ _ _ _ _ _ _ _ _ Ba x I)|].
        rewrite (ba_out _ _ _ _ _ _ _ _ _ _ _ _ Ba x I). apply lex_le_refl. }
      apply (IH mu2 ltac:(lia) it2 (past ++ sw_out sw2) p1); auto; try lia.
      destruct (peek_point sw2) as [p2|] eqn:Ep2.
      * left. destruct (to_next ln tie n e V HT HV3 p1 p2 _ _ _ _ _ _ _ D NP V1 Ep2) as (V2 & L12 & R2 & NV2).
        exists p2, act2, pend2, pts, ppend2. split; [rewrite Et; exact Ep2|]. split; auto. split; auto. split; auto. rewrite Et. apply rst_active; auto.
      * right. apply peek_none in Ep2. split; [rewrite Et; exact Ep2|]. eapply base_final; [exact tie|apply D|apply D|exact Ep2].
    + rewrite E2. reflexivity.
  - assert (En : ci_next (ar := ar) ln tie fuel sw = Ok (set_out [] sw, None)).
    { unfold ci_next. assert (Ep : peek_point (set_out [] sw) = None) by (unfold peek_point; cbn [set_out sw_events]; rewrite E; reflexivity).
      rewrite Ep. destruct fuel as [|fuel']; [lia|]. cbn [ci_loop]. rewrite Ep. reflexivity. }
    rewrite (Nx _ _ En), En. reflexivity.
Qed.
Theorem lam_same : forall (ar2 : arith) s0 es fuel, (forall sw r, ci_next (ar := ar) ln tie fuel sw = Ok r -> ci_next (ar := ar2) ln tie fuel sw = Ok r) ->
  In s0 V' -> (forall v, In v V -> lex_lt s0 v) -> List.length es = n ->
  (forall c, c < n -> exists ed, nth_error es c = Some ed /\ le_ring ed = rc c) -> bound n V < fuel ->
  exists sw, ci_from_iter ln (seq 0 n) = Ok sw /\
  laminar_loop (ar := ar2) tie fuel fuel ln rs sw es (repeat 0 (List.length rs)) = laminar_loop (ar := ar) tie fuel fuel ln rs sw es (repeat 0 (List.length rs)).
Proof.
  intros ar2 s0 es fuel Nx Vs Hs Le W Lf. destruct (start_o ln tie n e V HV1 HV3 HL s0 Hs) as (sw & E & R). exists sw. split; [exact E|].
  assert (Na : forall c, c < n -> lex_le (ea c) s0 -> False).
  { intros c L Q. pose proof (eV ln n V HV1 HL c L) as [Va _]. pose proof (Hs _ Va). lord. }
  apply (lloop_same ar2 fuel Nx (bound n V) sw [] s0); auto; [|intros x []]. constructor; auto.
  - intros c L. destruct (W c L) as (ed & E1 & E2). exists ed. split; auto. split; auto. intros A. apply actb_iff in A as [A _]. destruct (Na c L A).
  - apply repeat_length.
  - intros c L Q. destruct (Na c L Q).
Qed.
End Lam.
