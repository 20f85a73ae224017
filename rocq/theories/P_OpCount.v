(** Counting the emitted pieces: upwards through the edges at a point of the
    sweep, every change of the label is a piece, so that the pieces below a point,
    taken with their signs, add up to the label there. *)
Require Import List String Bool Arith Lia Permutation ZArith.
From Verif Require Import Base Scalar M_Events M_Geo M_LineOrPoint M_Sweep M_Rings M_Op.
From Verif Require Import S_Geo P_Geo P_LineOrPoint P_Tilt P_Bundle P_Tile P_Order P_Inv P_Run P_Master S_Boundary P_Boundary.
From Verif Require Import M_MonoPoly S_Mono S_Rings P_Rings S_Op Props_Op1 P_OpLab P_OpPoint P_OpStep P_OpRun P_OpPlane P_OpPoly P_OpSide P_OpBoundary.
Import Datatypes.
Import ListNotations.
Local Open Scope nat_scope.

(** * Sums over the emitted pieces *)
Definition sgn (w : winding) : Z := match w with Ccw => 1 | Cw => -1 end.
Definition zb (b : bool) : Z := if b then 1 else 0.
Definition total (f : lop * winding -> Z) (l : list (lop * winding)) : Z := fold_right Z.add 0%Z (map f l).
Lemma total_ext : forall f g l, (forall p, In p l -> f p = g p) -> total f l = total g l.
Proof.
  intros f g l E. induction l as [|x l IH]; [reflexivity|]. unfold total in *. cbn [map fold_right]. rewrite (E x) by (left; auto). f_equal. apply IH. intros p I. apply E. right; auto.
Qed.
Lemma total_add : forall f g l, total (fun p => (f p + g p)%Z) l = (total f l + total g l)%Z.
Proof. intros f g l. induction l as [|x l IH]; [reflexivity|]. unfold total in *. cbn [map fold_right]. lia. Qed.
Lemma total_none : forall f l, (forall p, In p l -> f p = 0%Z) -> total f l = 0%Z.
Proof. intros f l E. rewrite (total_ext f (fun _ => 0%Z)) by auto. clear. induction l; [reflexivity|]. unfold total in *. cbn [map fold_right]. lia. Qed.
Definition is_xy (x y : pt) (g : lop) : bool := match g with Line u v => peqb u x && peqb v y | Point _ => false end.
Lemma is_xy_iff : forall x y g, is_xy x y g = true <-> g = Line x y.
Proof.
  intros x y [p|u v]; cbn; [split; discriminate|]. rewrite andb_true_iff, !peqb_iff. split; [intros [-> ->]; auto|intros Q; injection Q; auto].
Qed.
Lemma total_one : forall x y w l, NoDup (map fst l) -> In (Line x y, w) l -> total (fun p => if is_xy x y (fst p) then sgn (snd p) else 0%Z) l = sgn w.
Proof.
  intros x y w l N I. induction l as [|[g v] l IH]; [destruct I|]. cbn [map fst] in N. apply NoDup_cons_iff in N as [N1 N2]. unfold total. cbn [map fold_right fst snd]. destruct I as [Q|I].
  - injection Q as -> ->. rewrite (proj2 (is_xy_iff x y (Line x y)) eq_refl). match goal with |- (_ + ?t)%Z = _ => enough (t = 0%Z) by lia end. apply (total_none _ l).
    intros [g' v'] J. cbn [fst snd]. destruct (is_xy x y g') eqn:Q; auto. apply is_xy_iff in Q. subst g'. exfalso. apply N1. apply (in_map fst) in J. exact J.
  - destruct (is_xy x y g) eqn:Q; [apply is_xy_iff in Q; subst g; exfalso; apply N1; apply (in_map fst) in I; exact I|]. rewrite Z.add_0_l. apply IH; auto.
Qed.

Lemma cross_s : forall a b, cross a b a = 0%Qc. Proof. intros. unfold cross. ring. Qed.
Lemma cross_t : forall a b, cross a b b = 0%Qc. Proof. intros. unfold cross. ring. Qed.

Section Count.
Variables (ln : nat -> line) (n : nat) (e : Qc) (V V' : list pt).
Hypothesis HT' : tilts e (fun p => In p V').
Hypothesis HVV : incl V V'.
Hypothesis HV1 : forall c a z, c < n -> geo ln c = Line a z -> In a V /\ In z V.
Hypothesis HV2 : forall c c' a z a' z' r, c < n -> c' < n -> geo ln c = Line a z -> geo ln c' = Line a' z' ->
  on_seg a z r -> on_seg a' z' r -> (forall r', on_seg a z r' -> on_seg a' z' r' -> r' = r) -> In r V.
Hypothesis HL : forall c, c < n -> exists a z, geo ln c = Line a z.
Variables (ty : op_type) (fs : nat -> bool).
Hypothesis HB : forall b (g : pt -> bool), par fs n b (fun c => xorb (g (ea ln c)) (g (ez ln c))) = false.
Notation tl := (tilt e).
Notation H := (P_Order.H e).
Notation K := (P_Order.K e).
Notation ea := (ea ln).
Notation ez := (ez ln).
Notation eb := (eb ln).
Notation thr := (thr ln).
Notation actb := (actb ln).
Notation upto := (upto ln e).
Notation lab := (lab ty fs n).
Definition val (S : nat -> bool) : bool := is_ty (lab S) ty.
Definition under (p : pt) (c c' : nat) : bool := actb p c' && match K (tl p) (eb c') (eb c) with Lt => true | _ => false end.
Definition cls (p : pt) (c c' : nat) : bool := actb p c' && match K (tl p) (eb c') (eb c) with Eq => true | _ => false end.
Lemma under_cls : forall p c c', under p c c' = xorb (upto p c c') (cls p c c').
Proof. intros p c c'. unfold under, P_OpLab.upto, cls, lek. destruct (actb p c'), (K (tl p) (eb c') (eb c)); reflexivity. Qed.

(** ** Labels from afar *)
Lemma far_upto : forall k p p' c, List.length (filter (fun v => pltb p v && pltb v p') V) <= k -> c < n -> In p V' -> In p' V' -> lex_lt p p' ->
  actb p c = true -> actb p' c = true -> (forall v, In v V -> lex_lt p v -> lex_le v p' -> thr v c -> False) -> lab (upto p c) = lab (upto p' c).
Proof.
  induction k as [|k IH]; intros p p' c Lk L Vp Vp' Lp A A' NT.
  - apply (advance ln n e V V' HT' HVV HV1 HV2 HL); auto.
    + intros v Iv L1 L2. assert (I : In v (filter (fun v => pltb p v && pltb v p') V)) by (apply filter_In; split; auto; apply andb_true_iff; split; apply pltb_iff; auto).
      destruct (filter _ V); [destruct I|cbn in Lk; lia].
    + intros I T. apply (NT p' I Lp (lex_le_refl _) T).
  - destruct (filter (fun v => pltb p v && pltb v p') V) as [|v fl] eqn:Ef; [apply (IH p p' c); auto; rewrite Ef; cbn; lia|].
    assert (Iv : In v (filter (fun v => pltb p v && pltb v p') V)) by (rewrite Ef; left; auto). apply filter_In in Iv as [Iv Bv]. apply andb_true_iff in Bv as [B1 B2]. apply pltb_iff in B1, B2.
    assert (Cn : forall f g : pt -> bool, (forall u, f u = true -> g u = true) -> g v = true -> f v = false -> forall l, In v l -> List.length (filter f l) < List.length (filter g l)).
    { clear. intros f g Sub Gv Fv. assert (Le : forall l, List.length (filter f l) <= List.length (filter g l)).
      { induction l as [|x l IH]; [auto|]. cbn [filter]. destruct (f x) eqn:Fx; [rewrite (Sub x Fx); cbn; lia|]. destruct (g x); cbn; lia. }
      induction l as [|x l IH]; intros I; [destruct I|]. cbn [filter]. destruct I as [->|I].
      - rewrite Fv, Gv. cbn. specialize (Le l). lia.
      - specialize (IH I). destruct (f x) eqn:Fx; [rewrite (Sub x Fx); cbn; lia|]. destruct (g x); cbn; lia. }
    assert (Av : actb v c = true).
    { apply actb_iff in A as [A1 A2]. apply actb_iff in A' as [A1' A2']. apply actb_iff. split; lord. }
    transitivity (lab (upto v c)).
    + apply IH; auto.
      * assert (Q : List.length (filter (fun u => pltb p u && pltb u v) V) < List.length (filter (fun u => pltb p u && pltb u p') V)).
        { apply Cn; auto.
          - intros u Bu. apply andb_true_iff in Bu as [U1 U2]. apply andb_true_iff. split; [auto|]. apply pltb_iff in U2. apply pltb_iff. lord.
          - apply andb_true_iff. split; apply pltb_iff; auto.
          - apply andb_false_iff. right. apply pltb_false. apply lex_le_refl. }
        rewrite Ef in Q. lia.
      * intros u Iu U1 U2 T. apply (NT u Iu U1); auto. lord.
    + apply IH; auto.
      * assert (Q : List.length (filter (fun u => pltb v u && pltb u p') V) < List.length (filter (fun u => pltb p u && pltb u p') V)).
        { apply Cn; auto.
          - intros u Bu. apply andb_true_iff in Bu as [U1 U2]. apply andb_true_iff. split; [|auto]. apply pltb_iff in U1. apply pltb_iff. lord.
          - apply andb_true_iff. split; apply pltb_iff; auto.
          - apply andb_false_iff. left. apply pltb_false. apply lex_le_refl. }
        rewrite Ef in Q. lia.
      * intros u Iu U1 U2 T. apply (NT u Iu); auto. lord.
Qed.
Lemma far_cls : forall p p' c c', c < n -> c' < n -> In p V' -> In p' V' -> lex_lt p p' -> actb p c = true -> actb p' c = true ->
  (forall v, In v V -> lex_lt p v -> lex_le v p' -> thr v c -> False) -> cls p c c' = cls p' c c'.
Proof.
  intros p p' c c' L L' Vp Vp' Lp A A' NT. unfold cls.
  assert (KE : K (tl p) (eb c') (eb c) = Eq <-> K (tl p') (eb c') (eb c) = Eq) by (rewrite !K_eq_same; tauto).
  assert (G : K (tl p) (eb c') (eb c) = Eq -> actb p c' = actb p' c').
  { intros Q. apply K_eq_same in Q. pose proof (eV ln n V HV1 HL c' L') as [Va Vz]. pose proof (e_lt ln n HL c' L') as Le. apply actb_iff in A as [A1 A2]. apply actb_iff in A' as [A1' A2'].
    pose proof (eV ln n V HV1 HL c L) as [Wa Wz].
    assert (Bad : forall v, In v V -> thr v c' -> lex_lt p v -> lex_le v p' -> False).
    { intros v Iv T U1 U2. apply (NT v Iv U1 U2). apply (same_onb e V' HT' (eb c') (eb c) v); auto using (eb_good ln n V V' HVV HV1 HL); cbn [P_OpLab.eb b_p b_q]; apply (tilts_le e _ _ _ HT'); auto; lord. }
    apply Bool.eq_iff_eq_true. rewrite !actb_iff. split; intros [B1 B2]; split; try lord.
    - destruct (lex_le_dec (ez c') p') as [Z|Z]; auto. exfalso. apply (Bad (ez c')); auto. apply on_seg_end.
    - destruct (lex_le_dec (ea c') p) as [Z|Z]; auto. exfalso. apply (Bad (ea c')); auto. apply on_seg_start. }
  destruct (K (tl p) (eb c') (eb c)) eqn:Q1.
  - rewrite (proj1 KE eq_refl), G; auto.
  - destruct (K (tl p') (eb c') (eb c)) eqn:Q2; rewrite ?andb_false_r; auto. discriminate (proj2 KE eq_refl).
  - destruct (K (tl p') (eb c') (eb c)) eqn:Q2; rewrite ?andb_false_r; auto. discriminate (proj2 KE eq_refl).
Qed.
Lemma lab_inv : forall f g, lab f = lab g -> forall b, par fs n b f = par fs n b g.
Proof.
  intros f g E. unfold P_OpLab.lab in E. injection E as E1 E2. intros []; auto.
  revert E2. generalize (par fs n false f) (par fs n false g). destruct ty; intros [] []; cbn; congruence.
Qed.
Lemma far : forall p p' c, c < n -> In p V' -> In p' V' -> lex_lt p p' -> actb p c = true -> actb p' c = true ->
  (forall v, In v V -> lex_lt p v -> lex_le v p' -> thr v c -> False) -> lab (upto p c) = lab (upto p' c) /\ lab (under p c) = lab (under p' c).
Proof.
  intros p p' c L Vp Vp' Lp A A' NT. pose proof (far_upto _ p p' c (le_n _) L Vp Vp' Lp A A' NT) as E. split; [exact E|].
  apply lab_eq. intros b. rewrite (par_ext fs n b _ (fun c' => xorb (upto p c c') (upto p' c c'))).
  - rewrite par_xor, (lab_inv _ _ E b). apply xorb_nilpotent.
  - intros c' L'. rewrite !under_cls, (far_cls p p' c c') by auto. destruct (upto p c c'), (upto p' c c'), (cls p' c c'); reflexivity.
Qed.

(** ** The pieces and the labels *)
Variables (E : list (pt * pt)) (out : list (lop * winding)) (inr : pt -> bool) (log : list crossing).
Hypothesis Pr : forall a b, In (a, b) E -> a <> b.
Hypothesis EV : forall m, In m V -> ~ plain E m.
Hypothesis VE : forall m, ~ In m V -> plain E m.
Hypothesis Ec : forall c, c < n -> In (ea c, ez c) E \/ In (ez c, ea c) E.
Hypothesis cE : forall a b, In (a, b) E -> exists c, c < n /\ forall r, on_seg a b r <-> thr r c.
Hypothesis Bd : boundary E inr out.
Hypothesis InR : forall q, val (fun c => above (ea c) (ez c) q) = inr q.
Hypothesis Fi : final ln n V log.
Hypothesis Mid : forall c x y, In (x, y) (ended c log) -> exists m, In m V' /\ strictly_inside x y m.

Lemma visible_c : forall m q, visible E m q -> forall r, on_seg m q r -> r <> m -> forall c, c < n -> ~ thr r c.
Proof. intros m q Vi r O N c L T. destruct (Ec c L) as [I|I]; apply (Vi r O N _ _ I); auto using on_seg_sym. Qed.
Lemma carrier : forall x y w, In (Line x y, w) out -> piece E x y /\ In x V /\ In y V /\ exists c, c < n /\ thr x c /\ thr y c.
Proof.
  intros x y w I. destruct (bd_piece _ _ _ Bd _ _ I) as (x' & y' & Q & P). injection Q as <- <-. split; [exact P|].
  destruct P as (L & (a & b & Ie & Ox & Oy) & Nx & Ny & _).
  split; [destruct (in_dec pt_dec x V); auto; exfalso; apply Nx; auto|]. split; [destruct (in_dec pt_dec y V); auto; exfalso; apply Ny; auto|].
  destruct (cE a b Ie) as (c & Lc & Q). exists c. split; [auto|]. split; apply Q; auto.
Qed.
Lemma log_piece : forall c x y, c < n -> In (x, y) (ended c log) -> piece E x y /\ thr x c /\ thr y c /\ In x V /\ In y V /\ forall m, strictly_inside x y m -> ~ In m V.
Proof.
  intros c x y L I. destruct (HL c L) as (a & z & G). assert (Qa : ea c = a) by (unfold P_OpLab.ea; rewrite G; auto). assert (Qz : ez c = z) by (unfold P_OpLab.ez; rewrite G; auto).
  destruct (tile_piece V a z (ended c log) x y (fi_tile _ _ _ _ Fi c a z L G) I) as (Lxy & Ix & Iy & Ox & Oy & _).
  assert (Fine : forall m, strictly_inside x y m -> ~ In m V).
  { intros m S J. destruct (inside_lt x y m Lxy S) as [L1 L2]. apply (fi_fine _ _ _ _ Fi c x y m); auto. apply S. }
  unfold P_OpLab.thr. rewrite Qa, Qz. split; [|auto 8]. split; [auto|]. split; [|split; [apply EV; auto|split; [apply EV; auto|intros m S; apply VE; auto]]].
  destruct (Ec c L) as [J|J]; rewrite Qa, Qz in J; [exists a, z|exists z, a]; auto using on_seg_sym.
Qed.
Lemma under_Fo : forall m c c', c < n -> c' < n -> In m V' -> ~ In m V -> thr m c -> under m c c' = Fo ln e m c'.
Proof.
  intros m c c' L L' Vm Nm T. unfold under, Fo. destruct (actb m c') eqn:A; [|reflexivity]. cbn [andb].
  pose proof (actb_H ln n e V V' HT' HVV HV1 HL m Vm c L (thr_actb ln n V HV1 HL m Nm c L T)) as Q. pose proof (proj1 Q T) as Ec'.
  pose proof (actb_H ln n e V V' HT' HVV HV1 HL m Vm c' L' A) as Q'.
  destruct (K_spec e (tl m) (eb c') (eb c)) as [Z|Z|Z Z'|Z Z'|Z Z']; rewrite Ec' in *; symmetry.
  - apply qltb_iff. auto.
  - destruct (qltb_spec (H (eb c') (tl m)) (cy m)) as [W|W]; auto. exfalso. clear - Z W. qcl.
  - exfalso. apply Q' in Z. destruct (thr_same ln n e V V' HT' HVV HV1 HV2 HL m Nm c' c L' L Z T) as [Sl _]. rewrite Sl in Z'. clear - Z'. qcl.
  - destruct (qltb_spec (H (eb c') (tl m)) (cy m)) as [W|W]; auto. exfalso. rewrite Z in W. clear - W. qcl.
  - destruct (qltb_spec (H (eb c') (tl m)) (cy m)) as [W|W]; auto. exfalso. rewrite Z in W. clear - W. qcl.
Qed.

Section At.
Variable p : pt.
Hypothesis Vp : In p V'.

(** The piece of an edge at [p], and the labels above and below. *)
Lemma elem : forall c, c < n -> actb p c = true -> exists x y, lex_le x p /\ lex_lt p y /\ thr x c /\ thr y c /\ In x V /\ In y V /\ piece E x y /\
  (forall w, In (Line x y, w) out -> (zb (val (upto p c)) - zb (val (under p c)) = sgn w)%Z) /\
  (val (upto p c) <> val (under p c) -> exists w, In (Line x y, w) out).
Proof.
  intros c L A. destruct (HL c L) as (a & z & G). assert (Qa : ea c = a) by (unfold P_OpLab.ea; rewrite G; auto). assert (Qz : ez c = z) by (unfold P_OpLab.ez; rewrite G; auto).
  pose proof A as A'. apply actb_iff in A as [A1 A2]. rewrite Qa in A1. rewrite Qz in A2.
  destruct (tile_cover_l V a z (ended c log) p (fi_tile _ _ _ _ Fi c a z L G) A1 A2) as (x & y & I & L1 & L2).
  destruct (log_piece c x y L I) as (P & Tx & Ty & Ix & Iy & Fine). destruct (Mid c x y I) as (m & Vm & S). pose proof (Fine m S) as Nm.
  exists x, y. do 7 (split; [auto|]).
  pose proof (inside_lt x y m (proj1 P) S) as [M1 M2].
  assert (Tm : thr m c) by (apply (inner_on x y); auto; apply S). pose proof (thr_actb ln n V HV1 HL m Nm c L Tm) as Am.
  assert (Lxy := proj1 P).
  assert (NoV : forall v, In v V -> thr v c -> lex_lt x v -> lex_lt v y -> False).
  { intros v Iv T U1 U2. apply (Fine v); auto. apply lt_inside; auto. apply (seg_collinear (ea c) (ez c)); auto. }
  assert (Lab : lab (upto p c) = lab (upto m c) /\ lab (under p c) = lab (under m c)).
  { destruct (lex_total m p) as [[Q|Q]|Q].
    - destruct (far m p c) as [F1 F2]; auto. intros v Iv U1 U2 T. apply (NoV v Iv T); lord.
    - subst p. auto.
    - apply far; auto. intros v Iv U1 U2 T. apply (NoV v Iv T); lord. }
  unfold val. destruct Lab as [-> ->]. rewrite (lab_Fm ln n e V V' HT' HVV HV1 HV2 HL ty fs m Vm Nm c L Tm).
  rewrite (lab_ext ty fs n (under m c) (Fo ln e m)) by (intros c' L'; apply under_Fo; auto).
  fold (Pm ln n e ty fs m) (Nm_ ln n e ty fs m).
  destruct (sides E Pr x y m P S) as (d & t & t' & T & T' & Vq & Vq' & U & D & Gn). set (q := shift m d t) in *. set (q' := shift m (mkC (- cx d)%Qc (- cy d)%Qc) t') in *.
  destruct (cross_part (ea c) (ez c) x y q (e_lt ln n HL c L) Tx Ty Lxy) as [P1 _]. destruct (cross_part (ea c) (ez c) x y q' (e_lt ln n HL c L) Tx Ty Lxy) as [_ P2].
  pose proof (up_label ln n e V V' HT' HVV HV1 HV2 HL ty fs HB m Vm Nm q c L Tm (visible_c m q Vq) (proj1 P1 U)) as Z1.
  pose proof (down_label ln n e V V' HT' HVV HV1 HV2 HL ty fs HB m Vm Nm q' c L Tm (visible_c m q' Vq') (proj1 P2 D)) as Z2.
  change (Pm ln n e ty fs m = val (fun c => above (ea c) (ez c) q)) in Z1. change (Nm_ ln n e ty fs m = val (fun c => above (ea c) (ez c) q')) in Z2.
  rewrite InR in Z1, Z2. rewrite Z1, Z2. split.
  - intros w Iw. pose proof (bd_left _ _ _ Bd x y w m q Iw S Vq U) as BL. pose proof (bd_right _ _ _ Bd x y w m q' Iw S Vq' D) as BR.
    destruct w, (inr q), (inr q'); cbn; auto; exfalso; intuition discriminate.
  - intros Df.
    assert (R : exists u v w, In (Line u v, w) out /\ strictly_inside u v m).
    { destruct (Ec c L) as [Ie|Ie].
      - apply (bd_all _ _ _ Bd (ea c) (ez c) m q q'); auto; [apply P1; auto|apply P2; auto].
      - assert (Cs : forall r, cross (ez c) (ea c) r = (- cross (ea c) (ez c) r)%Qc) by (intros r; unfold cross; ring).
        apply P1 in U. apply P2 in D. apply (bd_all _ _ _ Bd (ez c) (ea c) m q' q); auto using on_seg_sym; [rewrite Cs; clear - D; qcl|rewrite Cs; clear - U; qcl]. }
    destruct R as (u & v & w & Iw & Su). exists w. destruct (carrier u v w Iw) as (Pu & _).
    destruct (piece_unique E u v x y m Pu P Su S) as [-> ->]. exact Iw.
Qed.
Lemma carriers : forall x y c c', c < n -> c' < n -> lex_lt x y -> In x V -> In y V -> thr x c -> thr y c -> thr x c' -> thr y c' -> same_line e (eb c) (eb c').
Proof.
  intros x y c c' L L' Lxy Ix Iy T1 T2 T1' T2'. pose proof (eb_good ln n V V' HVV HV1 HL c L) as G. pose proof (eb_good ln n V V' HVV HV1 HL c' L') as G'.
  assert (Gx : good V' (mkB x y [] : bundle)) by (repeat split; auto).
  apply same_line_trans with (v := (mkB x y [] : bundle)); [apply (sub_same e V' HT'); auto|]. apply same_line_sym. apply (sub_same e V' HT'); auto.
Qed.
Lemma same_piece : forall x y u v c c', c < n -> c' < n -> same_line e (eb c) (eb c') -> piece E x y -> piece E u v -> In u V -> In v V ->
  thr x c -> thr y c -> thr u c' -> thr v c' -> lex_le x p -> lex_lt p y -> lex_le u p -> lex_lt p v -> u = x /\ v = y.
Proof.
  intros x y u v c c' L L' SL P P' Iu Iv Tx Ty Tu Tv A1 A2 B1 B2.
  pose proof (eb_good ln n V V' HVV HV1 HL c' L') as G'.
  assert (Z : forall w, In w V -> thr w c' -> cross (ea c) (ez c) w = 0%Qc).
  { intros w Iw T. apply (zero_H ln n e V V' HT' HVV HV1 HL c w L). destruct SL as [_ SL]. rewrite SL. apply (onb_H e V' HT' (eb c') w G' T). }
  assert (Ne : ea c <> ez c) by (intros Q; pose proof (e_lt ln n HL c L) as W; rewrite Q in W; lord).
  pose proof (on_seg_cross _ _ _ Tx) as Zx. pose proof (on_seg_cross _ _ _ Ty) as Zy. pose proof (Z u Iu Tu) as Zu. pose proof (Z v Iv Tv) as Zv.
  destruct P as (Lxy & _ & Nx & Ny & Pl). destruct P' as (Luv & _ & Nu & Nv & Pl'). split.
  - destruct (lex_total u x) as [[Q|Q]|Q]; auto; exfalso.
    + apply Nx, Pl'. apply lt_inside; [auto|lord|apply (line_trans (ea c) (ez c)); auto].
    + apply Nu, Pl. apply lt_inside; [auto|lord|apply (line_trans (ea c) (ez c)); auto].
  - destruct (lex_total v y) as [[Q|Q]|Q]; auto; exfalso.
    + apply Nv, Pl. apply lt_inside; [lord|auto|apply (line_trans (ea c) (ez c)); auto].
    + apply Ny, Pl'. apply lt_inside; [lord|auto|apply (line_trans (ea c) (ez c)); auto].
Qed.

(** Pieces at [p] on the edges of a set. *)
Definition onbb (c : nat) (r : pt) : bool := if on_seg_dec (ea c) (ez c) r then true else false.
Lemma onbb_iff : forall c r, onbb c r = true <-> thr r c.
Proof. intros c r. unfold onbb. destruct (on_seg_dec (ea c) (ez c) r); split; auto; discriminate. Qed.
Definition Q (S : nat -> bool) (g : lop) : bool := match g with
  | Line x y => pleb x p && pltb p y && existsb (fun c => S c && onbb c x && onbb c y) (seq 0 n)
  | Point _ => false end.
Lemma Q_iff : forall S x y, Q S (Line x y) = true <-> lex_le x p /\ lex_lt p y /\ exists c, c < n /\ S c = true /\ thr x c /\ thr y c.
Proof.
  intros S x y. cbn [Q]. rewrite !andb_true_iff, pleb_iff, pltb_iff, existsb_exists. split.
  - intros ((A & B) & c & I & D). apply in_seq in I. rewrite !andb_true_iff, !onbb_iff in D. split; [auto|]. split; [auto|]. exists c. split; [lia|tauto].
  - intros (A & B & c & L & D). split; [auto|]. exists c. split; [apply in_seq; lia|]. rewrite !andb_true_iff, !onbb_iff. tauto.
Qed.
Definition lower (S : nat -> bool) : Prop := forall c c', c < n -> c' < n -> S c = true -> actb p c' = true -> K (tl p) (eb c') (eb c) <> Gt -> S c' = true.

Lemma top : forall S, (exists c, c < n /\ S c = true) -> exists c, c < n /\ S c = true /\ forall c', c' < n -> S c' = true -> K (tl p) (eb c') (eb c) <> Gt.
Proof.
  intros S (c0 & L0 & S0).
  assert (G : forall l, (forall x, In x l -> x < n /\ S x = true) -> l <> [] -> exists c, In c l /\ forall c', In c' l -> K (tl p) (eb c') (eb c) <> Gt).
  { induction l as [|x l IH]; intros Al Ne; [congruence|]. destruct l as [|y l].
    - exists x. split; [left; auto|]. intros c' [<-|[]]. rewrite (proj2 (K_eq_same e (tl p) (eb x) (eb x)) (same_line_refl _ _)). discriminate.
    - destruct IH as (c & I & M); [intros; apply Al; right; auto|discriminate|]. destruct (K (tl p) (eb x) (eb c)) eqn:Kx.
      + exists c. split; [right; auto|]. intros c' [<-|I']; [congruence|auto].
      + exists c. split; [right; auto|]. intros c' [<-|I']; [congruence|auto].
      + exists x. split; [left; auto|]. intros c' [<-|I']; [rewrite (proj2 (K_eq_same e (tl p) (eb x) (eb x)) (same_line_refl _ _)); discriminate|].
        apply K_gt_iff in Kx. specialize (M c' I'). destruct (K (tl p) (eb c') (eb c)) eqn:Kc; [|rewrite (K_trans _ _ _ _ _ Kc Kx); discriminate|congruence].
        rewrite (K_eq_lt _ _ _ _ _ Kc Kx). discriminate. }
  destruct (G (filter S (seq 0 n))) as (c & I & M).
  - intros x I. apply filter_In in I as [I Sx]. apply in_seq in I. split; [lia|auto].
  - intros Z. assert (I : In c0 (filter S (seq 0 n))) by (apply filter_In; split; auto; apply in_seq; lia). rewrite Z in I. destruct I.
  - apply filter_In in I as [I Sc]. apply in_seq in I. exists c. split; [lia|]. split; [auto|]. intros c' L' S'. apply M. apply filter_In. split; [apply in_seq; lia|auto].
Qed.

Theorem telescope : forall k S, List.length (filter S (seq 0 n)) <= k -> (forall c, c < n -> S c = true -> actb p c = true) -> lower S ->
  total (fun pr => if Q S (fst pr) then sgn (snd pr) else 0%Z) out = zb (val S).
Proof.
  induction k as [|k IH]; intros S Lk Act Low.
  - assert (Em : forall c, c < n -> S c = false).
    { intros c L. destruct (S c) eqn:Z; auto. assert (I : In c (filter S (seq 0 n))) by (apply filter_In; split; auto; apply in_seq; lia).
      destruct (filter S (seq 0 n)); [destruct I|cbn in Lk; lia]. }
    unfold val. rewrite (lab_none ty fs n S Em). rewrite total_none; [destruct ty; reflexivity|].
    intros [g w] _. cbn [fst snd]. destruct (Q S g) eqn:Z; auto. destruct g as [r|x y]; [discriminate|]. apply Q_iff in Z as (_ & _ & c & L & Sc & _). rewrite Em in Sc; auto. discriminate.
  - destruct (filter S (seq 0 n)) as [|c0 fl] eqn:Ef; [apply IH; auto; rewrite Ef; cbn; lia|].
    destruct (top S) as (c & L & Sc & Mx).
    { assert (I : In c0 (filter S (seq 0 n))) by (rewrite Ef; left; auto). apply filter_In in I as [I S0]. apply in_seq in I. exists c0. split; [lia|auto]. }
    pose proof (Act c L Sc) as Ac. destruct (elem c L Ac) as (x & y & L1 & L2 & Tx & Ty & Ix & Iy & P & El1 & El2).
    assert (Su : forall c', c' < n -> S c' = upto p c c').
    { intros c' L'. unfold P_OpLab.upto. destruct (S c') eqn:Z.
      - symmetry. apply andb_true_iff. split; [auto|]. unfold lek. specialize (Mx c' L' Z). destruct (K (tl p) (eb c') (eb c)); auto.
      - symmetry. apply andb_false_iff. destruct (actb p c') eqn:A; [right|left; auto]. unfold lek. destruct (K (tl p) (eb c') (eb c)) eqn:W; auto; exfalso;
        (assert (S c' = true) by (apply (Low c c'); auto; rewrite W; discriminate)); congruence. }
    assert (VS : val S = val (upto p c)) by (unfold val; rewrite (lab_ext ty fs n S (upto p c)); auto).
    assert (Sub : forall c', under p c c' = true -> actb p c' = true /\ K (tl p) (eb c') (eb c) = Lt).
    { intros c' Z. unfold under in Z. apply andb_true_iff in Z as [Z1 Z2]. split; [auto|]. destruct (K (tl p) (eb c') (eb c)); congruence. }
    assert (SubS : forall c', c' < n -> under p c c' = true -> S c' = true).
    { intros c' L' Z. apply Sub in Z as [Z1 Z2]. apply (Low c c'); auto. rewrite Z2. discriminate. }
    assert (Nc : under p c c = false).
    { unfold under. rewrite (proj2 (K_eq_same e (tl p) (eb c) (eb c)) (same_line_refl _ _)). apply andb_false_r. }
    assert (IHu : total (fun pr => if Q (under p c) (fst pr) then sgn (snd pr) else 0%Z) out = zb (val (under p c))).
    { apply IH.
      - assert (Lt_ : List.length (filter (under p c) (seq 0 n)) < List.length (filter S (seq 0 n))).
        { assert (Le : forall l, (forall x, In x l -> x < n) -> List.length (filter (under p c) l) <= List.length (filter S l)).
          { induction l as [|x' l IHl]; intros Al; [auto|]. cbn [filter]. specialize (IHl (fun z Iz => Al z (or_intror Iz))). destruct (under p c x') eqn:Z; [rewrite (SubS x'); auto; [cbn; lia|apply Al; left; auto]|]. destruct (S x'); cbn; lia. }
          assert (G : forall l, (forall x, In x l -> x < n) -> In c l -> List.length (filter (under p c) l) < List.length (filter S l)).
          { induction l as [|x' l IHl]; intros Al I; [destruct I|]. cbn [filter]. pose proof (Le l (fun z Iz => Al z (or_intror Iz))) as Ll. destruct I as [->|I].
            - rewrite Nc, Sc. cbn. lia.
            - specialize (IHl (fun z Iz => Al z (or_intror Iz)) I). destruct (under p c x') eqn:Z; [rewrite (SubS x'); auto; [cbn; lia|apply Al; left; auto]|]. destruct (S x'); cbn; lia. }
          apply G; [intros z Iz; apply in_seq in Iz; lia|apply in_seq; lia]. }
        rewrite Ef in Lt_. cbn in Lt_, Lk. lia.
      - intros c' _ Z. apply Sub in Z. apply Z.
      - intros c1 c2 H1 H2 Z A K2. apply Sub in Z as [Z1 Z2]. unfold under. rewrite A. cbn [andb].
        assert (HK : K (tl p) (eb c2) (eb c) = Lt); [|rewrite HK; auto]. destruct (K (tl p) (eb c2) (eb c1)) eqn:W; [apply (K_eq_lt _ _ _ _ _ W Z2)|apply (K_trans _ _ _ _ _ W Z2)|congruence]. }
    rewrite (total_ext _ (fun pr => ((if Q (under p c) (fst pr) then sgn (snd pr) else 0) + (if is_xy x y (fst pr) then sgn (snd pr) else 0))%Z)).
    + rewrite total_add, IHu, VS. destruct (existsb (fun pr => is_xy x y (fst pr)) out) eqn:Ex.
      * apply existsb_exists in Ex as ([g w] & I & Z). cbn [fst] in Z. apply is_xy_iff in Z. subst g. rewrite (total_one x y w out (bd_once _ _ _ Bd) I). pose proof (El1 w I). lia.
      * rewrite total_none.
        -- destruct (bool_dec (val (upto p c)) (val (under p c))) as [Z|Z]; [rewrite Z; lia|]. exfalso. destruct (El2 Z) as (w & I).
           assert (Y : existsb (fun pr : lop * winding => is_xy x y (fst pr)) out = true) by (apply existsb_exists; exists (Line x y, w); split; [auto|apply is_xy_iff; auto]). congruence.
        -- intros [g w] I. cbn [fst snd]. destruct (is_xy x y g) eqn:Z; auto. exfalso.
           assert (Y : existsb (fun pr : lop * winding => is_xy x y (fst pr)) out = true) by (apply existsb_exists; exists (g, w); split; auto). congruence.
    + intros [g w] I. cbn [fst snd]. destruct (bd_piece _ _ _ Bd g w I) as (u & v & -> & _). destruct (carrier u v w I) as (Pu & Iu & Iv & _). assert (Luv := proj1 Pu).
      assert (QS : Q S (Line u v) = xorb (Q (under p c) (Line u v)) (is_xy x y (Line u v)) /\ (Q (under p c) (Line u v) && is_xy x y (Line u v) = false)).
      { assert (Ex : is_xy x y (Line u v) = true -> Q (under p c) (Line u v) = false /\ Q S (Line u v) = true).
        { intros Z. apply is_xy_iff in Z. injection Z as -> ->. split.
          - destruct (Q (under p c) (Line x y)) eqn:W; auto. exfalso. apply Q_iff in W as (_ & _ & c' & L' & Z & T1 & T2). apply Sub in Z as [_ Z].
            rewrite (proj2 (K_eq_same e (tl p) (eb c') (eb c)) (carriers x y c' c L' L Luv Ix Iy T1 T2 Tx Ty)) in Z. discriminate.
          - apply Q_iff. split; [auto|]. split; [auto|]. exists c. auto. }
        destruct (is_xy x y (Line u v)) eqn:Z; [destruct (Ex eq_refl) as [-> ->]; auto|]. rewrite xorb_false_r, andb_false_r. split; [|auto].
        apply Bool.eq_iff_eq_true. rewrite !Q_iff. split; intros (B1 & B2 & c' & L' & Z' & T1 & T2); (split; [auto|]); (split; [auto|]).
        - exists c'. split; [auto|]. split; [|auto]. unfold under. rewrite (Act c' L' Z'). cbn [andb]. pose proof (Mx c' L' Z') as M. destruct (K (tl p) (eb c') (eb c)) eqn:W; auto.
          exfalso. apply K_eq_same in W. destruct (same_piece x y u v c c' L L' (same_line_sym _ _ _ W) P Pu Iu Iv Tx Ty T1 T2 L1 L2 B1 B2) as [-> ->].
          rewrite (proj2 (is_xy_iff x y (Line x y)) eq_refl) in Z. discriminate.
        - exists c'. auto. }
      destruct QS as [Q1 Q2]. rewrite Q1. destruct (Q (under p c) (Line u v)), (is_xy x y (Line u v)); cbn in *; try discriminate; lia.
Qed.
End At.

(** ** Below a point *)
Definition sel (f : pt -> pt -> bool) (pr : lop * winding) : Z := match fst pr with Line u v => if f u v then sgn (snd pr) else 0%Z | Point _ => 0%Z end.
Lemma isact_act : forall q c, isact (ea c) (ez c) q = actb q c.
Proof. reflexivity. Qed.
Lemma above_H : forall q c, c < n -> above (ea c) (ez c) q = true <-> actb q c = true /\ (H (eb c) (tl q) < cy q)%Qc.
Proof.
  intros q c L. unfold above. rewrite andb_true_iff, isact_act. rewrite <- (pos_H ln n e V V' HT' HVV HV1 HL c q L). destruct (qltb_spec 0 (cross (ea c) (ez c) q)) as [W|W]; intuition discriminate.
Qed.
Lemma onabove_H : forall q c, c < n -> onabove (ea c) (ez c) q = true <-> actb q c = true /\ (H (eb c) (tl q) <= cy q)%Qc.
Proof.
  intros q c L. unfold onabove. rewrite andb_true_iff, isact_act. pose proof (neg_H ln n e V V' HT' HVV HV1 HL c q L) as N.
  destruct (qleb_spec 0 (cross (ea c) (ez c) q)) as [W|W].
  - split; intros [X Y]; (split; [exact X|]); auto. apply Qcnot_lt_le. intros Z. apply N in Z. clear - W Z. qcl.
  - split; intros [X Y]; [discriminate|]. exfalso. apply W. apply Qcnot_lt_le. intros Z. apply N in Z. clear - Y Z. qcl.
Qed.
Lemma K_notgt : forall l c c', K l (eb c') (eb c) <> Gt -> (H (eb c') l <= H (eb c) l)%Qc.
Proof.
  intros l c c' N. destruct (K l (eb c') (eb c)) eqn:Z; [apply K_eq_iff in Z as [Z _]; rewrite Z; apply Qcle_refl|apply K_le in Z; exact Z|congruence].
Qed.
Lemma part_act : forall u v c q, c < n -> thr u c -> thr v c -> lex_le u q -> lex_lt q v -> actb q c = true.
Proof.
  intros u v c q L Tu Tv A B. destruct (thr_between ln n HL u c L Tu) as [U1 U2]. destruct (thr_between ln n HL v c L Tv) as [W1 W2].
  apply actb_iff. split; lord.
Qed.
Lemma part_cross : forall u v c q, c < n -> thr u c -> thr v c -> lex_lt u v -> qltb 0 (cross u v q) = qltb 0 (cross (ea c) (ez c) q) /\ qleb 0 (cross u v q) = qleb 0 (cross (ea c) (ez c) q).
Proof.
  intros u v c q L Tu Tv Luv. destruct (cross_part (ea c) (ez c) u v q (e_lt ln n HL c L) Tu Tv Luv) as [P1 P2]. split.
  - destruct (qltb_spec 0 (cross u v q)) as [W|W], (qltb_spec 0 (cross (ea c) (ez c) q)) as [W'|W']; auto; exfalso; tauto.
  - destruct (qleb_spec 0 (cross u v q)) as [W|W], (qleb_spec 0 (cross (ea c) (ez c) q)) as [W'|W']; auto; exfalso.
    + apply W'. apply Qcnot_lt_le. intros Z. apply P2 in Z. clear - W Z. qcl.
    + apply W. apply Qcnot_lt_le. intros Z. apply P2 in Z. clear - W' Z. qcl.
Qed.
Lemma tele : forall p S f, In p V' -> (forall c, c < n -> S c = true -> actb p c = true) -> lower p S ->
  (forall u v w, In (Line u v, w) out -> Q p S (Line u v) = f u v) -> total (sel f) out = zb (val S).
Proof.
  intros p S f Vp A Lo Eq. rewrite <- (telescope p Vp _ S (le_n _) A Lo). apply total_ext. intros [g w] I. unfold sel. cbn [fst snd].
  destruct g as [r|u v]; [reflexivity|]. rewrite (Eq u v w I). reflexivity.
Qed.
Lemma part_iff : forall q (f : Qc -> bool) u v w, (forall c, c < n -> thr u c -> thr v c -> f (cross u v q) = f (cross (ea c) (ez c) q)) -> In (Line u v, w) out ->
  Q q (fun c => isact (ea c) (ez c) q && f (cross (ea c) (ez c) q)) (Line u v) = isact u v q && f (cross u v q).
Proof.
  intros q f u v w Ef I. destruct (carrier u v w I) as (P & Iu & Iv & c & L & Tu & Tv). apply Bool.eq_iff_eq_true. rewrite Q_iff, andb_true_iff, isact_iff. split.
  - intros (A & B & c' & L' & S & Tu' & Tv'). apply andb_true_iff in S as [_ S]. rewrite (Ef c' L' Tu' Tv'). auto.
  - intros [[A B] F]. split; [auto|]. split; [auto|]. exists c. split; [auto|]. split; [|auto]. rewrite isact_act, (part_act u v c q), <- (Ef c); auto.
Qed.
Theorem count_below : forall q, In q V' -> total (sel (fun u v => above u v q)) out = zb (inr q).
Proof.
  intros q Vq. rewrite <- InR. apply (tele q (fun c => above (ea c) (ez c) q) _ Vq).
  - intros c L Z. apply above_H in Z; auto. apply Z.
  - intros c c' L L' S A N. apply above_H; auto. apply above_H in S as [S1 S2]; auto. split; [auto|]. apply K_notgt in N. eapply Qcle_lt_trans; eauto.
  - intros u v w I. apply (part_iff q (fun x => qltb 0 x) u v w); auto. intros c L Tu Tv. apply (part_cross u v c q L Tu Tv). destruct (carrier u v w I) as (P & _). apply P.
Qed.
Lemma count_upto : forall q, In q V' -> total (sel (fun u v => onabove u v q)) out = zb (val (fun c => onabove (ea c) (ez c) q)).
Proof.
  intros q Vq. apply (tele q (fun c => onabove (ea c) (ez c) q) _ Vq).
  - intros c L Z. apply onabove_H in Z; auto. apply Z.
  - intros c c' L L' S A N. apply onabove_H; auto. apply onabove_H in S as [S1 S2]; auto. split; [auto|]. apply K_notgt in N. eapply Qcle_trans; eauto.
  - intros u v w I. apply (part_iff q (fun x => qleb 0 x) u v w); auto. intros c L Tu Tv. apply (part_cross u v c q L Tu Tv). destruct (carrier u v w I) as (P & _). apply P.
Qed.

(** ** At a vertex *)
Section Vertex.
Variables p p0 : pt.
Hypothesis Ip : In p V.
Hypothesis Vp0 : In p0 V'.
Hypothesis Lp0 : lex_lt p0 p.
Hypothesis Bt : forall v, In v V -> lex_lt p0 v -> lex_lt v p -> False.
(** Edges that reach up to [p], seen from the left. *)
Definition isactl (a z q : pt) : bool := pltb a q && pleb q z.
Lemma isactl_iff : forall a z q, isactl a z q = true <-> lex_lt a q /\ lex_le q z.
Proof. intros. unfold isactl. rewrite andb_true_iff, pleb_iff, pltb_iff. tauto. Qed.
Lemma actl : forall a z, In a V -> In z V -> pleb a p0 && pltb p0 z = isactl a z p.
Proof.
  intros a z Ia Iz. unfold isactl. f_equal; apply Bool.eq_iff_eq_true; rewrite pleb_iff, pltb_iff.
  - split; intros Z; [lord|]. destruct (lex_le_dec a p0) as [W|W]; auto. exfalso. apply (Bt a); auto.
  - split; intros Z; [|lord]. destruct (lex_le_dec p z) as [W|W]; auto. exfalso. apply (Bt z); auto.
Qed.
Lemma left_low : forall c c', c < n -> c' < n -> actb p0 c = true -> actb p0 c' = true -> K (tl p0) (eb c') (eb c) <> Gt -> (H (eb c') (tl p) <= H (eb c) (tl p))%Qc.
Proof.
  intros c c' L L' A A' N. pose proof (HVV _ Ip) as Vp.
  unfold P_OpLab.actb in A, A'. rewrite (actl (ea c) (ez c)) in A by apply (eV ln n V HV1 HL c L). rewrite (actl (ea c') (ez c')) in A' by apply (eV ln n V HV1 HL c' L').
  destruct (eV ln n V HV1 HL c L) as [Ia Iz]. destruct (eV ln n V HV1 HL c' L') as [Ia' Iz'].
  apply isactl_iff in A as [A1 A2]. apply isactl_iff in A' as [A1' A2'].
  assert (B1 : lex_le (ea c) p0) by (destruct (lex_le_dec (ea c) p0) as [W|W]; auto; exfalso; apply (Bt (ea c)); auto).
  assert (B2 : lex_le (ea c') p0) by (destruct (lex_le_dec (ea c') p0) as [W|W]; auto; exfalso; apply (Bt (ea c')); auto).
  destruct (on_seg_dec (ea c) (ez c) p) as [T|T]; [destruct (on_seg_dec (ea c') (ez c') p) as [T'|T']|].
  - rewrite (proj1 (thr_iff ln n e V V' HT' HVV HV1 HL p c L Vp (lex_lt_le _ _ A1) A2) T), (proj1 (thr_iff ln n e V V' HT' HVV HV1 HL p c' L' Vp (lex_lt_le _ _ A1') A2') T'). apply Qcle_refl.
  - apply K_notgt. rewrite <- (persist ln n e V V' HT' HVV HV1 HV2 HL p0 p c c'); auto. intros r Ir R1 R2 X Y. destruct (lex_le_dec p r) as [W|W]; [|apply (Bt r); auto]. assert (r = p) by lord. subst r. auto.
  - apply K_notgt. rewrite <- (persist ln n e V V' HT' HVV HV1 HV2 HL p0 p c c'); auto. intros r Ir R1 R2 X Y. destruct (lex_le_dec p r) as [W|W]; [|apply (Bt r); auto]. assert (r = p) by lord. subst r. auto.
Qed.
Lemma cross_le : forall c, c < n -> (qltb 0 (cross (ea c) (ez c) p) = true <-> (H (eb c) (tl p) < cy p)%Qc) /\ (qleb 0 (cross (ea c) (ez c) p) = true <-> (H (eb c) (tl p) <= cy p)%Qc).
Proof.
  intros c L. split.
  - rewrite qltb_iff. apply (pos_H ln n e V V' HT' HVV HV1 HL c p L).
  - pose proof (neg_H ln n e V V' HT' HVV HV1 HL c p L) as N. destruct (qleb_spec 0 (cross (ea c) (ez c) p)) as [W|W]; split; auto; intros X; try discriminate.
    + apply Qcnot_lt_le. intros Z. apply N in Z. clear - W Z. qcl.
    + exfalso. apply W. apply Qcnot_lt_le. intros Z. apply N in Z. clear - X Z. qcl.
Qed.
Lemma part_iff_l : forall (f : Qc -> bool) u v w, (forall c, c < n -> thr u c -> thr v c -> f (cross u v p) = f (cross (ea c) (ez c) p)) -> In (Line u v, w) out ->
  Q p0 (fun c => actb p0 c && f (cross (ea c) (ez c) p)) (Line u v) = isactl u v p && f (cross u v p).
Proof.
  intros f u v w Ef I. destruct (carrier u v w I) as (P & Iu & Iv & c & L & Tu & Tv). rewrite <- (actl u v Iu Iv). apply Bool.eq_iff_eq_true. rewrite Q_iff, !andb_true_iff, pleb_iff, pltb_iff. split.
  - intros (A & B & c' & L' & S & Tu' & Tv'). apply andb_true_iff in S as [_ S]. rewrite (Ef c' L' Tu' Tv'). auto.
  - intros [[A B] F]. split; [auto|]. split; [auto|]. exists c. split; [auto|]. split; [|auto]. rewrite (part_act u v c p0), <- (Ef c); auto.
Qed.
Lemma count_left : total (sel (fun u v => isactl u v p && qltb 0 (cross u v p))) out = zb (val (fun c => isactl (ea c) (ez c) p && qltb 0 (cross (ea c) (ez c) p))) /\
  total (sel (fun u v => isactl u v p && qleb 0 (cross u v p))) out = zb (val (fun c => isactl (ea c) (ez c) p && qleb 0 (cross (ea c) (ez c) p))).
Proof.
  assert (X : forall f : Qc -> bool, val (fun c => isactl (ea c) (ez c) p && f (cross (ea c) (ez c) p)) = val (fun c => actb p0 c && f (cross (ea c) (ez c) p))).
  { intros f. unfold val. rewrite (lab_ext ty fs n _ (fun c => actb p0 c && f (cross (ea c) (ez c) p))); auto. intros c L. unfold P_OpLab.actb. rewrite (actl (ea c) (ez c)); auto; apply (eV ln n V HV1 HL c L). }
  split.
  - rewrite X. apply (tele p0 (fun c => actb p0 c && qltb 0 (cross (ea c) (ez c) p)) _ Vp0).
    + intros c L S. apply andb_true_iff in S. apply S.
    + intros c c' L L' S A N. apply andb_true_iff in S as [S1 S2]. apply andb_true_iff. split; [auto|]. apply cross_le in S2; auto. apply cross_le; auto. eapply Qcle_lt_trans; [|exact S2]. apply left_low; auto.
    + intros u v w I. apply (part_iff_l (fun x => qltb 0 x) u v w); auto. intros c L Tu Tv. apply (part_cross u v c p L Tu Tv). destruct (carrier u v w I) as (P & _). apply P.
  - rewrite X. apply (tele p0 (fun c => actb p0 c && qleb 0 (cross (ea c) (ez c) p)) _ Vp0).
    + intros c L S. apply andb_true_iff in S. apply S.
    + intros c c' L L' S A N. apply andb_true_iff in S as [S1 S2]. apply andb_true_iff. split; [auto|]. apply cross_le in S2; auto. apply cross_le; auto. eapply Qcle_trans; [|exact S2]. apply left_low; auto.
    + intros u v w I. apply (part_iff_l (fun x => qleb 0 x) u v w); auto. intros c L Tu Tv. apply (part_cross u v c p L Tu Tv). destruct (carrier u v w I) as (P & _). apply P.
Qed.
(** As much leaves to the right as arrives from the left. *)
Theorem vertex_balance : total (sel (fun u v => peqb u p)) out = total (sel (fun u v => peqb v p)) out.
Proof.
  pose proof (HVV _ Ip) as Vp. destruct count_left as [C1 C2]. pose proof (count_below p Vp) as C3. rewrite <- InR in C3. pose proof (count_upto p Vp) as C4.
  assert (On : forall u v w, In (Line u v, w) out -> lex_lt u v /\ (lex_lt u p -> lex_lt p v -> cross u v p <> 0%Qc)).
  { intros u v w I. destruct (carrier u v w I) as ((Luv & _ & _ & _ & Pl) & _). split; [auto|]. intros U1 U2 Z. apply (EV p Ip). apply Pl. apply lt_inside; auto. }
  assert (S1 : total (sel (fun u v => onabove u v p)) out = (total (sel (fun u v => above u v p)) out + total (sel (fun u v => peqb u p)) out)%Z).
  { rewrite <- total_add. apply total_ext. intros [[r|u v] w] I; [reflexivity|]. unfold sel. cbn [fst snd]. destruct (On u v w I) as [Luv O]. unfold onabove, above.
    destruct (peqb u p) eqn:Eu.
    - apply peqb_iff in Eu. subst u. assert (Ac : isact p v p = true) by (apply isact_iff; split; [apply lex_le_refl|auto]). rewrite Ac. cbn [andb].
      replace (cross p v p) with 0%Qc by (unfold cross; ring). rewrite (proj2 (qleb_iff 0 0) (Qcle_refl 0)). destruct (qltb_spec 0 0) as [Z|Z]; [exfalso; clear - Z; qcl|]. lia.
    - destruct (isact u v p) eqn:A; [|cbn; lia]. cbn [andb]. apply isact_iff in A as [A1 A2].
      assert (N : cross u v p <> 0%Qc) by (apply O; auto; apply lex_le_neq; auto; intros Q; apply peqb_iff in Q; congruence).
      destruct (qltb_spec 0 (cross u v p)) as [Z|Z], (qleb_spec 0 (cross u v p)) as [Z'|Z']; try lia; exfalso.
      + apply Z'. clear - Z. qcl.
      + apply N. apply Qcle_antisym; auto. apply Qcnot_lt_le; auto. }
  assert (S2 : total (sel (fun u v => isactl u v p && qleb 0 (cross u v p))) out = (total (sel (fun u v => isactl u v p && qltb 0 (cross u v p))) out + total (sel (fun u v => peqb v p)) out)%Z).
  { rewrite <- total_add. apply total_ext. intros [[r|u v] w] I; [reflexivity|]. unfold sel. cbn [fst snd]. destruct (On u v w I) as [Luv O].
    destruct (peqb v p) eqn:Eu.
    - apply peqb_iff in Eu. subst v. assert (Ac : isactl u p p = true) by (apply isactl_iff; split; [auto|apply lex_le_refl]). rewrite Ac. cbn [andb].
      replace (cross u p p) with 0%Qc by (unfold cross; ring). rewrite (proj2 (qleb_iff 0 0) (Qcle_refl 0)). destruct (qltb_spec 0 0) as [Z|Z]; [exfalso; clear - Z; qcl|]. lia.
    - destruct (isactl u v p) eqn:A; [|cbn; lia]. cbn [andb]. apply isactl_iff in A as [A1 A2].
      assert (N : cross u v p <> 0%Qc) by (apply O; auto; apply lex_le_neq; auto; intros Q; symmetry in Q; apply peqb_iff in Q; congruence).
      destruct (qltb_spec 0 (cross u v p)) as [Z|Z], (qleb_spec 0 (cross u v p)) as [Z'|Z']; try lia; exfalso.
      + apply Z'. clear - Z. qcl.
      + apply N. apply Qcle_antisym; auto. apply Qcnot_lt_le; auto. }
  assert (V1 : val (fun c => isactl (ea c) (ez c) p && qltb 0 (cross (ea c) (ez c) p)) = val (fun c => above (ea c) (ez c) p)).
  { unfold val. rewrite (lab_ext ty fs n _ (fun c => above (ea c) (ez c) p)); auto. intros c L. unfold above. destruct (qltb_spec 0 (cross (ea c) (ez c) p)) as [Z|Z]; [|rewrite !andb_false_r; auto]. rewrite !andb_true_r.
    assert (Na : ea c <> p) by (intros Q; rewrite Q in Z; rewrite ?cross_s, ?cross_t in Z; clear - Z; qcl).
    assert (Nz : ez c <> p) by (intros Q; rewrite Q in Z; rewrite ?cross_s, ?cross_t in Z; clear - Z; qcl).
    apply Bool.eq_iff_eq_true. rewrite isactl_iff, isact_iff. split; intros [X Y]; split; try lord; apply lex_le_neq; auto. }
  assert (V2 : val (fun c => isactl (ea c) (ez c) p && qleb 0 (cross (ea c) (ez c) p)) = val (fun c => onabove (ea c) (ez c) p)).
  { unfold val. rewrite (lab_eq ty fs n _ (fun c => onabove (ea c) (ez c) p)); auto. intros b.
    rewrite (par_ext fs n b _ (fun c => xorb (peqb p (ea c)) (peqb p (ez c)))); [apply (HB b (fun r => peqb p r))|].
    intros c L. unfold onabove. pose proof (e_lt ln n HL c L) as Lc.
    assert (C0 : (ea c = p \/ ez c = p) -> qleb 0 (cross (ea c) (ez c) p) = true).
    { intros Q. apply qleb_iff. replace (cross (ea c) (ez c) p) with 0%Qc; [apply Qcle_refl|]. destruct Q as [Q|Q]; rewrite Q; unfold cross; ring. }
    destruct (peqb p (ea c)) eqn:E1; [apply peqb_iff in E1|]; (destruct (peqb p (ez c)) eqn:E2; [apply peqb_iff in E2|]).
    - exfalso. rewrite <- E1, <- E2 in Lc. lord.
    - rewrite C0 by auto. rewrite !andb_true_r. replace (isactl (ea c) (ez c) p) with false; [replace (isact (ea c) (ez c) p) with true; auto|].
      + symmetry. apply isact_iff. rewrite E1. split; [apply lex_le_refl|auto].
      + symmetry. destruct (isactl (ea c) (ez c) p) eqn:Z; auto. apply isactl_iff in Z as [Z _]. rewrite <- E1 in Z. exfalso. lord.
    - rewrite C0 by auto. rewrite !andb_true_r. replace (isactl (ea c) (ez c) p) with true; [replace (isact (ea c) (ez c) p) with false; auto|].
      + symmetry. destruct (isact (ea c) (ez c) p) eqn:Z; auto. apply isact_iff in Z as [_ Z]. rewrite <- E2 in Z. exfalso. lord.
      + symmetry. apply isactl_iff. rewrite E2. split; [auto|apply lex_le_refl].
    - replace (isactl (ea c) (ez c) p) with (isact (ea c) (ez c) p); [destruct (isact (ea c) (ez c) p && qleb 0 (cross (ea c) (ez c) p)); auto|].
      assert (Na : p <> ea c) by (intros Q; apply peqb_iff in Q; congruence). assert (Nz : p <> ez c) by (intros Q; apply peqb_iff in Q; congruence).
      apply Bool.eq_iff_eq_true. rewrite isactl_iff, isact_iff. split; intros [X Y]; split; try lord; apply lex_le_neq; auto. }
  rewrite V1 in C1. rewrite V2 in C2. lia.
Qed.
End Vertex.
End Count.
