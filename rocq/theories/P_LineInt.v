(** geo's [line_intersection] for arbitrary lines, in either direction and
    degenerate. *)
Require Import List String Bool Arith Lia.
From Verif Require Import Base Scalar M_Events M_Geo M_LineOrPoint S_Geo S_Sweep M_Sweep P_Geo P_LineOrPoint P_Tile.
Import ListNotations.
Local Open Scope Qc_scope.

Definition btw (a b r : pt) : Prop := (lex_le a r /\ lex_le r b) \/ (lex_le b r /\ lex_le r a).
Lemma btw_sym : forall a b r, btw a b r <-> btw b a r.
Proof. unfold btw. tauto. Qed.
Lemma on_seg_comm : forall a b r, on_seg a b r <-> on_seg b a r.
Proof. intros. split; apply on_seg_sym. Qed.
Lemma rect_comm : forall p q, line_bounding_rect (mkLine p q) = line_bounding_rect (mkLine q p).
Proof.
  intros p q. unfold line_bounding_rect. simpl. f_equal; f_equal.
  - destruct (qmin_spec (cx p) (cx q)) as [[-> ?]|[-> ?]], (qmin_spec (cx q) (cx p)) as [[-> ?]|[-> ?]]; qcl.
  - destruct (qmin_spec (cy p) (cy q)) as [[-> ?]|[-> ?]], (qmin_spec (cy q) (cy p)) as [[-> ?]|[-> ?]]; qcl.
  - destruct (qmax_spec (cx p) (cx q)) as [[-> ?]|[-> ?]], (qmax_spec (cx q) (cx p)) as [[-> ?]|[-> ?]]; qcl.
  - destruct (qmax_spec (cy p) (cy q)) as [[-> ?]|[-> ?]], (qmax_spec (cy q) (cy p)) as [[-> ?]|[-> ?]]; qcl.
Qed.
Lemma cross_swap : forall p q r, cross q p r = - cross p q r.
Proof. intros. unfold cross. ring. Qed.
Lemma rect_pt : forall p r, rect_has (line_bounding_rect (mkLine p p)) r = true <-> r = p.
Proof.
  intros p r. rewrite rect_has_true. simpl.
  assert (E1 : forall x, qmin x x = x) by (intros x; destruct (qmin_spec x x) as [[-> _]|[-> _]]; auto).
  assert (E2 : forall x, qmax x x = x) by (intros x; destruct (qmax_spec x x) as [[-> _]|[-> _]]; auto).
  rewrite !E1, !E2. split; [intros (A & B & D & E); apply pt_eq; qcl|intros ->; repeat split; qcl].
Qed.
Lemma rect_btw : forall p q r, cross p q r = 0 -> (rect_has (line_bounding_rect (mkLine p q)) r = true <-> btw p q r).
Proof.
  intros p q r C. destruct (lex_total p q) as [[L| ->]|L].
  - rewrite rect_has_iff by auto. split; [left; auto|]. intros [K|[K1 K2]]; [auto|]. split; lord.
  - rewrite rect_pt. unfold btw. split; [intros ->; left; split; apply lex_le_refl|]. intros [[A B]|[A B]]; lord.
  - rewrite rect_comm, rect_has_iff by (auto; rewrite cross_swap, C; ring). split; [right; auto|]. intros [[K1 K2]|K]; [|auto]. split; lord.
Qed.
Lemma on_seg_btw : forall p q r, p <> q -> (on_seg p q r <-> cross p q r = 0 /\ btw p q r).
Proof.
  intros p q r N. destruct (lex_total p q) as [[L|E]|L]; [|contradiction|].
  - rewrite on_seg_iff by auto. split; [intros (A & B); split; [auto|left; auto]|]. intros (A & [B|[B1 B2]]); split; auto. split; lord.
  - rewrite on_seg_comm, on_seg_iff by auto. rewrite (cross_swap p q). split.
    + intros (A & B). split; [qcl|right; auto].
    + intros (A & [[B1 B2]|B]); (split; [qcl|auto]). split; lord.
Qed.
(** Every pair of points of a line spans the points between them. *)
Lemma on_seg_btw_on : forall p q a b r, p <> q -> cross p q a = 0 -> cross p q b = 0 ->
  (on_seg a b r <-> cross p q r = 0 /\ btw a b r).
Proof.
  intros p q a b r N Ca Cb. destruct (pt_dec a b) as [<-|Nab].
  - rewrite on_seg_point. unfold btw. split; [intros ->; split; auto; left; split; apply lex_le_refl|].
    intros (_ & [[A B]|[A B]]); lord.
  - rewrite on_seg_btw by auto. rewrite (collinear_same p q a b r) by auto. reflexivity.
Qed.

Definition li_exact (l l' : line) (o : option line_intersection_result) : Prop :=
  match o with
  | None => forall r, ~ (on_line l r /\ on_line l' r)
  | Some i => exact_intersection l l' i
  end.

Lemma collinear_exact : forall p1 p2 q1 q2,
  cross p1 p2 q1 = 0 -> cross p1 p2 q2 = 0 -> cross q1 q2 p1 = 0 -> cross q1 q2 p2 = 0 ->
  (p1 = p2 -> q1 = q2 -> p1 = q1) ->
  li_exact (mkLine p1 p2) (mkLine q1 q2) (collinear_intersection (mkLine p1 p2) (mkLine q1 q2)).
Proof.
  intros p1 p2 q1 q2 Ha Hb Hc Hd Hdeg.
  pose proof (rect_btw p1 p2 q1 Ha) as Ra. pose proof (rect_btw p1 p2 q2 Hb) as Rb.
  pose proof (rect_btw q1 q2 p1 Hc) as Rc. pose proof (rect_btw q1 q2 p2 Hd) as Rd.
  assert (EX : exists K : pt -> Prop, K p1 /\ K p2 /\ K q1 /\ K q2 /\
    forall a b r, K a -> K b -> (on_seg a b r <-> K r /\ btw a b r)).
  { destruct (pt_dec p1 p2) as [E|N].
    - destruct (pt_dec q1 q2) as [E'|N'].
      + specialize (Hdeg E E'). subst. exists (fun r => r = q2). repeat (split; [reflexivity|]). intros a b r -> ->. rewrite on_seg_point.
        unfold btw. split; [intros ->; split; auto; left; split; apply lex_le_refl|intros [-> _]; auto].
      + exists (fun r => cross q1 q2 r = 0). split; [auto|]. split; [auto|]. split; [unfold cross; ring|]. split; [unfold cross; ring|].
        intros a b r A B. apply on_seg_btw_on; auto.
    - exists (fun r => cross p1 p2 r = 0). split; [unfold cross; ring|]. split; [unfold cross; ring|]. split; [auto|]. split; [auto|].
      intros a b r A B. apply on_seg_btw_on; auto. }
  clear Ha Hb Hc Hd Hdeg. destruct EX as (K & K1 & K2 & K3 & K4 & HK).
  assert (I : forall r, on_seg p1 p2 r /\ on_seg q1 q2 r <-> K r /\ btw p1 p2 r /\ btw q1 q2 r).
  { intros r. rewrite !HK by auto. tauto. }
  assert (SEG : forall a b, K a -> K b -> (forall r, btw p1 p2 r /\ btw q1 q2 r <-> btw a b r) ->
    li_exact (mkLine p1 p2) (mkLine q1 q2) (Some (CollinearSeg (mkLine a b)))).
  { intros a b A B E r. unfold on_line. simpl. rewrite I, E, (HK a b) by auto. reflexivity. }
  assert (PT : forall a x, K a -> (forall r, btw p1 p2 r /\ btw q1 q2 r <-> r = a) ->
    li_exact (mkLine p1 p2) (mkLine q1 q2) (Some (SinglePoint a x))).
  { intros a x A E r. unfold on_line. simpl. rewrite I, E. split; [tauto|intros ->; auto]. }
  assert (NO : (forall r, ~ (btw p1 p2 r /\ btw q1 q2 r)) -> li_exact (mkLine p1 p2) (mkLine q1 q2) None).
  { intros E r. unfold on_line. simpl. rewrite I. intros (_ & H). exact (E r H). }
  clear HK I. revert Ra Rb Rc Rd. unfold collinear_intersection. simpl l_start. simpl l_end.
  generalize (rect_has (line_bounding_rect (mkLine p1 p2)) q1) as ra. generalize (rect_has (line_bounding_rect (mkLine p1 p2)) q2) as rb.
  generalize (rect_has (line_bounding_rect (mkLine q1 q2)) p1) as rc. generalize (rect_has (line_bounding_rect (mkLine q1 q2)) p2) as rd.
  intros rd rc rb ra Ra Rb Rc Rd.
  assert (Q : forall (x : bool) (X : Prop), (x = true <-> X) -> (x = true /\ X) \/ (x = false /\ ~ X)).
  { intros [|] X H; [left|right]; split; auto; [apply H; auto|]. intros Y. apply H in Y. discriminate. }
  assert (NB : forall a b r, ~ btw a b r -> (lex_lt r a /\ lex_lt r b) \/ (lex_lt a r /\ lex_lt b r)).
  { intros a b r N. unfold btw in N. destruct (lex_le_dec a r) as [A|A].
    - destruct (lex_le_dec r b) as [B|B]; [tauto|]. destruct (lex_le_dec r a) as [D|D]; [|auto]. exfalso. apply N. right. split; auto. left; auto.
    - destruct (lex_le_dec b r) as [B|B]; [|auto]. exfalso. apply N. right. split; auto. left; auto. }
  destruct (Q _ _ Ra) as [[-> A]|[-> A]]; destruct (Q _ _ Rb) as [[-> B]|[-> B]];
  destruct (Q _ _ Rc) as [[-> C]|[-> C]]; destruct (Q _ _ Rd) as [[-> D]|[-> D]]; clear Q Ra Rb Rc Rd; cbn [andb negb];
  repeat match goal with H : ~ btw _ _ _ |- _ => apply NB in H end; clear NB.
  all: repeat match goal with |- context [if peqb ?a ?b then _ else _] => destruct (peqb_spec a b) as [EQ|NEQ] end.
  all: match goal with
       | |- li_exact _ _ None => apply NO; clear SEG PT NO; intros r [R1 R2]
       | |- li_exact _ _ (Some (CollinearSeg ?x)) => try (match x with mkLine ?a ?b => apply (SEG a b) end); auto; clear SEG PT NO; intros r; split; [intros [R1 R2]|intros R1]
       | |- li_exact _ _ (Some (SinglePoint ?a _)) => apply PT; auto; clear SEG PT NO; intros r; split; [intros [R1 R2]|intros ->]
       end.
  all: clear K K1 K2 K3 K4; unfold btw in *.
  all: repeat match goal with H : (_ /\ _) \/ (_ /\ _) |- _ => destruct H as [[? ?]|[? ?]]; try (exfalso; lord) end.
  all: try (split; lord).
  all: try lord.
  all: try (first [left; split; lord|right; split; lord]).
  all: try (split; first [left; split; lord|right; split; lord]).
  all: try (exfalso; apply NEQ; lord).
Qed.

Theorem line_intersection_all : forall l l', li_exact l l' (line_intersection l l').
Proof.
  intros [p1 p2] [q1 q2]. unfold line_intersection, line_intersection_with. simpl l_start; simpl l_end.
  destruct (rect_intersects _ _) eqn:ER; cbn [negb].
  2:{ intros r [H1 H2].
      rewrite (rects_intersect _ _ r) in ER; [discriminate| |]; apply on_seg_in_rect; auto. }
  pose proof (orient2d_spec p1 p2 q1) as O1. pose proof (orient2d_spec p1 p2 q2) as O2.
  pose proof (orient2d_spec q1 q2 p1) as O3. pose proof (orient2d_spec q1 q2 p2) as O4.
  generalize dependent (orient2d p1 p2 q1). intros o1 O1.
  generalize dependent (orient2d p1 p2 q2). intros o2 O2.
  generalize dependent (orient2d q1 q2 p1). intros o3 O3.
  generalize dependent (orient2d q1 q2 p2). intros o4 O4.
  pose proof (proper_is_common p1 p2 q1 q2) as PC. cbv zeta in PC.
  generalize dependent (proper_intersection (mkLine p1 p2) (mkLine q1 q2)). intros pw PC.
  destruct (same_side o1 o2) eqn:ES1.
  { intros r [H1 H2]. pose proof (meets_straddle p1 p2 q1 q2 r H2 (on_seg_cross _ _ _ H1)) as ST.
    destruct O1, O2; simpl in ES1; try discriminate; destruct ST as [[? ?]|[? ?]]; qcl. }
  destruct (same_side o3 o4) eqn:ES2.
  { intros r [H1 H2]. pose proof (meets_straddle q1 q2 p1 p2 r H1 (on_seg_cross _ _ _ H2)) as ST.
    destruct O3, O4; simpl in ES2; try discriminate; destruct ST as [[? ?]|[? ?]]; qcl. }
  pose proof (same_side_false _ _ _ _ _ _ O1 O2 ES1) as SA.
  pose proof (same_side_false _ _ _ _ _ _ O3 O4 ES2) as SB.
  destruct (Qc_eq_dec (cross p1 p2 q1) (cross p1 p2 q2)) as [EQ|NE].
  - assert (Z1 : cross p1 p2 q1 = 0) by (destruct SA as [[? ?]|[? ?]]; rewrite <- EQ in *; qcl).
    assert (Z2 : cross p1 p2 q2 = 0) by congruence.
    assert (EQ' : cross q1 q2 p1 = cross q1 q2 p2).
    { replace (cross q1 q2 p2) with (cross q1 q2 p1 - (cross p1 p2 q2 - cross p1 p2 q1)) by (unfold cross; ring). rewrite Z1, Z2. ring. }
    assert (Z3 : cross q1 q2 p1 = 0) by (destruct SB as [[? ?]|[? ?]]; rewrite <- EQ' in *; qcl).
    assert (Z4 : cross q1 q2 p2 = 0) by congruence.
    destruct O1; [exfalso; qcl|exfalso; qcl|]. destruct O2; [exfalso; qcl|exfalso; qcl|].
    destruct O3; [exfalso; qcl|exfalso; qcl|]. destruct O4; [exfalso; qcl|exfalso; qcl|].
    simpl. apply collinear_exact; auto. intros <- <-.
    assert (M : forall x, qmin x x = x) by (intros x; destruct (qmin_spec x x) as [[-> _]|[-> _]]; auto).
    assert (M' : forall x, qmax x x = x) by (intros x; destruct (qmax_spec x x) as [[-> _]|[-> _]]; auto).
    unfold rect_intersects, line_bounding_rect in ER. simpl in ER. rewrite !M, !M', !andb_true_iff, !negb_true_iff in ER.
    destruct ER as (((E1 & E2) & E3) & E4). 
    assert (T : forall x y, qltb x y = false -> y <= x).
    { intros x y Hq. destruct (Qc_trichotomy x y) as [[K|K]|K]; [|qcl|qcl]. apply qltb_iff in K. congruence. }
    apply T in E1, E2, E3, E4. apply pt_eq; qcl.
  - destruct (common_exists p1 p2 q1 q2 NE SA SB) as (w & W1 & W2).
    assert (U : forall i x, on_seg p1 p2 i /\ on_seg q1 q2 i -> li_exact (mkLine p1 p2) (mkLine q1 q2) (Some (SinglePoint i x))).
    { intros i x [I1 I2] r. unfold on_line. simpl. split; [|intros ->; auto].
      intros [R1 R2]. apply (common_unique p1 p2 q1 q2 NE); apply on_seg_cross; auto. }
    assert (NC : is_collinear o1 && is_collinear o2 && is_collinear o3 && is_collinear o4 = false).
    { destruct O1; simpl; auto. destruct O2; simpl; auto. exfalso; apply NE; congruence. }
    rewrite NC. clear NC.
    assert (Q : forall i, cross p1 p2 i = 0 -> cross q1 q2 i = 0 -> i = w).
    { intros i C1 C2. apply (common_unique p1 p2 q1 q2 NE); auto using on_seg_cross. }
    assert (Zp1 : cross p1 p2 p1 = 0) by (unfold cross; ring).
    assert (Zp2 : cross p1 p2 p2 = 0) by (unfold cross; ring).
    assert (Zq1 : cross q1 q2 q1 = 0) by (unfold cross; ring).
    assert (Zq2 : cross q1 q2 q2 = 0) by (unfold cross; ring).
    destruct (is_collinear o1 || is_collinear o2 || is_collinear o3 || is_collinear o4) eqn:EC.
    + apply U.
      destruct (peqb_spec p1 q1) as [E|E]; simpl; [subst; split; apply on_seg_start|].
      destruct (peqb_spec p1 q2) as [E'|E']; simpl; [subst; split; [apply on_seg_start|apply on_seg_end]|].
      destruct (peqb_spec p2 q1) as [E2|E2]; simpl; [subst; split; [apply on_seg_end|apply on_seg_start]|].
      destruct (peqb_spec p2 q2) as [E3|E3]; simpl; [subst; split; apply on_seg_end|].
      destruct O1 as [O1|O1|O1], O2 as [O2|O2|O2], O3 as [O3|O3|O3], O4 as [O4|O4|O4];
        cbn [is_collinear orient_eqb orb] in EC |- *; try discriminate EC;
        first [rewrite <- (Q q1 O1 Zq1) in W1, W2; split; assumption | rewrite <- (Q q2 O2 Zq2) in W1, W2; split; assumption
              | rewrite <- (Q p1 Zp1 O3) in W1, W2; split; assumption | rewrite <- (Q p2 Zp2 O4) in W1, W2; split; assumption].
    + apply U. destruct (PC NE) as [P1 P2]. rewrite (Q _ P1 P2). auto.
Qed.
