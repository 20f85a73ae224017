(** Basic facts about lexicographic order, orientation and segments. *)
Require Import List Bool Setoid Lqa Psatz.
From Verif Require Import Base Scalar M_Events M_Geo M_LineOrPoint S_Geo.
Import ListNotations.
Local Open Scope Qc_scope.

Global Arguments pcmp : simpl never.
Global Arguments pltb : simpl never.
Global Arguments pleb : simpl never.
Global Arguments peqb : simpl never.
Global Arguments cross : simpl never.
Global Arguments orient2d : simpl never.

Lemma pt_eq : forall a b : pt, cx a = cx b -> cy a = cy b -> a = b.
Proof. intros [x y] [x' y']; simpl; intros; subst; reflexivity. Qed.
Lemma pt_eq_iff : forall a b : pt, a = b <-> cx a = cx b /\ cy a = cy b.
Proof. intros a b. split; [intros ->; auto|intros [H1 H2]; apply pt_eq; auto]. Qed.

(** * Lexicographic order *)
Lemma pcmp_spec : forall a b, CompareSpec (a = b) (lex_lt a b) (lex_lt b a) (pcmp a b).
Proof.
  intros a b. unfold pcmp.
  destruct (qcmp_spec (cx a) (cx b)) as [E|E|E]; [|constructor; left; auto|constructor; left; auto].
  destruct (qcmp_spec (cy a) (cy b)) as [F|F|F]; constructor.
  - apply pt_eq; auto.
  - right; auto.
  - right; auto.
Qed.
Lemma pcmp_refl : forall a, pcmp a a = Eq.
Proof. intros. unfold pcmp. rewrite !qcmp_refl. reflexivity. Qed.
Lemma pcmp_opp : forall a b, pcmp b a = CompOpp (pcmp a b).
Proof.
  intros a b. unfold pcmp. rewrite (qcmp_opp (cx a)), (qcmp_opp (cy a)).
  destruct (cx a ?= cx b), (cy a ?= cy b); reflexivity.
Qed.

Lemma lex_irrefl : forall a, ~ lex_lt a a.
Proof. intros a [H|[_ H]]; qcl. Qed.
Lemma lex_trans : forall a b c, lex_lt a b -> lex_lt b c -> lex_lt a c.
Proof.
  unfold lex_lt. intros a b c [H|[H H']] [K|[K K']].
  - left; qcl.
  - left; qcl.
  - left; qcl.
  - right; split; [congruence|qcl].
Qed.
Lemma lex_asym : forall a b, lex_lt a b -> lex_lt b a -> False.
Proof. intros a b H K. exact (lex_irrefl _ (lex_trans _ _ _ H K)). Qed.
Lemma lex_lt_le : forall a b, lex_lt a b -> lex_le a b.
Proof. intros; left; auto. Qed.
Lemma lex_le_refl : forall a, lex_le a a.
Proof. intros; right; auto. Qed.
Lemma lex_le_trans : forall a b c, lex_le a b -> lex_le b c -> lex_le a c.
Proof. intros a b c [H| ->] [K|K]; subst; [left; eauto using lex_trans|left; auto|left; auto|right; auto]. Qed.
Lemma lex_lt_le_trans : forall a b c, lex_lt a b -> lex_le b c -> lex_lt a c.
Proof. intros a b c H [K| ->]; eauto using lex_trans. Qed.
Lemma lex_le_lt_trans : forall a b c, lex_le a b -> lex_lt b c -> lex_lt a c.
Proof. intros a b c [H| ->] K; eauto using lex_trans. Qed.
Lemma lex_le_antisym : forall a b, lex_le a b -> lex_le b a -> a = b.
Proof. intros a b [H| ->] [K|K]; auto. exfalso; eauto using lex_asym. Qed.
Lemma lex_lt_not_le : forall a b, lex_lt a b -> ~ lex_le b a.
Proof. intros a b H K. exact (lex_irrefl _ (lex_lt_le_trans _ _ _ H K)). Qed.
Lemma lex_total : forall a b, {lex_lt a b} + {a = b} + {lex_lt b a}.
Proof.
  intros a b. destruct (pcmp a b) eqn:E.
  - left; right. destruct (pcmp_spec a b); congruence.
  - left; left. destruct (pcmp_spec a b); congruence.
  - right. destruct (pcmp_spec a b); congruence.
Qed.
Lemma lex_le_dec : forall a b, {lex_le a b} + {lex_lt b a}.
Proof.
  intros a b. destruct (lex_total a b) as [[H|H]|H]; [left; left|left; right|right]; auto.
Qed.
Lemma lex_not_le : forall a b, ~ lex_le a b <-> lex_lt b a.
Proof.
  intros a b. split; intros H; [|apply lex_lt_not_le; auto].
  destruct (lex_le_dec a b); [contradiction|auto].
Qed.
Lemma lex_not_lt : forall a b, ~ lex_lt a b <-> lex_le b a.
Proof.
  intros a b. split; intros H.
  - destruct (lex_le_dec b a); [auto|contradiction].
  - intro K. eapply lex_lt_not_le; eauto.
Qed.
Lemma lex_le_neq : forall a b, lex_le a b -> a <> b -> lex_lt a b.
Proof. intros a b [H|H] K; [auto|contradiction]. Qed.
Lemma lex_lt_neq : forall a b, lex_lt a b -> a <> b.
Proof. intros a b H ->. exact (lex_irrefl _ H). Qed.
Lemma pt_dec : forall a b : pt, {a = b} + {a <> b}.
Proof.
  intros a b. destruct (lex_total a b) as [[H|H]|H].
  - right; apply lex_lt_neq; auto.
  - left; auto.
  - right; intro K; subst; eapply lex_irrefl; eauto.
Defined.

Lemma pltb_iff : forall a b, pltb a b = true <-> lex_lt a b.
Proof.
  intros a b. unfold pltb. destruct (pcmp_spec a b) as [E|E|E]; split; intro H; auto; try discriminate.
  - subst. exfalso; eapply lex_irrefl; eauto.
  - exfalso; eapply lex_asym; eauto.
Qed.
Lemma pleb_iff : forall a b, pleb a b = true <-> lex_le a b.
Proof.
  intros a b. unfold pleb. destruct (pcmp_spec a b) as [E|E|E]; split; intro H; auto; try discriminate.
  - right; auto.
  - left; auto.
  - exfalso; eapply lex_lt_not_le; eauto.
Qed.
Lemma peqb_iff : forall a b, peqb a b = true <-> a = b.
Proof.
  intros a b. unfold peqb. destruct (pcmp_spec a b) as [E|E|E]; split; intro H; auto; try discriminate;
    subst; exfalso; eapply lex_irrefl; eauto.
Qed.
Lemma pltb_false : forall a b, pltb a b = false <-> lex_le b a.
Proof.
  intros a b. rewrite <- lex_not_lt, <- pltb_iff. destruct (pltb a b); split; congruence.
Qed.
Lemma pleb_false : forall a b, pleb a b = false <-> lex_lt b a.
Proof.
  intros a b. rewrite <- lex_not_le, <- pleb_iff. destruct (pleb a b); split; congruence.
Qed.
Lemma peqb_false : forall a b, peqb a b = false <-> a <> b.
Proof.
  intros a b. rewrite <- peqb_iff. destruct (peqb a b); split; congruence.
Qed.
Lemma pltb_spec : forall a b, reflect (lex_lt a b) (pltb a b).
Proof. intros. apply iff_reflect. symmetry. apply pltb_iff. Qed.
Lemma pleb_spec : forall a b, reflect (lex_le a b) (pleb a b).
Proof. intros. apply iff_reflect. symmetry. apply pleb_iff. Qed.
Lemma peqb_spec : forall a b, reflect (a = b) (peqb a b).
Proof. intros. apply iff_reflect. symmetry. apply peqb_iff. Qed.

(** The exact comparison is the generic one, which never fails. *)
Lemma sp_cmp_exact : forall a b, sp_cmp qc_partial_cmp a b = Ok (pcmp a b).
Proof.
  intros a b. unfold sp_cmp, sp_partial_cmp, qc_partial_cmp, pcmp, expect.
  destruct (cx a ?= cx b); reflexivity.
Qed.

Ltac lexo :=
  solve [ eauto 4 using lex_lt_le, lex_le_refl, lex_trans, lex_le_trans, lex_lt_le_trans, lex_le_lt_trans ].
Ltac lexc := (* contradiction between lexicographic facts *)
  exfalso;
  match goal with
  | H : lex_lt ?a ?a |- _ => exact (lex_irrefl _ H)
  | H : lex_lt ?a ?b, K : lex_lt ?b ?a |- _ => exact (lex_asym _ _ H K)
  | H : lex_lt ?a ?b, K : lex_le ?b ?a |- _ => exact (lex_lt_not_le _ _ H K)
  | H : lex_lt ?a ?b |- _ => solve [apply (lex_lt_not_le _ _ H); lexo]
  end.

(** * Orientation *)
Lemma orient2d_value_cross : forall p q r, orient2d_value p q r = cross p q r.
Proof. intros. unfold orient2d_value, cross. ring. Qed.
Inductive orient_spec (p q r : pt) : orientation -> Prop :=
| os_ccw : 0 < cross p q r -> orient_spec p q r CounterClockwise
| os_cw : cross p q r < 0 -> orient_spec p q r Clockwise
| os_col : cross p q r = 0 -> orient_spec p q r Collinear.
Lemma orient2d_spec : forall p q r, orient_spec p q r (orient2d p q r).
Proof.
  intros. unfold orient2d. rewrite orient2d_value_cross.
  destruct (qcmp_spec (cross p q r) 0); constructor; auto.
Qed.

Lemma Qc_div_ex : forall a b : Qc, b <> 0 -> exists t, t * b = a.
Proof.
  intros a b Hb. exists (a / b). unfold Qcdiv. rewrite <- Qcmult_assoc.
  rewrite (Qcmult_comm (/ b)). rewrite Qcmult_inv_r by auto. ring.
Qed.
Lemma Qc_mul_0 : forall a b : Qc, a * b = 0 -> a = 0 \/ b = 0.
Proof. intros a b H. apply Qcmult_integral in H. exact H. Qed.
Lemma Qc_mul_cancel : forall a b c : Qc, c <> 0 -> a * c = b * c -> a = b.
Proof.
  intros a b c Hc H. assert (K : (a - b) * c = 0) by (rewrite <- (Qcplus_opp_r (b * c)); rewrite <- H at 1; ring).
  apply Qc_mul_0 in K. destruct K as [K|K]; [|contradiction].
  rewrite <- (Qcplus_0_r b), <- K. ring.
Qed.
Lemma Qc_neq_lt : forall a b : Qc, a <> b -> a < b \/ b < a.
Proof. intros a b H. destruct (Qc_trichotomy a b) as [[K|K]|K]; auto. contradiction. Qed.
Lemma Qc_lt_neq : forall a b : Qc, a < b -> a <> b.
Proof. intros a b H ->. qcl. Qed.
Lemma Qc_gt_neq : forall a b : Qc, a < b -> b <> a.
Proof. intros a b H ->. qcl. Qed.

(** * Segments *)
Lemma on_seg_cross : forall p q r, on_seg p q r -> cross p q r = 0.
Proof. intros p q r (t & _ & _ & Hx & Hy). unfold cross. rewrite Hx, Hy. ring. Qed.
Lemma on_seg_between : forall p q r, lex_lt p q -> on_seg p q r -> lex_le p r /\ lex_le r q.
Proof.
  intros p q r Hpq (t & H0 & H1 & Hx & Hy).
  destruct (Qc_trichotomy t 0) as [[K|K]|K]; [exfalso; qcl| |].
  - assert (r = p) as -> by (apply pt_eq; [rewrite Hx|rewrite Hy]; subst t; ring).
    split; [right; auto|left; auto].
  - destruct (Qc_trichotomy t 1) as [[J|J]|J]; [| |exfalso; qcl].
    + destruct Hpq as [L|[L M]].
      * split; left; left; rewrite Hx; qc.
      * split; left; right; (split; [rewrite Hx, L; ring|rewrite Hy; qc]).
    + assert (r = q) as -> by (apply pt_eq; [rewrite Hx|rewrite Hy]; subst t; ring).
      split; [left; auto|right; auto].
Qed.
Lemma on_seg_iff : forall p q r, lex_lt p q ->
  (on_seg p q r <-> cross p q r = 0 /\ lex_le p r /\ lex_le r q).
Proof.
  intros p q r Hpq. split.
  - intros H. split; [apply on_seg_cross; auto|apply on_seg_between; auto].
  - intros (Hc & H1 & H2). unfold cross in Hc.
    destruct Hpq as [L|[L M]].
    + assert (N : cx q - cx p <> 0) by (intro N; qcl).
      destruct (Qc_div_ex (cx r - cx p) (cx q - cx p) N) as (t & Ht).
      assert (Ex : cx p <= cx r) by (destruct H1 as [[H1|[H1 _]]|H1]; [qcl|qcl|subst; qcl]).
      assert (Fx : cx r <= cx q) by (destruct H2 as [[H2|[H2 _]]|H2]; [qcl|qcl|subst; qcl]).
      exists t. split; [|split; [|split]].
      * clear Hc. apply Qcnot_lt_le. intro K. qc.
      * clear Hc. apply Qcnot_lt_le. intro K. qc.
      * rewrite Ht. ring.
      * apply (Qc_mul_cancel _ _ (cx q - cx p) N).
        rewrite <- (Qcplus_0_r (_ * _)). rewrite <- Hc at 1.
        replace ((cy p + t * (cy q - cy p)) * (cx q - cx p))
          with (cy p * (cx q - cx p) + (t * (cx q - cx p)) * (cy q - cy p)) by ring.
        rewrite Ht.
        assert (A : (cx q - cx p) * (cy r - cy p) = (cy q - cy p) * (cx r - cx p)) by qc.
        assert (G : cy r * (cx q - cx p) = cy p * (cx q - cx p) + (cx r - cx p) * (cy q - cy p)) by qc.
        rewrite G. rewrite A. ring.
    + assert (N : cy q - cy p <> 0) by (intro N; qcl).
      assert (Er : cx r = cx p).
      { rewrite <- L in Hc.
        assert (K : (cy q - cy p) * (cx r - cx p) = 0) by qc.
        apply Qc_mul_0 in K. destruct K as [K|K]; [contradiction|qcl]. }
      destruct (Qc_div_ex (cy r - cy p) (cy q - cy p) N) as (t & Ht).
      assert (Ey : cy p <= cy r) by (destruct H1 as [[H1|[_ H1]]|H1]; [exfalso; qcl|qcl|subst; qcl]).
      assert (Fy : cy r <= cy q) by (destruct H2 as [[H2|[_ H2]]|H2]; [exfalso; qcl|qcl|subst; qcl]).
      exists t. split; [|split; [|split]].
      * apply Qcnot_lt_le. intro K. clear Hc. qc.
      * apply Qcnot_lt_le. intro K. clear Hc. qc.
      * rewrite Er, L. ring.
      * rewrite Ht. ring.
Qed.
Lemma on_seg_start : forall p q, on_seg p q p.
Proof. intros. exists 0. repeat split; try ring; qcl. Qed.
Lemma on_seg_end : forall p q, on_seg p q q.
Proof. intros. exists 1. repeat split; try ring; qcl. Qed.
Lemma on_seg_sym : forall p q r, on_seg p q r -> on_seg q p r.
Proof.
  intros p q r (t & H0 & H1 & Hx & Hy). exists (1 - t).
  split; [qcl|split; [qcl|]]. rewrite Hx, Hy. split; ring.
Qed.
Lemma on_seg_point : forall p r, on_seg p p r <-> r = p.
Proof.
  intros p r. split.
  - intros (t & _ & _ & Hx & Hy). apply pt_eq; [rewrite Hx|rewrite Hy]; ring.
  - intros ->. apply on_seg_start.
Qed.

(** A decision procedure for the lexicographic order: refute by saturating
    under transitivity. *)
Ltac lex_pose P H :=
  lazymatch goal with
  | _ : P |- _ => fail
  | _ => assert P by H
  end.
Ltac lex_sat :=
  repeat match goal with
  | H : lex_lt ?a ?a |- _ => exfalso; exact (lex_irrefl _ H)
  | H : lex_le ?a ?a |- _ => clear H
  | H : lex_le ?a ?b, K : lex_le ?b ?a |- _ =>
      let E := fresh in pose proof (lex_le_antisym _ _ H K) as E; clear H K;
      first [subst a | subst b | rewrite E in *]
  | H : lex_lt ?a ?b, K : lex_lt ?b ?c |- _ =>
      lazymatch goal with _ : lex_lt a c |- _ => fail | _ => pose proof (lex_trans _ _ _ H K) end
  | H : lex_lt ?a ?b, K : lex_le ?b ?c |- _ =>
      lazymatch goal with _ : lex_lt a c |- _ => fail | _ => pose proof (lex_lt_le_trans _ _ _ H K) end
  | H : lex_le ?a ?b, K : lex_lt ?b ?c |- _ =>
      lazymatch goal with _ : lex_lt a c |- _ => fail | _ => pose proof (lex_le_lt_trans _ _ _ H K) end
  | H : lex_le ?a ?b, K : lex_le ?b ?c |- _ =>
      lazymatch goal with
      | _ : lex_le a c |- _ => fail
      | _ : lex_lt a c |- _ => fail
      | _ => pose proof (lex_le_trans _ _ _ H K) end
  end.
Ltac lex_prep :=
  repeat match goal with
  | H : ~ lex_lt _ _ |- _ => apply lex_not_lt in H
  | H : ~ lex_le _ _ |- _ => apply lex_not_le in H
  | H : @eq pt ?a ?b |- _ => first [subst a | subst b | rewrite H in *; clear H]
  | H : @eq (coord Qc) ?a ?b |- _ => first [subst a | subst b | rewrite H in *; clear H]
  end.
Ltac lord :=
  lex_prep;
  lazymatch goal with
  | |- lex_lt ?a ?b => destruct (lex_le_dec b a); [exfalso; lex_sat|assumption]
  | |- lex_le ?a ?b => destruct (lex_le_dec a b); [assumption|exfalso; lex_sat]
  | |- @eq pt ?a ?b => apply lex_le_antisym; lord
  | |- @eq (coord Qc) ?a ?b => apply lex_le_antisym; lord
  | |- ~ _ => intro; exfalso; lord
  | |- False => lex_sat
  | |- _ => exfalso; lex_sat
  end; fail.
