(** The top chain of a piece of the decomposition is nowhere below its bottom chain. *)
Require Import List Bool Arith Lia Sorted.
From Verif Require Import Base Scalar M_Events M_Geo M_MonoPoly S_Geo P_Geo S_Mono P_Mono P_OpPlane P_MonoChains.
Import ListNotations.
Local Open Scope Qc_scope.

(** ** Edges of an increasing chain *)
Lemma inc_edge : forall l a b, increasing l -> In (a, b) (edges l) -> lex_lt a b.
Proof. intros l a b Si I. apply edges_nth in I as (i & A & B). apply (inc_nth l i (S i)); auto. Qed.
Lemma inc_order : forall l a b c d, increasing l -> In (a, b) (edges l) -> In (c, d) (edges l) -> (a, b) = (c, d) \/ lex_le b c \/ lex_le d a.
Proof.
  intros l a b c d Si I J. apply edges_nth in I as (i & A & B). apply edges_nth in J as (j & C & D).
  destruct (lt_eq_lt_dec i j) as [[L|L]|L].
  - right; left. destruct (Nat.eq_dec (S i) j) as [E|E]; [subst j; rewrite B in C; injection C as ->; apply lex_le_refl|]. apply lex_lt_le. apply (inc_nth l (S i) j); auto. lia.
  - left. subst j. congruence.
  - right; right. destruct (Nat.eq_dec (S j) i) as [E|E]; [subst i; rewrite A in D; injection D as ->; apply lex_le_refl|]. apply lex_lt_le. apply (inc_nth l (S j) i); auto. lia.
Qed.
Lemma inc_between : forall l p q s, starts_at l p -> ends_at l q -> lex_lt p s -> lex_le s q -> exists a b, In (a, b) (edges l) /\ lex_lt a s /\ lex_le s b.
Proof.
  intros l p q s [k ->]. revert p. induction k as [|v k IH]; intros p [k' E] L1 L2.
  - destruct k' as [|x k']; [|destruct k'; discriminate]. injection E as ->. exfalso. apply lex_lt_not_le in L1. auto.
  - destruct (lex_le_dec s v) as [L|L].
    + exists p, v. split; [rewrite edges_cons; left; auto|auto].
    + destruct (IH v) as (a & b & I & A & B); auto.
      * destruct k' as [|x k']; [discriminate|]. injection E as _ E. exists k'. auto.
      * exists a, b. split; auto. rewrite edges_cons. right; auto.
Qed.
Lemma chain_bounds : forall l p q r, increasing l -> starts_at l p -> ends_at l q -> on_chain l r -> lex_le p r /\ lex_le r q.
Proof.
  intros l p q r Si [k E] [k' E'] (a & b & I & O). pose proof (inc_edge l a b Si I) as L. apply on_seg_between in O as [O1 O2]; auto. apply edges_nth in I as (i & A & B).
  split.
  - destruct i as [|i]; [rewrite E in A; injection A as ->; auto|]. apply (lex_le_trans _ a); auto. apply lex_lt_le. apply (inc_nth l 0 (S i)); auto; [lia|]. rewrite E. reflexivity.
  - destruct (Nat.eq_dec (S i) (length k')) as [Q|Q].
    + rewrite Q, E', nth_error_app2, Nat.sub_diag in B by lia. injection B as ->. auto.
    + apply (lex_le_trans _ b); auto. apply lex_lt_le. apply (inc_nth l (S i) (length k')); auto.
      * assert (Z : (S i < length l)%nat) by (apply nth_error_Some; rewrite B; discriminate). rewrite E', app_length in Z. cbn in Z. lia.
      * rewrite E', nth_error_app2, Nat.sub_diag by lia. reflexivity.
Qed.
(** A point on the chain lies on the edge that spans it. *)
Lemma on_span : forall l r a b, increasing l -> on_chain l r -> In (a, b) (edges l) -> lex_le a r -> lex_lt r b -> on_seg a b r.
Proof.
  intros l r a b Si (c & d & I & O) J A B. pose proof (inc_edge l c d Si I) as L. pose proof (on_seg_between _ _ _ L O) as [O1 O2].
  destruct (inc_order l a b c d Si J I) as [Q|[Q|Q]].
  - injection Q as -> ->. auto.
  - exfalso. apply (lex_lt_not_le _ _ B). apply (lex_le_trans _ c); auto.
  - assert (Z : r = d) by (apply lex_le_antisym; auto; apply (lex_le_trans _ a); auto). assert (Z' : r = a) by (apply lex_le_antisym; auto; rewrite Z; auto). rewrite Z'. apply on_seg_start.
Qed.
Lemma on_span_r : forall l r a b, increasing l -> on_chain l r -> In (a, b) (edges l) -> lex_lt a r -> lex_le r b -> on_seg a b r.
Proof.
  intros l r a b Si O I A B. destruct (lex_total r b) as [[L|L]|L].
  - apply (on_span l); auto. apply lex_lt_le; auto.
  - subst. apply on_seg_end.
  - exfalso. apply (lex_lt_not_le _ _ L B).
Qed.

(** ** The top chain is nowhere below the bottom chain *)
Definition ordered_at (q : pt) (bot top : list (pt * pt)) : Prop := forall u v u' v', In (u, v) bot -> In (u', v') top -> skew u v u' v' /\
  (isact u v q = true -> isact u' v' q = true -> (0 < cross u' v' q -> 0 < cross u v q) /\ (0 <= cross u' v' q -> 0 <= cross u v q)).
(** The chains have only their ends in common. *)
Definition tight (bot top : list pt) : Prop :=
  (forall u v u' v', In (u, v) (edges bot) -> In (u', v') (edges top) -> clr u v u' v') /\
  forall v, In v bot -> In v top -> starts_at bot v \/ ends_at bot v.
Lemma cross_off : forall a b s q, lex_lt a b -> on_seg a b s -> cx q = cx s -> cross a b q = (cx b - cx a) * (cy q - cy s).
Proof. intros a b s q L O E. apply on_seg_cross in O. assert (Z : cross a b q = cross a b s + (cx b - cx a) * (cy q - cy s)) by (unfold cross; rewrite E; ring). rewrite Z, O. ring. Qed.
Lemma lex_x : forall a b, lex_le a b -> cx a <= cx b.
Proof. intros a b [[L|[E _]]| ->]; [apply Qclt_le_weak; auto|rewrite E; apply Qcle_refl|apply Qcle_refl]. Qed.
Theorem ordered_above : forall top bot, mono_pair top bot -> (forall q, ordered_at q (edges bot) (edges top)) -> S_Mono.above top bot.
Proof.
  intros top bot (p & q & S1 & S2 & E1 & E2 & Npq & I1 & I2) Or r s Or_ Os Ex. apply Qcnot_lt_le. intros Ly.
  assert (Lrs : lex_lt r s) by (right; auto).
  destruct (chain_bounds top p q r I1 S1 E1 Or_) as [B1 B2]. destruct (chain_bounds bot p q s I2 S2 E2 Os) as [B3 B4].
  assert (Lps : lex_lt p s) by (apply (lex_le_lt_trans _ r); auto).
  destruct (inc_between bot p q s S2 E2 Lps B4) as (a & b & Ib & A1 & A2). destruct (inc_between top p q s S1 E1 Lps B4) as (a' & b' & It & T1 & T2).
  pose proof (on_span_r bot s a b I2 Os Ib A1 A2) as Os'. pose proof (inc_edge _ _ _ I2 Ib) as Lab. pose proof (inc_edge _ _ _ I1 It) as Lab'.
  assert (Ht : exists t, on_seg a' b' t /\ cx t = cx s /\ cy t < cy s /\ lex_le a' t).
  { destruct (lex_le_dec a' r) as [L|L].
    - exists r. split; [|auto]. apply (on_span top); auto. apply (lex_lt_le_trans _ s); auto.
    - exists a'. split; [apply on_seg_start|]. assert (X : cx a' = cx s).
      { apply Qcle_antisym; [apply lex_x, lex_lt_le; auto|]. rewrite <- Ex. apply lex_x, lex_lt_le; auto. }
      split; auto. split; [|apply lex_le_refl]. destruct T1 as [T1|[_ T1]]; auto. rewrite X in T1. exfalso. apply Qclt_not_eq in T1. auto. }
  destruct Ht as (t & Ot & Xt & Yt & Lt_).
  assert (Hd : exists d, cx d = cx s /\ cy d < cy s /\ cy t <= cy d /\ lex_le a d).
  { destruct (Qclt_le_dec (cy t) (cy a)) as [Y|Y].
    - destruct A1 as [X|[X Y']]; [|exists a; repeat split; auto using Qclt_le_weak, lex_le_refl]. exists t. repeat split; auto using Qcle_refl. left. left. rewrite Xt. auto.
    - exists t. repeat split; auto using Qcle_refl. pose proof (lex_x _ _ (lex_lt_le _ _ A1)) as X. destruct (Qc_eq_dec (cx a) (cx s)) as [Q|Q].
      + destruct (Qc_eq_dec (cy a) (cy t)) as [Q'|Q']; [right; destruct a, t; cbn in *; congruence|]. left. right. split; [congruence|]. apply Qcle_lt_or_eq in Y as [Y|Y]; auto. contradiction.
      + left. left. rewrite Xt. apply Qcle_lt_or_eq in X as [X|X]; auto. contradiction. }
  destruct Hd as (d & Xd & Yd & Ytd & Lad).
  assert (Hm : exists y, cy d < y /\ y < cy s).
  { exists ((cy d + cy s) * / (1 + 1)). assert (Z : (cy d + cy s) * / (1 + 1) * (1 + 1) = cy d + cy s) by (field; discriminate). set (m := (cy d + cy s) * / (1 + 1)) in *. clearbody m. split; qcl. }
  destruct Hm as (y & Y1 & Y2). set (m := mkC (cx s) y).
  assert (Ldm : lex_lt d m) by (right; auto). assert (Lms : lex_lt m s) by (right; auto).
  assert (Ltm : lex_lt t m) by (right; split; auto; cbn; eapply Qcle_lt_trans; eauto).
  destruct (Or m a b a' b' Ib It) as [Sk Od]. destruct Od as [O1 O2].
  { apply isact_iff. split; [apply lex_lt_le; apply (lex_le_lt_trans _ d); auto|apply (lex_lt_le_trans _ s); auto]. }
  { apply isact_iff. split; [apply lex_lt_le; apply (lex_le_lt_trans _ t); auto|apply (lex_lt_le_trans _ s); auto]. }
  rewrite (cross_off a b s m Lab Os' eq_refl) in O1, O2. assert (Xm : cx m = cx t) by (cbn; auto). rewrite (cross_off a' b' t m Lab' Ot Xm) in O1, O2.
  pose proof (lex_x _ _ (lex_lt_le _ _ Lab)) as Xab. pose proof (lex_x _ _ (lex_lt_le _ _ Lab')) as Xab'. cbn [m cy] in O1, O2.
  change (cy m) with y in O1, O2.
  assert (Hb : cx a = cx b).
  { apply Qcle_lt_or_eq in Xab as [X|X]; auto. exfalso. assert (W : 0 <= (cx b - cx a) * (y - cy s)) by (apply O2; qc). qc. }
  assert (Ht : cx a' = cx b').
  { apply Qcle_lt_or_eq in Xab' as [X|X]; auto. exfalso. assert (W : 0 < (cx b - cx a) * (y - cy s)) by (apply O1; qc). rewrite Hb in W. replace ((cx b - cx b) * (y - cy s)) with 0 in W by ring. apply Qclt_not_eq in W. auto. }
  pose proof (lex_x _ _ A2) as X1. pose proof (lex_x _ _ (lex_lt_le _ _ A1)) as X2. pose proof (lex_x _ _ T2) as X3. pose proof (lex_x _ _ (lex_lt_le _ _ T1)) as X4.
  assert (Ea : cx a = cx s) by (apply Qcle_antisym; auto; rewrite Hb; auto). assert (Ea' : cx a' = cx s) by (apply Qcle_antisym; auto; rewrite Ht; auto).
  assert (Eb : cx b = cx s) by congruence. assert (Eb' : cx b' = cx s) by congruence.
  assert (Z : forall u v w, cx u = cx s -> cx v = cx s -> cx w = cx s -> cross u v w = 0) by (intros u v w U1 U2 U3; unfold cross; rewrite U1, U2, U3; ring).
  destruct Sk as [K|[K|[K|[K|[K|K]]]]]; try (apply K; apply Z; auto).
  - apply (lex_lt_not_le a b'); auto. apply (lex_lt_le_trans _ s); auto.
  - apply (lex_lt_not_le a' b); auto. apply (lex_lt_le_trans _ s); auto.
Qed.
