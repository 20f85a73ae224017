(** The labels on the two sides of a place of an edge, and the points that can be
    seen from it. *)
Require Import List String Bool Arith Lia Permutation.
From Verif Require Import Base Scalar M_Events M_Geo M_LineOrPoint M_Sweep M_Rings M_Op.
From Verif Require Import S_Geo P_Geo P_LineOrPoint P_Tilt P_Bundle P_Tile P_Order P_Inv P_Run.
From Verif Require Import S_Op P_OpLab P_OpPoint P_OpStep P_OpRun P_OpPlane.
Import Datatypes.
Import ListNotations.
Local Open Scope nat_scope.

Section Side.
Variables (ln : nat -> line) (n : nat) (e : Qc) (V V' : list pt).
Hypothesis HT' : tilts e (fun p => In p V').
Hypothesis HVV : incl V V'.
Hypothesis HV1 : forall c a z, c < n -> geo ln c = Line a z -> In a V /\ In z V.
Hypothesis HV2 : forall c c' a z a' z' r, c < n -> c' < n -> geo ln c = Line a z -> geo ln c' = Line a' z' ->
  on_seg a z r -> on_seg a' z' r -> (forall r', on_seg a z r' -> on_seg a' z' r' -> r' = r) -> In r V.
Hypothesis HL : forall c, c < n -> exists a z, geo ln c = Line a z.
Variables (ty : op_type) (fs : nat -> bool).
Hypothesis HB : forall b (g : pt -> bool), par fs n b (fun c => xorb (g (ea ln c)) (g (ez ln c))) = false.
Variable m : pt.
Hypothesis Vm : In m V'.
Hypothesis Nm : ~ In m V.
Notation tl := (tilt e).
Notation H := (P_Order.H e).
Notation ea := (ea ln).
Notation ez := (ez ln).
Notation eb := (eb ln).
Notation thr := (thr ln).
Notation Fm := (Fm ln e m).
Notation Fo := (Fo ln e m).

Lemma el : forall c, c < n -> (tl (ea c) < tl (ez c))%Qc.
Proof. intros c L. destruct (eV ln n V HV1 HL c L) as [A B]. apply HT'; auto. apply (e_lt ln n HL). auto. Qed.
Lemma cross_H : forall c p, c < n -> cross (ea c) (ez c) p = ((tl (ez c) - tl (ea c)) * (cy p - H (eb c) (tl p)))%Qc.
Proof. intros c p L. apply cross_hgt. apply el; auto. Qed.
Lemma pos_H : forall c p, c < n -> (0 < cross (ea c) (ez c) p <-> H (eb c) (tl p) < cy p)%Qc.
Proof.
  intros c p L. rewrite cross_H, pos_mul by (auto; pose proof (el c L) as T; clear - T; qcl). split; intros Q; clear - Q; qcl.
Qed.
Lemma neg_H : forall c p, c < n -> (cross (ea c) (ez c) p < 0 <-> cy p < H (eb c) (tl p))%Qc.
Proof.
  intros c p L. rewrite cross_H by auto. replace ((tl (ez c) - tl (ea c)) * (cy p - H (eb c) (tl p)))%Qc with (- ((tl (ez c) - tl (ea c)) * (H (eb c) (tl p) - cy p)))%Qc by ring.
  rewrite neg_mul by (pose proof (el c L) as T; clear - T; qcl). split; intros Q; clear - Q; qcl.
Qed.
Lemma zero_H : forall c p, c < n -> (cross (ea c) (ez c) p = 0 <-> H (eb c) (tl p) = cy p)%Qc.
Proof.
  intros c p L. pose proof (pos_H c p L) as P. pose proof (neg_H c p L) as N. split; intros Q.
  - apply Qcle_antisym; apply Qcnot_lt_le; intros Z; [apply N in Z|apply P in Z]; rewrite Q in Z; clear - Z; qcl.
  - apply Qcle_antisym; apply Qcnot_lt_le; intros Z; [apply P in Z|apply N in Z]; rewrite Q in Z; clear - Z; qcl.
Qed.

Section Seen.
Variables (q : pt) (c0 : nat).
Hypothesis L0 : c0 < n.
Hypothesis T0 : thr m c0.
Hypothesis Vis : forall r, on_seg m q r -> r <> m -> forall c, c < n -> ~ thr r c.

Lemma same_side : forall c, c < n -> thr m c -> H (eb c) (tl q) = H (eb c0) (tl q).
Proof. intros c L T. apply (thr_same ln n e V V' HT' HVV HV1 HV2 HL m Nm c c0 L L0 T T0). Qed.
Lemma isact_actb : forall c, isact (ea c) (ez c) m = actb ln m c.
Proof. reflexivity. Qed.
Lemma seen_up : (0 < cross (ea c0) (ez c0) q)%Qc -> forall c, c < n -> seen (ea c) (ez c) m q = Fm c.
Proof.
  intros U c L. unfold seen, P_OpRun.Fm. rewrite isact_actb. destruct (actb ln m c) eqn:A; [|reflexivity]. cbn [andb].
  destruct (qleb_spec (H (eb c) (tl m)) (cy m)) as [Q|Q].
  - destruct (Qcle_lt_or_eq _ _ Q) as [Q'|Q'].
    + apply pos_H in Q'; auto. apply qltb_iff in Q'. rewrite Q'. reflexivity.
    + assert (T : thr m c) by (apply (actb_H ln n e V V' HT' HVV HV1 HL m Vm); auto).
      apply (zero_H c m L) in Q'. apply qeqb_iff in Q'. rewrite Q'. cbn [andb]. apply orb_true_iff. right. apply qltb_iff. apply pos_H; auto.
      rewrite (same_side c L T). apply pos_H; auto.
  - apply orb_false_iff. assert (Z : (cy m < H (eb c) (tl m))%Qc) by (apply Qcnot_le_lt; auto). apply (neg_H c m L) in Z. split.
    + destruct (qltb_spec 0 (cross (ea c) (ez c) m)) as [W|W]; auto. exfalso. clear - Z W. qcl.
    + destruct (qeqb (cross (ea c) (ez c) m) 0) eqn:W; auto. apply qeqb_iff in W. exfalso. rewrite W in Z. clear - Z. qcl.
Qed.
Lemma seen_down : (cross (ea c0) (ez c0) q < 0)%Qc -> forall c, c < n -> seen (ea c) (ez c) m q = Fo c.
Proof.
  intros U c L. unfold seen, P_OpRun.Fo. rewrite isact_actb. destruct (actb ln m c) eqn:A; [|reflexivity]. cbn [andb].
  destruct (qltb_spec (H (eb c) (tl m)) (cy m)) as [Q|Q].
  - apply pos_H in Q; auto. apply qltb_iff in Q. rewrite Q. reflexivity.
  - apply orb_false_iff. split.
    + destruct (qltb_spec 0 (cross (ea c) (ez c) m)) as [W|W]; auto. apply pos_H in W; auto. contradiction.
    + destruct (qeqb (cross (ea c) (ez c) m) 0) eqn:W; auto. cbn [andb]. apply qeqb_iff in W. apply (zero_H c m L) in W.
      assert (T : thr m c) by (apply (actb_H ln n e V V' HT' HVV HV1 HL m Vm); auto).
      destruct (qltb_spec 0 (cross (ea c) (ez c) q)) as [Z|Z]; auto. exfalso. apply pos_H in Z; auto. rewrite (same_side c L T) in Z. apply neg_H in U; auto. clear - Z U. qcl.
Qed.
Lemma lab_seen : lab ty fs n (fun c => seen (ea c) (ez c) m q) = lab ty fs n (fun c => above (ea c) (ez c) q).
Proof.
  apply lab_eq. intros b. assert (J : exists g, forall c, c < n -> xorb (seen (ea c) (ez c) m q) (above (ea c) (ez c) q) = xorb (g (ea c)) (g (ez c))).
  { destruct (lex_total m q) as [[L| ->]|L].
    - exists (goR m q). intros c Lc. destruct (tilt_list [ea c; ez c; m; q]) as (e' & P & T). apply (jump_right e'); auto.
      + apply T; auto. apply Qcle_refl.
      + apply (e_lt ln n HL); auto.
      + intros r O N Z. apply (Vis r O N c Lc Z).
    - exists (fun _ => false). intros c Lc. rewrite xorb_nilpotent. unfold seen, above. destruct (isact (ea c) (ez c) q); [|reflexivity]. cbn [andb].
      destruct (qltb 0 (cross (ea c) (ez c) q)), (qeqb (cross (ea c) (ez c) q) 0); reflexivity.
    - exists (goL m q). intros c Lc. destruct (tilt_list [ea c; ez c; m; q]) as (e' & P & T). destruct (eV ln n V HV1 HL c Lc) as [Va Vz]. apply (jump_left e'); auto.
      + apply T; auto. apply Qcle_refl.
      + apply (e_lt ln n HL); auto.
      + intros r O N Z. apply (Vis r O N c Lc Z).
      + intros Z; apply Nm; rewrite Z; auto.
      + intros Z; apply Nm; rewrite Z; auto. }
  destruct J as (g & J). rewrite (par_ext fs n b _ _ J). apply HB.
Qed.
Lemma up_label : (0 < cross (ea c0) (ez c0) q)%Qc -> Pm ln n e ty fs m = is_ty (lab ty fs n (fun c => above (ea c) (ez c) q)) ty.
Proof. intros U. unfold Pm. rewrite <- lab_seen. f_equal. apply lab_ext. intros c L. symmetry. apply seen_up; auto. Qed.
Lemma down_label : (cross (ea c0) (ez c0) q < 0)%Qc -> Nm_ ln n e ty fs m = is_ty (lab ty fs n (fun c => above (ea c) (ez c) q)) ty.
Proof. intros U. unfold Nm_. rewrite <- lab_seen. f_equal. apply lab_ext. intros c L. symmetry. apply seen_down; auto. Qed.
End Seen.
End Side.
