(** How many pieces and diagonals the monotone decomposition of a valid polygon makes. *)
Require Import List String Bool Arith Lia Permutation Sorted.
From Verif Require Import Base Scalar M_Events M_Geo M_LineOrPoint M_Slab M_Active M_MonoPoly M_Rings M_Op M_MonoSweep M_Chains.
From Verif Require Import S_Geo P_Geo P_LineOrPoint P_Tilt P_Chain P_Bundle P_Order P_Inv P_Slab.
From Verif Require Import S_Mono S_Rings P_Rings S_Op Props_Op1 P_OpLab P_OpPlane P_OpPoly P_LamRun P_LamGeo P_LamSpec.
From Verif Require Import P_MonoGeo P_MonoSweep P_MonoInit P_MonoTotal S_Chains P_EdgeSweep P_ChainLen P_PieceCount S_Corners.
Import Datatypes.
Import ListNotations.
Local Open Scope nat_scope.

Lemma sum_set : forall (ls : list (list pt)) i l, nth_error ls i = Some l -> list_sum (map (@length pt) (list_set i [] ls)) + length l = list_sum (map (@length pt) ls).
Proof.
  induction ls as [|x ls IH]; intros [|i] l E; try discriminate; cbn [nth_error] in E.
  - injection E as ->. cbn. lia.
  - specialize (IH i l E). cbn [list_set map list_sum fold_right]. unfold list_sum in IH. lia.
Qed.
Definition mono_len (m : mono_poly) : nat := length (mp_top m) + length (mp_bot m).
Lemma mono_new_inv : forall t b m, mp_new t b = Ok m -> m = mkMono t b.
Proof. intros t b m E. unfold mp_new in E. repeat chk E. injection E as <-. reflexivity. Qed.
Lemma take_len : forall pairs lines ms, take_pairs pairs lines = Ok ms -> length ms = length pairs /\ list_sum (map mono_len ms) <= list_sum (map (@length pt) lines).
Proof.
  induction pairs as [|[t b] pairs IH]; intros lines ms E; cbn [take_pairs] in E; [injection E as <-; cbn; lia|]. bnd E. destruct x as [l1 tp]. bnd E. destruct x as [l2 bt]. bnd E. apply mono_new_inv in E2. subst x. bnd E. injection E as <-. match goal with Q : take_pairs _ _ = Ok _ |- _ => apply IH in Q as [I1 I2] end.
  unfold take_line in E0, E1. bnd E0. apply expect_inv in E. injection E0 as <- <-. bnd E1. apply expect_inv in E0. injection E1 as <- <-. apply sum_set in E, E0. cbn [length map list_sum fold_right]. unfold mono_len at 1. cbn [mp_top mp_bot]. unfold list_sum in *. lia.
Qed.
Lemma out_len : forall cs ms, chains_out cs = Ok ms -> 2 * length ms = length cs /\ list_sum (map mono_len ms) <= tot cs.
Proof.
  intros cs ms E. unfold chains_out in E. bnd E. chk E. apply take_len in E as [L1 L2]. apply Nat.eqb_eq in E1. rewrite map_length in E1. split; [lia|]. rewrite map_map in L2. apply (Nat.le_trans _ _ _ L2). unfold tot. apply Nat.eq_le_incl. f_equal. apply map_ext. intros c. unfold c_line_string. apply rev_length.
Qed.
Lemma edges_len : forall l : list pt, length (edges l) = length l - 1.
Proof. intros l. unfold edges. rewrite combine_length. destruct l as [|a l]; cbn [tl length]; lia. Qed.
Lemma pieces_len : forall ms, (forall m, In m ms -> mp_top m <> [] /\ mp_bot m <> []) -> length (flat_map piece_edges ms) + 2 * length ms = list_sum (map mono_len ms).
Proof.
  induction ms as [|m ms IH]; intros N; [reflexivity|]. cbn [flat_map map list_sum fold_right]. rewrite app_length. specialize (IH (fun m' I => N m' (or_intror I))). destruct (N m (or_introl eq_refl)) as [N1 N2]. unfold list_sum in *. rewrite <- IH.
  unfold piece_edges at 1, mono_len. rewrite app_length, map_length, !edges_len. destruct (mp_top m), (mp_bot m); try congruence. cbn [length]. lia.
Qed.

Section Total.
Variable P : polygon.
Hypothesis VP : valid_polygon P.
Variable presort : list event -> list event.
Variable pick : list nat -> nat -> nat -> nat.
Hypothesis Ps : forall l, Permutation (presort l) l.
Notation rs := (prs P).
Notation n := (n rs).
Notation ln := (ln rs).
Notation tr := (tr rs).
Notation ea := (ea ln).
Notation ez := (ez ln).

Lemma n_len : n = length (all_edges [P]).
Proof. rewrite <- edges_all, map_length. reflexivity. Qed.
Lemma edge_index : forall x, In x (all_edges [P]) -> exists c, c < n /\ tr c = x.
Proof. intros x I. apply In_nth_error in I as (c & E). assert (L : c < n) by (rewrite n_len; apply nth_error_Some; congruence). exists c. split; auto. rewrite edge_at in E by auto. congruence. Qed.
Lemma at_both : forall v c1 c2 c, c1 < n -> c2 < n -> c < n -> c1 <> c2 -> inc ln v c1 -> inc ln v c2 -> inc ln v c -> c = c1 \/ c = c2.
Proof.
  intros v c1 c2 c L1 L2 L N I1 I2 I. destruct (pdeg P VP v) as (d1 & d2 & _ & _ & _ & _ & _ & U); [apply in_pV; eauto|].
  destruct (U c1 L1 I1), (U c2 L2 I2), (U c L I); subst; auto; congruence.
Qed.
Lemma first_two : forall v c1 c2, c1 < n -> c2 < n -> c1 <> c2 -> ea c1 = v -> ea c2 = v -> first_corner P v.
Proof.
  intros v c1 c2 L1 L2 N E1 E2. split.
  - exists (fst (tr c1)), (snd (tr c1)). rewrite <- surjective_pairing. split; [apply (nth_error_In _ c1), edge_at; auto|]. destruct (Geo rs (Pr P VP) c1 L1) as [Z|Z]; rewrite Z; auto.
  - intros a b I. apply edge_index in I as (c & L & Q). destruct (geo_ends rs (Pr P VP) c L) as (_ & Lt & D).
    assert (X : a = v \/ b = v -> ea c = v).
    { intros O. destruct (at_both v c1 c2 c) as [-> | ->]; auto; try (left; auto; fail). destruct D as [D|D]; rewrite Q in D; injection D as -> ->; unfold inc; tauto. }
    split; intros O; [specialize (X (or_introl O))|specialize (X (or_intror O))]; destruct D as [D|D]; rewrite Q in D; injection D as -> ->; subst v; try lord; rewrite X in *; lord.
Qed.
Lemma last_two : forall v c1 c2, c1 < n -> c2 < n -> c1 <> c2 -> ez c1 = v -> ez c2 = v -> last_corner P v.
Proof.
  intros v c1 c2 L1 L2 N E1 E2. split.
  - exists (fst (tr c1)), (snd (tr c1)). rewrite <- surjective_pairing. split; [apply (nth_error_In _ c1), edge_at; auto|]. destruct (Geo rs (Pr P VP) c1 L1) as [Z|Z]; rewrite Z; auto.
  - intros a b I. apply edge_index in I as (c & L & Q). destruct (geo_ends rs (Pr P VP) c L) as (_ & Lt & D).
    assert (X : a = v \/ b = v -> ez c = v).
    { intros O. destruct (at_both v c1 c2 c) as [-> | ->]; auto; try (right; auto; fail). destruct D as [D|D]; rewrite Q in D; injection D as -> ->; unfold inc; tauto. }
    split; intros O; [specialize (X (or_introl O))|specialize (X (or_intror O))]; destruct D as [D|D]; rewrite Q in D; injection D as -> ->; subst v; try lord; rewrite X in *; lord.
Qed.
Lemma total_count : forall L R ms, (forall v c1 c2, c1 < n -> c2 < n -> c1 <> c2 -> ea c1 = v -> ea c2 = v -> In v L) ->
  (forall v c1 c2, c1 < n -> c2 < n -> c1 <> c2 -> ez c1 = v -> ez c2 = v -> In v R) -> monotone_chains presort pick P = Ok ms ->
  length ms <= length L /\ list_sum (map mono_len ms) <= 2 * length ms + n + 2 * length L + 2 * length R.
Proof.
  intros L R ms HL HR E. destruct (from_polygon_ok P VP presort Ps) as (s & Es & [Ls Lk La Le] & So). unfold monotone_chains in E. rewrite Es in E. cbn [bind] in E. bnd E. rename x into cs.
  destruct (psetup P (mkC 0%Qc 0%Qc)) as (e & V' & s0 & H1 & H2 & H3 & H4 & H5). pose proof (poly_geo P VP e V' s0 H1 H2 H3 H4) as G.
  pose proof (start_inv P e s0 s (conj Ls (conj Lk (conj La (conj Le So)))) H4) as Si.
  destruct (loop_count G pick L R (fun v c1 c2 _ => HL v c1 c2) (fun v c1 c2 _ => HR v c1 c2) _ _ _ _ _ _ _ H3 Si E0) as [C1 C2].
  apply out_len in E as [O1 O2]. assert (K : forall l, late_in s0 l <= length l) by (intros l; unfold late_in; clear; induction l as [|a l IH]; cbn; auto; destruct (pltb s0 a); cbn; lia).
  pose proof (K L). pose proof (K R). assert (Co : @coming ln n s0 <= n).
  { unfold coming. rewrite <- (seq_length n 0) at 2. clear. induction (seq 0 n) as [|a l IH]; cbn; auto. destruct (pltb s0 _); cbn; lia. }
  cbn [tot map list_sum fold_right length owed filter] in C1, C2. lia.
Qed.
(** Two edges begin at each of these points. *)
Definition doubles (f : nat -> pt) : list pt := nodup pt_dec (filter (fun v => 2 <=? length (filter (fun c => peqb (f c) v) (seq 0 n))) (map f (seq 0 n))).
Lemma doubles_in : forall f v c1 c2, c1 < n -> c2 < n -> c1 <> c2 -> f c1 = v -> f c2 = v -> In v (doubles f).
Proof.
  intros f v c1 c2 L1 L2 N E1 E2. apply nodup_In, filter_In. split; [apply in_map_iff; exists c1; split; auto; apply in_seq; lia|]. apply Nat.leb_le.
  change 2 with (length [c1; c2]). apply NoDup_incl_length; [apply P_ChainStep.nodup_starts; auto|]. intros c [<-|[<-|[]]]; apply filter_In; (split; [apply in_seq; lia|apply peqb_iff; auto]).
Qed.
Lemma doubles_len : forall f, 2 * length (doubles f) <= n.
Proof.
  intros f. assert (K : forall l, NoDup l -> (forall v, In v l -> 2 <= length (filter (fun c => peqb (f c) v) (seq 0 n))) -> 2 * length l <= length (flat_map (fun v => filter (fun c => peqb (f c) v) (seq 0 n)) l) /\ NoDup (flat_map (fun v => filter (fun c => peqb (f c) v) (seq 0 n)) l)).
  { induction l as [|v l IH]; intros N H; [split; [auto|constructor]|]. inversion N as [|? ? N1 N2]; subst. destruct (IH N2 (fun u I => H u (or_intror I))) as [I1 I2]. pose proof (H v (or_introl eq_refl)). cbn [flat_map length]. rewrite app_length. split; [lia|].
    apply P_ChainStep.nodup_app. split; [apply NoDup_filter, seq_NoDup|]. split; auto. intros c J J'. apply filter_In in J as [_ J]. apply in_flat_map in J' as (u & J' & J''). apply filter_In in J'' as [_ J'']. apply peqb_iff in J, J''. apply N1. congruence. }
  destruct (K (doubles f)) as [K1 K2].
  - apply NoDup_nodup.
  - intros v I. apply nodup_In, filter_In in I as [_ I]. apply Nat.leb_le in I. auto.
  - apply (Nat.le_trans _ _ _ K1). apply (Nat.le_trans _ (length (seq 0 n))); [|rewrite seq_length; auto]. apply NoDup_incl_length; auto. intros c I. apply in_flat_map in I as (v & _ & I). apply filter_In in I. tauto.
Qed.
End Total.
