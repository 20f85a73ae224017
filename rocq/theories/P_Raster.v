Require Import List String Bool Arith Lia ZArith Lqa Psatz Qround.
From Verif Require Import Base Scalar M_Events M_Geo S_Geo P_Geo M_MonoPoly S_Mono P_Mono M_Raster S_Raster.
Import ListNotations.
Local Open Scope list_scope.
Local Open Scope Qc_scope.

(** ** Numbers *)
Lemma num_le : forall a b, (a <= b)%nat -> num a <= num b.
Proof. intros a b H. unfold num. qc_goal. rewrite <- Zle_Qle. lia. Qed.
Lemma num_lt : forall a b, (a < b)%nat -> num a < num b.
Proof. intros a b H. unfold num. qc_goal. rewrite <- Zlt_Qlt. lia. Qed.
Lemma num_lt_inv : forall a b, num a < num b -> (a < b)%nat.
Proof.
  intros a b H. destruct (Nat.lt_ge_cases a b) as [K|K]; auto. apply num_le in K.
  exfalso. exact (Qclt_not_le _ _ H K).
Qed.
Lemma num_0 : num 0 = 0.
Proof. reflexivity. Qed.
Lemma num_S : forall n, num (S n) = num n + 1.
Proof. intros n. unfold num. qc_goal. rewrite Nat2Z.inj_succ. unfold Z.succ. rewrite inject_Z_plus. reflexivity. Qed.

Lemma clamp_ok : forall n j, (1 <= n)%nat -> exists k, clamp_idx n j = Ok k /\ (k < n)%nat /\
  (0 <= j -> num k <= j) /\ (j <= 0 -> k = 0%nat) /\ (j < num (S k) \/ S k = n).
Proof.
  intros n j N. unfold clamp_idx, floor_usize.
  set (q := qmin (qmax j 0) (of_nat n)).
  assert (N0 : 0 < num n) by (rewrite <- num_0; apply num_lt; lia).
  assert (Q : 0 <= q /\ q <= num n /\ (0 <= j -> q <= j) /\ (j <= 0 -> q = 0) /\ (q = j \/ q = num n \/ j < 0)).
  { unfold q, qmin, qmax. change (of_nat n) with (num n).
    destruct (qleb j 0) eqn:E1.
    - apply qleb_iff in E1. replace (qleb 0 (num n)) with true by (symmetry; apply qleb_iff; qcl).
      repeat split; intros; auto; try qcl. destruct (Qcle_lt_or_eq _ _ E1); auto.
    - assert (E1' : ~ j <= 0) by (rewrite <- qleb_iff; congruence). apply Qcnot_le_lt in E1'.
      destruct (qleb j (num n)) eqn:E2.
      + apply qleb_iff in E2. repeat split; intros; auto; qcl.
      + assert (E2' : ~ j <= num n) by (rewrite <- qleb_iff; congruence). apply Qcnot_le_lt in E2'.
        repeat split; intros; auto; qcl. }
  destruct Q as [Q0 [Q1 [Q2 [Q3 Q4]]]]. clearbody q.
  assert (F1 : (inject_Z (Qfloor (this q)) <= this q)%Q) by apply Qfloor_le.
  assert (F2 : (this q < inject_Z (Qfloor (this q) + 1))%Q) by apply Qlt_floor.
  assert (F0 : (0 <= Qfloor (this q))%Z).
  { apply to_le with (a' := 0%Q) (b' := this q) in Q0; [|reflexivity|reflexivity].
    pose proof (Qle_lt_trans _ _ _ Q0 F2) as K. change 0%Q with (inject_Z 0) in K. rewrite <- Zlt_Qlt in K. lia. }
  replace (Qfloor (this q) <? 0)%Z with false by (symmetry; apply Z.ltb_ge; auto). cbn [bind].
  destruct n as [|n]; [lia|]. cbn [pred_usize bind]. set (k := Z.to_nat (Qfloor (this q))).
  assert (K1 : num k <= q). { unfold num, k. rewrite Z2Nat.id by auto. eapply of_le; [apply this_Q2Qc|reflexivity|exact F1]. }
  assert (K2 : q < num (S k)).
  { unfold num, k. rewrite Nat2Z.inj_succ, Z2Nat.id by auto. eapply of_lt; [reflexivity|apply this_Q2Qc|]. exact F2. }
  clearbody k. exists (Nat.min k n). split; auto. split; [lia|]. split.
  { intros J. pose proof (num_le (Nat.min k n) k ltac:(lia)). pose proof (Q2 J). qcl. }
  split. { intros J. rewrite (Q3 J) in K1. rewrite <- num_0 in K1.
    assert (~ (0 < k)%nat) by (intros X; apply num_lt in X; exact (Qclt_not_le _ _ X K1)). lia. }
  destruct (Nat.le_gt_cases n k) as [L|L]; [right; lia|]. left. rewrite Nat.min_l by lia.
  destruct Q4 as [<-|[Eq|J]]; auto.
  - exfalso. rewrite Eq in K2. apply num_lt_inv in K2. lia.
  - pose proof (num_lt 0 (S k) ltac:(lia)). rewrite num_0 in H. qcl.
Qed.

(** ** Rows *)
Section Rows.
Variables (lo hi : Qc) (n : nat).
Hypothesis LH : lo < hi.
Hypothesis N : (1 <= n)%nat.
Let h := (hi - lo) / num n.
Lemma num_pos : 0 < num n. Proof. rewrite <- num_0. apply num_lt. lia. Qed.
Lemma h_n : h * num n = hi - lo.
Proof.
  unfold h, Qcdiv. rewrite <- Qcmult_assoc, (Qcmult_comm (/ _)), Qcmult_inv_r, Qcmult_1_r; auto.
  intros E. pose proof num_pos as P. rewrite E in P. exact (Qclt_not_eq _ _ P eq_refl).
Qed.
Lemma h_pos : 0 < h.
Proof. pose proof num_pos. pose proof h_n. apply Qcnot_le_lt. intros K. qc. Qed.
Lemma h_inv : h * (num n / (hi - lo)) = 1.
Proof.
  unfold Qcdiv. rewrite Qcmult_assoc, h_n. apply Qcmult_inv_r. intros E. assert (hi = lo) by qcl.
  pose proof LH as L. rewrite H in L. exact (Qclt_not_eq _ _ L eq_refl).
Qed.
Lemma row_eq : forall j, row lo hi n j = lo + num j * h. Proof. reflexivity. Qed.
Lemma row_0 : row lo hi n 0 = lo. Proof. rewrite row_eq, num_0. ring. Qed.
Lemma row_n : row lo hi n n = hi. Proof. rewrite row_eq, Qcmult_comm, h_n. ring. Qed.
Lemma row_S : forall j, row lo hi n (S j) = row lo hi n j + h. Proof. intros. rewrite !row_eq, num_S. ring. Qed.
Lemma row_le : forall i j, (i <= j)%nat -> row lo hi n i <= row lo hi n j.
Proof. intros i j H. rewrite !row_eq. pose proof (num_le i j H). pose proof h_pos. qc. Qed.
Lemma row_lt : forall i j, (i < j)%nat -> row lo hi n i < row lo hi n j.
Proof. intros i j H. rewrite !row_eq. pose proof (num_lt i j H). pose proof h_pos. qc. Qed.

(** The index computed for [y], by multiplication or by division. *)
Lemma index_ok : forall y j, j = (y - lo) * (num n / (hi - lo)) \/ j = (y - lo) / h ->
  exists k, clamp_idx n j = Ok k /\ (k < n)%nat /\
    (lo <= y -> row lo hi n k <= y) /\ (y <= lo -> k = 0%nat) /\ (y < row lo hi n (S k) \/ S k = n).
Proof.
  intros y j Hj. assert (HJ : j * h = y - lo).
  { destruct Hj as [-> | ->].
    - rewrite <- Qcmult_assoc, (Qcmult_comm (num n / _)), h_inv. ring.
    - unfold Qcdiv. rewrite <- Qcmult_assoc, (Qcmult_comm (/ _)), Qcmult_inv_r, Qcmult_1_r; auto.
      intros E. pose proof h_pos as P. rewrite E in P. exact (Qclt_not_eq _ _ P eq_refl). }
  clear Hj. destruct (clamp_ok n j N) as [k [E [K [A [B C]]]]]. exists k. split; auto. split; auto.
  pose proof h_pos as P. rewrite !row_eq. clearbody h. split.
  { intros L. assert (J : 0 <= j) by (apply Qcnot_lt_le; intros X; qc). specialize (A J).
    set (nk := num k) in *. clearbody nk. qc. }
  split. { intros L. apply B. apply Qcnot_lt_le. intros X. qc. }
  destruct C as [C|C]; auto. left. set (nk := num (S k)) in *. clearbody nk. qc.
Qed.
End Rows.

(** ** C39 *)
Lemma fold_ub : forall zs b t, exists b' t', fold_left ubounds_step zs (Fin b, Fin t) = (Fin b', Fin t') /\
  b' <= b /\ t <= t' /\
  (forall z, In z zs -> b' <= t_bot (z_left z) /\ b' <= t_bot (z_right z) /\ t_top (z_left z) <= t' /\ t_top (z_right z) <= t') /\
  (b' = b \/ exists z, In z zs /\ (b' = t_bot (z_left z) \/ b' = t_bot (z_right z))) /\
  (t' = t \/ exists z, In z zs /\ (t' = t_top (z_left z) \/ t' = t_top (z_right z))).
Proof.
  assert (MIN : forall a b, exists c, emin (Fin a) (Fin b) = Fin c /\ c <= a /\ c <= b /\ (c = a \/ c = b)).
  { intros a b. unfold emin. simpl. destruct (qleb a b) eqn:E.
    - apply qleb_iff in E. exists a. repeat split; auto. apply Qcle_refl.
    - assert (E' : ~ a <= b) by (rewrite <- qleb_iff; congruence). apply Qcnot_le_lt in E'. exists b. repeat split; auto; [qcl|apply Qcle_refl]. }
  assert (MAX : forall a b, exists c, emax (Fin a) (Fin b) = Fin c /\ a <= c /\ b <= c /\ (c = a \/ c = b)).
  { intros a b. unfold emax. simpl. destruct (qleb a b) eqn:E.
    - apply qleb_iff in E. exists b. repeat split; auto. apply Qcle_refl.
    - assert (E' : ~ a <= b) by (rewrite <- qleb_iff; congruence). apply Qcnot_le_lt in E'. exists a. repeat split; auto; [apply Qcle_refl|qcl]. }
  induction zs as [|z zs IH]; intros b t.
  - exists b, t. simpl. split; auto. split; [apply Qcle_refl|]. split; [apply Qcle_refl|]. split; [tauto|]. auto.
  - cbn [fold_left]. unfold ubounds_step at 2.
    destruct (MIN b (t_bot (z_left z))) as [b1 [-> [X1 [X2 X3]]]].
    destruct (MIN b1 (t_bot (z_right z))) as [b2 [-> [X4 [X5 X6]]]].
    destruct (MAX t (t_top (z_left z))) as [t1 [-> [Y1 [Y2 Y3]]]].
    destruct (MAX t1 (t_top (z_right z))) as [t2 [-> [Y4 [Y5 Y6]]]].
    destruct (IH b2 t2) as [b' [t' [-> [A [B [C [D F]]]]]]]. exists b', t'. split; auto. split; [qcl|]. split; [qcl|].
    split. { intros z' [<-|H]; [repeat split; qcl|auto]. }
    split.
    + destruct D as [->|[z' [H1 H2]]]; [|right; exists z'; split; [right|]; auto].
      destruct X6 as [->| ->]; [|right; exists z; split; [left|]; auto].
      destruct X3 as [->| ->]; [auto|right; exists z; split; [left|]; auto].
    + destruct F as [->|[z' [H1 H2]]]; [|right; exists z'; split; [right|]; auto].
      destruct Y6 as [->| ->]; [|right; exists z; split; [left|]; auto].
      destruct Y3 as [->| ->]; [auto|right; exists z; split; [left|]; auto].
Qed.

Definition upright (zs : list trapz) : Prop :=
  forall z, In z zs -> t_bot (z_left z) <= t_top (z_left z) /\ t_bot (z_right z) <= t_top (z_right z).
Lemma in_trapz_bounds : forall z p b t, in_trapz z p ->
  b <= t_bot (z_left z) -> b <= t_bot (z_right z) -> t_top (z_left z) <= t -> t_top (z_right z) <= t ->
  b <= cy p /\ cy p <= t.
Proof.
  intros z p b t [k [K0 [K1 [_ [L H]]]]] B1 B2 T1 T2. unfold mix in *. split.
  - eapply Qcle_trans; [|exact L]. clear L H. qc.
  - eapply Qcle_trans; [exact H|]. clear L H. qc.
Qed.
Lemma corner_lb : forall z, t_bot (z_left z) <= t_top (z_left z) -> in_trapz z (bot_of (z_left z)).
Proof.
  intros z H. exists 0. unfold mix. cbn [bot_of cx cy]. split; [apply Qcle_refl|]. split; [discriminate|].
  split; [ring|]. split; qcl.
Qed.
Lemma corner_lt : forall z, t_bot (z_left z) <= t_top (z_left z) -> in_trapz z (top_of (z_left z)).
Proof.
  intros z H. exists 0. unfold mix. cbn [top_of cx cy]. split; [apply Qcle_refl|]. split; [discriminate|].
  split; [ring|]. split; qcl.
Qed.
Lemma corner_rb : forall z, t_bot (z_right z) <= t_top (z_right z) -> in_trapz z (bot_of (z_right z)).
Proof.
  intros z H. exists 1. unfold mix. cbn [bot_of cx cy]. split; [discriminate|]. split; [apply Qcle_refl|].
  split; [ring|]. split; qcl.
Qed.
Lemma corner_rt : forall z, t_bot (z_right z) <= t_top (z_right z) -> in_trapz z (top_of (z_right z)).
Proof.
  intros z H. exists 1. unfold mix. cbn [top_of cx cy]. split; [discriminate|]. split; [apply Qcle_refl|].
  split; [ring|]. split; qcl.
Qed.
Lemma emin_pos : forall a, emin PosInf (Fin a) = Fin a. Proof. reflexivity. Qed.
Lemma emax_neg : forall a, emax NegInf (Fin a) = Fin a. Proof. reflexivity. Qed.
Lemma emin_same : forall a, emin (Fin a) (Fin a) = Fin a.
Proof. intros. unfold emin. destruct (ext_leb _ _); auto. Qed.
Lemma emax_same : forall a, emax (Fin a) (Fin a) = Fin a.
Proof. intros. unfold emax. destruct (ext_leb _ _); auto. Qed.
(** The bounds over at least one trapezoid are attained. *)
Lemma ub_spec : forall zs, upright zs -> zs <> [] ->
  exists b t, fold_left ubounds_step zs (PosInf, NegInf) = (Fin b, Fin t) /\
    (forall p, scanned zs p -> b <= cy p /\ cy p <= t) /\
    (exists p, scanned zs p /\ cy p = b) /\ (exists p, scanned zs p /\ cy p = t).
Proof.
  intros [|z zs] U N; [congruence|].
  assert (S1 : fold_left ubounds_step (z :: zs) (PosInf, NegInf) =
    fold_left ubounds_step (z :: zs) (Fin (t_bot (z_left z)), Fin (t_top (z_left z)))).
  { cbn [fold_left]. f_equal. unfold ubounds_step. rewrite emin_pos, emax_neg, emin_same, emax_same. reflexivity. }
  rewrite S1. destruct (fold_ub (z :: zs) (t_bot (z_left z)) (t_top (z_left z))) as [b [t [-> [_ [_ [C [D F]]]]]]].
  exists b, t. split; auto. split.
  - intros p [z' [Hz Hp]]. destruct (C z' Hz) as [C1 [C2 [C3 C4]]]. apply (in_trapz_bounds z'); auto.
  - split.
    + assert (D' : exists z', In z' (z :: zs) /\ (b = t_bot (z_left z') \/ b = t_bot (z_right z'))).
      { destruct D as [->|D]; auto. exists z. split; [left|]; auto. }
      destruct D' as [z' [Hz [E|E]]]; destruct (U z' Hz) as [U1 U2].
      * exists (bot_of (z_left z')). split; [exists z'; split; auto; apply corner_lb; auto|auto].
      * exists (bot_of (z_right z')). split; [exists z'; split; auto; apply corner_rb; auto|auto].
    + assert (D' : exists z', In z' (z :: zs) /\ (t = t_top (z_left z') \/ t = t_top (z_right z'))).
      { destruct F as [->|F]; auto. exists z. split; [left|]; auto. }
      destruct D' as [z' [Hz [E|E]]]; destruct (U z' Hz) as [U1 U2].
      * exists (top_of (z_left z')). split; [exists z'; split; auto; apply corner_lt; auto|auto].
      * exists (top_of (z_right z')). split; [exists z'; split; auto; apply corner_rt; auto|auto].
Qed.
Lemma emax_fin : forall a b, emax (Fin a) (Fin b) = Fin (qmax a b).
Proof. intros. unfold emax, qmax. simpl. destruct (qleb a b); auto. Qed.
Lemma emin_fin : forall a b, emin (Fin a) (Fin b) = Fin (qmin a b).
Proof. intros. unfold emin, qmin. simpl. destruct (qleb a b); auto. Qed.
Lemma qleb_false : forall a b, qleb a b = false <-> b < a.
Proof.
  intros a b. split; intros H.
  - apply Qcnot_le_lt. rewrite <- qleb_iff. congruence.
  - apply not_true_iff_false. rewrite qleb_iff. apply Qclt_not_le. auto.
Qed.
Lemma qmax_cases : forall a b, (a <= b /\ qmax a b = b) \/ (b <= a /\ qmax a b = a).
Proof. intros a b. unfold qmax. destruct (qleb a b) eqn:E; [apply qleb_iff in E; auto|apply qleb_false in E; right; split; auto; apply Qclt_le_weak; auto]. Qed.
Lemma qmin_cases : forall a b, (a <= b /\ qmin a b = a) \/ (b <= a /\ qmin a b = b).
Proof. intros a b. unfold qmin. destruct (qleb a b) eqn:E; [apply qleb_iff in E; auto|apply qleb_false in E; right; split; auto; apply Qclt_le_weak; auto]. Qed.

(** The test of rasterize.rs:21 and 69, and the two indices. *)
Definition empty_test (b : ext * ext) (lo hi : Qc) : bool :=
  ext_leb (snd b) (fst b) || ext_leb (snd b) (Fin lo) || ext_leb (Fin hi) (fst b).
Lemma band_ok : forall zs lo hi n, upright zs -> lo < hi -> (1 <= n)%nat ->
  let b := fold_left ubounds_step zs (PosInf, NegInf) in
  (empty_test b lo hi = true <-> misses_band zs lo hi) /\
  (empty_test b lo hi = false ->
   exists bm tm j k, finite (emax (fst b) (Fin lo)) = Ok bm /\ finite (emin (snd b) (Fin hi)) = Ok tm /\
     clamp_idx n ((bm - lo) * (of_nat n / (hi - lo))) = Ok j /\
     clamp_idx n ((tm - lo) * (of_nat n / (hi - lo))) = Ok k /\
     rows_of zs lo hi n j k).
Proof.
  intros zs lo hi n U LH N b.
  assert (Z : zs = [] \/ zs <> []) by (destruct zs; [auto|right; discriminate]). destruct Z as [Z|Z].
  - unfold b. rewrite Z. simpl. split; [|discriminate]. split; auto. intros _. left. intros p q [z [H _]]. contradiction.
  - destruct (ub_spec zs U Z) as [b0 [t0 [E [R [[pb [Sb Eb]] [pt0 [St Et]]]]]]].
    assert (TB : empty_test b lo hi = true <-> t0 <= b0 \/ t0 <= lo \/ hi <= b0).
    { unfold b, empty_test. rewrite E. cbn [fst snd ext_leb]. rewrite !orb_true_iff, !qleb_iff. tauto. }
    split.
    + rewrite TB. unfold misses_band. split.
      * intros [H|[H|H]].
        -- left. intros p q P Q. apply R in P, Q. destruct P, Q. qcl.
        -- right; left. intros p P. apply R in P. destruct P. qcl.
        -- right; right. intros p P. apply R in P. destruct P. qcl.
      * intros [H|[H|H]].
        -- left. rewrite <- Eb, <- Et, (H pb pt0 Sb St). apply Qcle_refl.
        -- right; left. rewrite <- Et. auto.
        -- right; right. rewrite <- Eb. auto.
    + intros F. assert (F' : ~ (t0 <= b0 \/ t0 <= lo \/ hi <= b0)) by (rewrite <- TB; congruence).
      assert (F1 : b0 < t0) by (apply Qcnot_le_lt; tauto).
      assert (F2 : lo < t0) by (apply Qcnot_le_lt; tauto).
      assert (F3 : b0 < hi) by (apply Qcnot_le_lt; tauto). clear F F' TB.
      exists (qmax b0 lo), (qmin t0 hi).
      destruct (index_ok lo hi n LH N (qmax b0 lo) _ (or_introl eq_refl)) as [j [J1 [J2 [J3 [J4 J5]]]]].
      destruct (index_ok lo hi n LH N (qmin t0 hi) _ (or_introl eq_refl)) as [k [K1 [K2 [K3 [K4 K5]]]]].
      exists j, k. unfold b. rewrite E. cbn [fst snd]. rewrite emax_fin, emin_fin. cbn [finite].
      do 2 (split; [reflexivity|]). split; [exact J1|]. split; [exact K1|].
      assert (B1 : lo <= qmax b0 lo /\ b0 <= qmax b0 lo /\ qmax b0 lo < hi /\ (qmax b0 lo = b0 \/ qmax b0 lo = lo)).
      { destruct (qmax_cases b0 lo) as [[A ->]|[A ->]]; repeat split; auto; try qcl. }
      assert (T1 : lo < qmin t0 hi /\ qmin t0 hi <= t0 /\ qmin t0 hi <= hi /\ (qmin t0 hi = t0 \/ qmin t0 hi = hi)).
      { destruct (qmin_cases t0 hi) as [[A ->]|[A ->]]; repeat split; auto; try qcl. }
      assert (BT : qmax b0 lo < qmin t0 hi).
      { destruct (qmin_cases t0 hi) as [[A ->]|[A ->]], (qmax_cases b0 lo) as [[B ->]|[B ->]]; qcl. }
      set (bm := qmax b0 lo) in *. set (tm := qmin t0 hi) in *. clearbody bm tm.
      destruct B1 as [B1 [B2 [B3 B4]]]. destruct T1 as [T1 [T2 [T3 T4]]].
      specialize (J3 B1). specialize (K3 (Qclt_le_weak _ _ T1)).
      pose proof (row_lt lo hi n LH N) as RL.
      assert (ORD : forall i i', row lo hi n i <= row lo hi n i' -> (i <= i')%nat).
      { intros i i' H. destruct (Nat.le_gt_cases i i') as [G|G]; auto. apply RL in G. exfalso. exact (Qclt_not_le _ _ G H). }
      assert (ORD' : forall i i', row lo hi n i < row lo hi n (S i') -> (i <= i')%nat).
      { intros i i' H. destruct (Nat.le_gt_cases i i') as [G|G]; auto.
        pose proof (row_le lo hi n LH N (S i') i G) as G'. exfalso. exact (Qclt_not_le _ _ H G'). }
      split. { destruct K5 as [K5|K5]; [|lia]. apply ORD'. qcl. }
      split; auto. split.
      { intros p i P [I1 [I2 I3]]. apply R in P. destruct P as [P1 P2]. split.
        - destruct I3 as [I3|[I3 _]]; [|lia]. apply ORD'. destruct B4 as [B4|B4]; [qcl|].
          destruct (Nat.eq_0_gt_0_cases j) as [->|Gj].
          + rewrite (row_0 lo hi n). pose proof (row_le lo hi n LH N 1 (S i) ltac:(lia)) as G. rewrite (row_S lo hi n), (row_0 lo hi n) in G.
            pose proof (h_pos lo hi n LH N). qcl.
          + assert (j = 0)%nat by (apply J4; rewrite B4; apply Qcle_refl). lia.
        - destruct K5 as [K5|K5]; [|lia]. apply ORD'. destruct T4 as [T4|T4]; [qcl|].
          pose proof (RL i n I1) as G. rewrite (row_n lo hi n N) in G. rewrite T4 in K5. qcl. }
      split.
      * exists pb. split; auto. rewrite Eb. destruct J5 as [J5|J5]; [qcl|]. rewrite J5, (row_n lo hi n N). qcl.
      * exists pt0. split; auto. rewrite Et. qcl.
Qed.

(** The other two bounds of [cross_bounds]. *)
Lemma fold_bb_proj : forall zs b, let r := fold_left bounds_step zs b in
  (b_bot_min r, b_top_max r) = fold_left ubounds_step zs (b_bot_min b, b_top_max b).
Proof. induction zs as [|z zs IH]; intros b; [reflexivity|]. cbn [fold_left]. apply IH. Qed.
Definition inner_step (b : Qc * Qc) (z : trapz) : Qc * Qc :=
  (qmax (qmax (fst b) (t_bot (z_left z))) (t_bot (z_right z)), qmin (qmin (snd b) (t_top (z_left z))) (t_top (z_right z))).
Lemma fold_inner : forall zs b bm tm, b_bot_max b = Fin bm -> b_top_min b = Fin tm ->
  let r := fold_left bounds_step zs b in let q := fold_left inner_step zs (bm, tm) in
  b_bot_max r = Fin (fst q) /\ b_top_min r = Fin (snd q).
Proof.
  induction zs as [|z zs IH]; intros b bm tm E1 E2; [split; auto|]. cbn [fold_left]. apply IH; cbn [bounds_step b_bot_max b_top_min].
  - rewrite E1, !emax_fin. reflexivity.
  - rewrite E2, !emin_fin. reflexivity.
Qed.
Lemma inner_spec : forall zs bm tm, let q := fold_left inner_step zs (bm, tm) in
  bm <= fst q /\ snd q <= tm /\
  (forall z, In z zs -> t_bot (z_left z) <= fst q /\ t_bot (z_right z) <= fst q /\ snd q <= t_top (z_left z) /\ snd q <= t_top (z_right z)) /\
  (fst q = bm \/ exists z, In z zs /\ (fst q = t_bot (z_left z) \/ fst q = t_bot (z_right z))) /\
  (snd q = tm \/ exists z, In z zs /\ (snd q = t_top (z_left z) \/ snd q = t_top (z_right z))).
Proof.
  assert (MIN : forall a b, exists c, qmin a b = c /\ c <= a /\ c <= b /\ (c = a \/ c = b)).
  { intros a b. destruct (qmin_cases a b) as [[A ->]|[A ->]]; eexists; repeat split; auto; apply Qcle_refl. }
  assert (MAX : forall a b, exists c, qmax a b = c /\ a <= c /\ b <= c /\ (c = a \/ c = b)).
  { intros a b. destruct (qmax_cases a b) as [[A ->]|[A ->]]; eexists; repeat split; auto; apply Qcle_refl. }
  induction zs as [|z zs IH]; intros bm tm; cbv zeta.
  - simpl. split; [apply Qcle_refl|]. split; [apply Qcle_refl|]. split; [tauto|]. auto.
  - cbn [fold_left]. unfold inner_step at 2 4 6 8 10 12 14 16 18 20 22 24. cbn [fst snd].
    destruct (MAX bm (t_bot (z_left z))) as [b1 [-> [X1 [X2 X3]]]].
    destruct (MAX b1 (t_bot (z_right z))) as [b2 [-> [X4 [X5 X6]]]].
    destruct (MIN tm (t_top (z_left z))) as [t1 [-> [Y1 [Y2 Y3]]]].
    destruct (MIN t1 (t_top (z_right z))) as [t2 [-> [Y4 [Y5 Y6]]]].
    specialize (IH b2 t2). cbv zeta in IH. set (q := fold_left inner_step zs (b2, t2)) in *. clearbody q.
    destruct IH as [A [B [C [D F]]]]. split; [qcl|]. split; [qcl|].
    split. { intros z' [<-|H]; [repeat split; qcl|auto]. }
    split.
    + destruct D as [->|[z' [H1 H2]]]; [|right; exists z'; split; [right|]; auto].
      destruct X6 as [->| ->]; [|right; exists z; split; [left|]; auto].
      destruct X3 as [->| ->]; [auto|right; exists z; split; [left|]; auto].
    + destruct F as [->|[z' [H1 H2]]]; [|right; exists z'; split; [right|]; auto].
      destruct Y6 as [->| ->]; [|right; exists z; split; [left|]; auto].
      destruct Y3 as [->| ->]; [auto|right; exists z; split; [left|]; auto].
Qed.
