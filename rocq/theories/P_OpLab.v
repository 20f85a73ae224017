(** Labels of edges in the boolean sweep: parities over the edges below, and
    how they change from one sweep point to the next. *)
Require Import List String Bool Arith Lia Permutation Sorted.
From Verif Require Import Base Scalar M_Events M_Geo M_LineOrPoint M_Sweep M_Op S_Geo S_Op P_Geo P_LineOrPoint P_Tilt P_Bundle P_Order P_Inv.
Import Datatypes.
Import ListNotations.
Local Open Scope nat_scope.

Lemma qltb_spec : forall a b, reflect (a < b)%Qc (qltb a b).
Proof. intros. apply iff_reflect. symmetry. apply qltb_iff. Qed.
Lemma qleb_spec : forall a b, reflect (a <= b)%Qc (qleb a b).
Proof. intros. apply iff_reflect. symmetry. apply qleb_iff. Qed.

(** * Parities *)
Section Par.
Variables (ty : op_type) (fs : nat -> bool) (n : nat).
Definition par (b : bool) (f : nat -> bool) : bool := odd (map (fun c => Bool.eqb (fs c) b && f c) (seq 0 n)).
Definition lab (f : nat -> bool) : region := mkRegion (par true f) (xorb (is_second (region_infinity ty)) (par false f)).

Lemma odd_ext : forall {X} (f g : X -> bool) l, (forall x, In x l -> f x = g x) -> odd (map f l) = odd (map g l).
Proof.
  intros X f g l E. induction l as [|x l IH]; [reflexivity|]. cbn [map odd fold_right].
  rewrite (E x) by (left; auto). f_equal. apply IH. intros y Iy. apply E. right; auto.
Qed.
Lemma odd_xor : forall {X} (f g : X -> bool) l, odd (map (fun x => xorb (f x) (g x)) l) = xorb (odd (map f l)) (odd (map g l)).
Proof.
  intros X f g l. induction l as [|x l IH]; [reflexivity|]. cbn [map odd fold_right]. unfold odd in IH. rewrite IH.
  destruct (f x), (g x), (fold_right xorb false (map f l)), (fold_right xorb false (map g l)); reflexivity.
Qed.
Lemma odd_none : forall {X} (f : X -> bool) l, (forall x, In x l -> f x = false) -> odd (map f l) = false.
Proof.
  intros X f l E. induction l as [|x l IH]; [reflexivity|]. cbn [map odd fold_right]. rewrite (E x) by (left; auto). rewrite xorb_false_l.
  apply IH. intros y Iy. apply E. right; auto.
Qed.
Lemma odd_app : forall l l', odd (l ++ l') = xorb (odd l) (odd l').
Proof.
  intros l l'. induction l as [|b l IH]; [cbn [app]; change (odd []) with false; rewrite xorb_false_l; reflexivity|]. cbn [app odd fold_right]. unfold odd in IH. rewrite IH.
  rewrite <- xorb_assoc. reflexivity.
Qed.
Lemma odd_one : forall (f : nat -> bool) k l, NoDup l -> In k l -> (forall x, In x l -> x <> k -> f x = false) -> odd (map f l) = f k.
Proof.
  intros f k l N I E. induction N as [|x l Nx N IH]; [destruct I|]. cbn [map odd fold_right]. destruct I as [->|I].
  - change (xorb (f k) (odd (map f l)) = f k). rewrite (odd_none f l); [apply xorb_false_r|]. intros y Iy. apply E; [right; auto|]. intros ->. contradiction.
  - rewrite (E x); [|left; auto|intros ->; contradiction]. rewrite xorb_false_l. apply IH; auto. intros y Iy. apply E. right; auto.
Qed.

Lemma par_ext : forall b f g, (forall c, c < n -> f c = g c) -> par b f = par b g.
Proof. intros b f g E. apply odd_ext. intros x Ix. apply in_seq in Ix. rewrite E by lia. reflexivity. Qed.
Lemma par_xor : forall b f g, par b (fun c => xorb (f c) (g c)) = xorb (par b f) (par b g).
Proof.
  intros b f g. unfold par. rewrite <- odd_xor. apply odd_ext. intros x _. destruct (Bool.eqb (fs x) b), (f x), (g x); reflexivity.
Qed.
Lemma par_none : forall b f, (forall c, c < n -> f c = false) -> par b f = false.
Proof. intros b f E. apply odd_none. intros x Ix. apply in_seq in Ix. rewrite E by lia. apply andb_false_r. Qed.
Lemma par_eqb : forall b k, k < n -> par b (fun c => c =? k) = Bool.eqb (fs k) b.
Proof.
  intros b k L. unfold par. rewrite (odd_one _ k).
  - rewrite Nat.eqb_refl. apply andb_true_r.
  - apply seq_NoDup.
  - apply in_seq. lia.
  - intros x _ N. destruct (Nat.eqb_spec x k); [contradiction|apply andb_false_r].
Qed.
Lemma lab_ext : forall f g, (forall c, c < n -> f c = g c) -> lab f = lab g.
Proof. intros f g E. unfold lab. rewrite (par_ext true f g E), (par_ext false f g E). reflexivity. Qed.
Lemma lab_eq : forall f g, (forall b, par b (fun c => xorb (f c) (g c)) = false) -> lab f = lab g.
Proof.
  intros f g E. unfold lab. pose proof (E true) as E1. pose proof (E false) as E2. rewrite par_xor in E1, E2.
  apply xorb_eq in E1. apply xorb_eq in E2. rewrite E1, E2. reflexivity.
Qed.
Lemma lab_none : forall f, (forall c, c < n -> f c = false) -> lab f = region_infinity ty.
Proof. intros f E. unfold lab. rewrite !par_none by auto. destruct ty; reflexivity. Qed.
Lemma lab_cross : forall f k, k < n -> region_cross (fs k) (lab f) = lab (fun c => xorb (f c) (c =? k)).
Proof.
  intros f k L. unfold lab, region_cross. rewrite !par_xor, !par_eqb by auto. cbn [is_first is_second].
  destruct (fs k); cbn [Bool.eqb]; rewrite ?xorb_true_r, ?xorb_false_r; f_equal.
  destruct (is_second (region_infinity ty)), (par false f); reflexivity.
Qed.
Definition crossall (l : list nat) (r : region) : region := fold_left (fun r c => region_cross (fs c) r) l r.
Definition inb (l : list nat) (c : nat) : bool := existsb (Nat.eqb c) l.
Lemma inb_spec : forall l c, inb l c = true <-> In c l.
Proof.
  intros l c. unfold inb. rewrite existsb_exists. split.
  - intros (x & I & E). apply Nat.eqb_eq in E. subst; auto.
  - intros I. exists c. split; [auto|apply Nat.eqb_refl].
Qed.
Lemma inb_app : forall l l' c, inb (l ++ l') c = inb l c || inb l' c.
Proof. intros. apply existsb_app. Qed.
Lemma crossall_lab : forall l f, NoDup l -> (forall c, In c l -> c < n) -> crossall l (lab f) = lab (fun c => xorb (f c) (inb l c)).
Proof.
  induction l as [|k l IH]; intros f N L.
  - apply lab_ext. intros c _. cbn. rewrite xorb_false_r. reflexivity.
  - inversion N as [|? ? Nk N']; subst. cbn [crossall fold_left]. rewrite lab_cross by (apply L; left; auto).
    change (crossall l (lab (fun c => xorb (f c) (c =? k))) = lab (fun c => xorb (f c) (inb (k :: l) c))).
    rewrite IH by (auto; intros; apply L; right; auto). apply lab_ext. intros c _. rewrite xorb_assoc. f_equal.
    cbn [inb existsb]. fold (inb l c). destruct (Nat.eqb_spec c k) as [->|Nc]; [|rewrite xorb_false_l; reflexivity].
    destruct (inb l k) eqn:E; [|reflexivity]. apply inb_spec in E. contradiction.
Qed.
Lemma crossall_app : forall l l' r, crossall (l ++ l') r = crossall l' (crossall l r).
Proof. intros. apply fold_left_app. Qed.
End Par.

(** * The order of edges at a point *)
Section Geo.
Variables (ln : nat -> line) (n : nat) (e : Qc) (V V' : list pt).
Hypothesis HT' : tilts e (fun p => In p V').
Hypothesis HVV : incl V V'.
Hypothesis HV1 : forall c a z, c < n -> geo ln c = Line a z -> In a V /\ In z V.
Hypothesis HV2 : forall c c' a z a' z' r, c < n -> c' < n -> geo ln c = Line a z -> geo ln c' = Line a' z' ->
  on_seg a z r -> on_seg a' z' r -> (forall r', on_seg a z r' -> on_seg a' z' r' -> r' = r) -> In r V.
Hypothesis HL : forall c, c < n -> exists a z, geo ln c = Line a z.
Notation tl := (tilt e).

Definition ea (c : nat) : pt := lop_first (geo ln c).
Definition ez (c : nat) : pt := lop_second (geo ln c).
Definition eb (c : nat) : bundle := mkB (ea c) (ez c) [].
Definition thr (p : pt) (c : nat) : Prop := on_seg (ea c) (ez c) p.
Definition actb (p : pt) (c : nat) : bool := pleb (ea c) p && pltb p (ez c).
Notation H := (H e).
Notation K := (K e).
Notation Sl := (P_Order.S e).
Definition lek (p : pt) (c' c : nat) : bool := match K (tl p) (eb c') (eb c) with Gt => false | _ => true end.

Lemma geo_eq : forall c, c < n -> geo ln c = Line (ea c) (ez c).
Proof. intros c L. destruct (HL c L) as (a & z & E). unfold ea, ez. rewrite E. reflexivity. Qed.
Lemma eV : forall c, c < n -> In (ea c) V /\ In (ez c) V.
Proof. intros c L. apply (HV1 c); auto. apply geo_eq; auto. Qed.
Lemma e_lt : forall c, c < n -> lex_lt (ea c) (ez c).
Proof. intros c L. destruct (lop_of_line_spec (ln c)) as [W _]. pose proof (geo_eq c L) as E. unfold geo in E. rewrite E in W. exact W. Qed.
Lemma eb_good : forall c, c < n -> good V' (eb c).
Proof. intros c L. pose proof (eV c L) as [A B]. split; [apply e_lt; auto|split; apply HVV; auto]. Qed.
Lemma actb_iff : forall p c, actb p c = true <-> lex_le (ea c) p /\ lex_lt p (ez c).
Proof. intros p c. unfold actb. rewrite andb_true_iff, pleb_iff, pltb_iff. reflexivity. Qed.
Lemma thr_onb : forall p c, thr p c = onb (eb c) p. Proof. reflexivity. Qed.
Lemma thr_between : forall p c, c < n -> thr p c -> lex_le (ea c) p /\ lex_le p (ez c).
Proof. intros p c L O. apply on_seg_between; auto. apply e_lt; auto. Qed.
Lemma thr_iff : forall p c, c < n -> In p V' -> lex_le (ea c) p -> lex_le p (ez c) -> (thr p c <-> H (eb c) (tl p) = cy p).
Proof.
  intros p c L Vp L1 L2. split.
  - apply (onb_H e V' HT' (eb c) p). apply eb_good; auto.
  - apply (onb_of e V' HT' (eb c) p); auto. apply eb_good; auto.
Qed.

(** Two edges that meet either lie on a line or meet in a point of [V]. *)
Lemma meet_V : forall c c' r, c < n -> c' < n -> thr r c -> thr r c' -> same_line e (eb c) (eb c') \/ In r V.
Proof.
  intros c c' r L L' O O'. pose proof (eb_good c L) as G. pose proof (eb_good c' L') as G'.
  destruct (K (tl r) (eb c) (eb c')) eqn:E; [left; apply (K_eq_same e (tl r)); auto| |]; right; apply (HV2 c c' _ _ _ _ r L L' (geo_eq c L) (geo_eq c' L') O O').
  - intros r' R R'. apply K_lt_iff in E. pose proof (onb_H e V' HT' _ _ G O) as E1. pose proof (onb_H e V' HT' _ _ G' O') as E2.
    pose proof (onb_H e V' HT' _ _ G R) as E3. pose proof (onb_H e V' HT' _ _ G' R') as E4.
    pose proof (H_diff e (eb c) (eb c') (tl r) (tl r')) as D. rewrite E1, E2, E3, E4 in *.
    destruct E as [E|[_ E]]; [exfalso; qcl|]. apply (pt_eq_tilt e).
    + assert (Z : ((tl r' - tl r) * (Sl (eb c') - Sl (eb c)) = 0)%Qc) by (clear E; qcl).
      apply Qcmult_integral in Z as [Z|Z]; qcl.
    + assert (Z : (tl r' = tl r)%Qc).
      { assert (Z : ((tl r' - tl r) * (Sl (eb c') - Sl (eb c)) = 0)%Qc) by (clear E; qcl). apply Qcmult_integral in Z as [Z|Z]; qcl. }
      rewrite Z in E3. congruence.
  - intros r' R R'. apply K_gt_iff in E. apply K_lt_iff in E. pose proof (onb_H e V' HT' _ _ G O) as E1. pose proof (onb_H e V' HT' _ _ G' O') as E2.
    pose proof (onb_H e V' HT' _ _ G R) as E3. pose proof (onb_H e V' HT' _ _ G' R') as E4.
    pose proof (H_diff e (eb c) (eb c') (tl r) (tl r')) as D. rewrite E1, E2, E3, E4 in *.
    destruct E as [E|[_ E]]; [exfalso; qcl|].
    assert (Z0 : (tl r' = tl r)%Qc).
    { assert (Z : ((tl r' - tl r) * (Sl (eb c') - Sl (eb c)) = 0)%Qc) by (clear E; qcl). apply Qcmult_integral in Z as [Z|Z]; qcl. }
    apply (pt_eq_tilt e); auto. rewrite Z0 in E3. congruence.
Qed.

(** Without a meeting in between, the order persists. *)
Lemma persist : forall p p' c c', c < n -> c' < n -> In p V' -> In p' V' -> lex_lt p p' ->
  lex_le (ea c) p -> lex_le p' (ez c) -> lex_le (ea c') p -> lex_le p' (ez c') ->
  (forall r, In r V -> lex_lt p r -> lex_le r p' -> thr r c -> thr r c' -> False) ->
  K (tl p) (eb c') (eb c) = K (tl p') (eb c') (eb c).
Proof.
  intros p p' c c' L L' Vp Vp' Lp A1 A2 B1 B2 N. pose proof (eb_good c L) as G. pose proof (eb_good c' L') as G'.
  pose proof (eV c L) as [Va Vz]. pose proof (eV c' L') as [Va' Vz'].
  apply HVV in Va. apply HVV in Vz. apply HVV in Va'. apply HVV in Vz'.
  assert (T : (tl p < tl p')%Qc) by (apply HT'; auto).
  assert (T1 : (tl (ea c) <= tl p)%Qc) by (apply (tilts_le e _ _ _ HT'); auto).
  assert (T2 : (tl p' <= tl (ez c))%Qc) by (apply (tilts_le e _ _ _ HT'); auto).
  assert (T3 : (tl (ea c') <= tl p)%Qc) by (apply (tilts_le e _ _ _ HT'); auto).
  assert (T4 : (tl p' <= tl (ez c'))%Qc) by (apply (tilts_le e _ _ _ HT'); auto).
  assert (M : forall l, (tl p < l)%Qc -> (l <= tl p')%Qc -> H (eb c) l = H (eb c') l -> same_line e (eb c) (eb c')).
  { intros l L1 L2 E. destruct (meet_at e V' HT' (eb c) (eb c') l) as (r & O & O' & Tr & _); auto; try (cbn [eb b_p b_q]; qcl).
    destruct (meet_V c c' r L L' O O') as [Sm|Vr]; auto. exfalso. apply (N r Vr); auto.
    - apply HT'; auto. rewrite Tr. auto.
    - apply (tilts_le e _ _ _ HT'); auto. rewrite Tr. auto. }
  assert (Lt_ : forall u v, (u = eb c /\ v = eb c') \/ (u = eb c' /\ v = eb c) -> K (tl p) u v = Lt -> K (tl p') u v = Lt).
  { intros u v Q E. destruct (K (tl p') u v) eqn:E'; auto; exfalso;
    destruct (kcmp_change e (b_p u) (b_q u) (b_p v) (b_q v) (tl p) (tl p')) as (l & L1 & L2 & El);
      [qcl|exact E|unfold P_Order.K in E'; rewrite E'; discriminate| |qcl|exact E|unfold P_Order.K in E'; rewrite E'; discriminate|];
      (assert (Sm : same_line e u v);
       [destruct Q as [[-> ->]|[-> ->]]; [apply (M l); auto|apply same_line_sym; apply (M l); auto; symmetry; exact El]|];
       rewrite (proj2 (K_eq_same e (tl p) u v) Sm) in E; discriminate). }
  destruct (K (tl p) (eb c') (eb c)) eqn:E.
  - symmetry. apply K_eq_same in E. apply K_eq_same; auto.
  - symmetry. apply Lt_; auto.
  - symmetry. apply K_gt_iff. apply K_gt_iff in E. apply Lt_; auto.
Qed.

(** * From point to point *)
Section Step.
Variables (ty : op_type) (fs : nat -> bool).
Hypothesis HB : forall b (g : pt -> bool), par fs n b (fun c => xorb (g (ea c)) (g (ez c))) = false.
Notation lab := (lab ty fs n).
Definition upto (p : pt) (c c' : nat) : bool := actb p c' && lek p c' c.

Lemma advance : forall p p' c, c < n -> In p V' -> In p' V' -> lex_lt p p' ->
  (forall v, In v V -> lex_lt p v -> lex_lt v p' -> False) ->
  actb p c = true -> actb p' c = true -> (In p' V -> thr p' c -> False) ->
  lab (upto p c) = lab (upto p' c).
Proof.
  intros p p' c L Vp Vp' Lp NV A A' NT. apply actb_iff in A as [A1 A2]. apply actb_iff in A' as [A1' A2'].
  assert (NVle : forall v, In v V -> lex_lt p v -> lex_le v p' -> v = p').
  { intros v Iv L1 L2. destruct (pt_dec v p') as [Q|Q]; auto. exfalso. apply (NV v Iv); auto. apply lex_le_neq; auto. }
  set (below := qltb (cy p') (H (eb c) (tl p'))).
  apply lab_eq. intros b. rewrite <- (HB b (fun v => peqb v p' && below)). apply par_ext. intros c' L'.
  pose proof (eV c' L') as [Va' Vz']. pose proof (e_lt c' L') as Laz.
  assert (Lek : In p' V -> thr p' c' -> lek p' c' c = below).
  { intros V1 T'. assert (N : H (eb c) (tl p') <> cy p').
    { intros Q. apply (NT V1). apply thr_iff; auto. apply lex_lt_le; auto. }
    pose proof (onb_H e V' HT' (eb c') p' (eb_good c' L') T') as E'. unfold lek, below.
    destruct (K_spec e (tl p') (eb c') (eb c)) as [Q|Q|Q _|Q _|Q _]; rewrite E' in Q; destruct (qltb_spec (cy p') (H (eb c) (tl p'))) as [W|W];
      first [reflexivity|contradiction|exfalso; apply N; symmetry; exact Q|exfalso; clear - Q W; qcl]. }
  assert (Per : lex_le (ea c') p -> lex_le p' (ez c') -> lek p c' c = lek p' c' c).
  { intros B1 B2. unfold lek. rewrite (persist p p' c c'); auto; [apply lex_lt_le; auto|].
    intros r Vr L1 L2 O O'. pose proof (NVle r Vr L1 L2) as ->. apply NT; auto. }
  unfold upto. destruct (peqb_spec (ea c') p') as [E1|N1].
  - assert (V1 : In p' V) by (rewrite <- E1; auto). destruct (peqb_spec (ez c') p') as [E2|N2]; [exfalso; rewrite E1, E2 in Laz; lord|].
    assert (Q1 : actb p c' = false).
    { destruct (actb p c') eqn:Q; auto. exfalso. apply actb_iff in Q as [Q _]. rewrite E1 in Q. lord. }
    assert (Q2 : actb p' c' = true).
    { apply actb_iff. rewrite E1 in *. split; [apply lex_le_refl|auto]. }
    rewrite Q1, Q2, (Lek V1); [|rewrite <- E1; apply on_seg_start]. destruct below; reflexivity.
  - destruct (peqb_spec (ez c') p') as [E2|N2].
    + assert (V1 : In p' V) by (rewrite <- E2; auto).
      assert (B1 : lex_le (ea c') p).
      { destruct (lex_le_dec (ea c') p) as [Q|Q]; auto. exfalso. apply N1. apply NVle; auto. rewrite <- E2. apply lex_lt_le; auto. }
      assert (Q1 : actb p c' = true).
      { apply actb_iff. split; auto. rewrite E2. auto. }
      assert (Q2 : actb p' c' = false).
      { destruct (actb p' c') eqn:Q; auto. exfalso. apply actb_iff in Q as [_ Q]. rewrite E2 in Q. lord. }
      assert (Q3 : thr p' c') by (rewrite <- E2; apply on_seg_end).
      assert (Q4 : lek p c' c = below) by (rewrite Per; auto; rewrite E2; apply lex_le_refl).
      rewrite Q1, Q2, Q4. destruct below; reflexivity.
    + transitivity false; [|reflexivity].
      assert (Q : actb p c' = actb p' c').
      { apply Bool.eq_iff_eq_true. rewrite !actb_iff. split; intros [B1 B2].
        - split; [lord|]. destruct (lex_le_dec (ez c') p') as [Q|Q]; [|lord]. exfalso. apply N2. apply NVle; auto.
        - split; [|lord]. destruct (lex_le_dec (ea c') p) as [Q|Q]; auto. exfalso. apply N1. apply NVle; auto. }
      rewrite <- Q. destruct (actb p c') eqn:W; [|reflexivity]. cbn [andb]. apply actb_iff in W as [W1 _]. symmetry in Q. apply actb_iff in Q as [_ W2]. rewrite Per; [apply xorb_nilpotent|auto|apply lex_lt_le; auto].
Qed.
End Step.
End Geo.
