(** Polygon assembly: rings that meet at vertices only. *)
Require Import List String Bool Arith Lia Permutation Sorted.
From Verif Require Import Base Scalar M_Events M_Geo M_LineOrPoint M_MonoPoly M_Rings M_Op.
From Verif Require Import S_Geo P_Geo P_LineOrPoint P_Tilt P_Chain P_Bundle P_Tile P_Order P_Inv.
From Verif Require Import S_Mono P_Mono S_Rings P_Rings S_Op P_OpLab P_OpPoint P_OpStep P_OpRun P_OpPlane P_OpSide P_OpPoly P_Boundary P_OpCount P_OpTotal P_LamRun.
Import Datatypes.
Import ListNotations.
Local Open Scope nat_scope.

(** * Closed rings *)
Lemma edges_in : forall l x y, In (x, y) (edges l) <-> exists a b, l = a ++ x :: y :: b.
Proof.
  intros l x y. split.
  - intros I. apply edges_nth in I as (i & I1 & I2). apply nth_error_split in I1 as (a & b & -> & La).
    rewrite nth_error_app2 in I2 by lia. replace (S i - List.length a) with 1 in I2 by lia. cbn in I2. destruct b as [|z b]; [discriminate|]. injection I2 as ->. exists a, b. auto.
  - intros (a & b & ->). apply (nth_edges _ (List.length a)); [rewrite nth_error_app2, Nat.sub_diag by lia; reflexivity|].
    rewrite nth_error_app2 by lia. replace (S (List.length a) - List.length a) with 1 by lia. reflexivity.
Qed.
(** The neighbours in a ring are unique. *)
Lemma ring_next : forall l u b b', proper_ring l -> In (u, b) (edges l) -> In (u, b') (edges l) -> b = b'.
Proof.
  intros l u b b' (p & l' & -> & N & _) I I'. apply edges_nth in I as (i & I1 & I2). apply edges_nth in I' as (j & J1 & J2).
  change (p :: l' ++ [p]) with ((p :: l') ++ [p]) in *.
  assert (Li : i < List.length (p :: l')) by (assert (Z : S i < List.length ((p :: l') ++ [p])) by (apply nth_error_Some; congruence); rewrite app_length in Z; cbn in *; lia).
  assert (Lj : j < List.length (p :: l')) by (assert (Z : S j < List.length ((p :: l') ++ [p])) by (apply nth_error_Some; congruence); rewrite app_length in Z; cbn in *; lia).
  rewrite nth_error_app1 in I1, J1 by auto. assert (i = j) by (eapply (proj1 (NoDup_nth_error (p :: l')) N); [auto|congruence]). subst j. congruence.
Qed.
Lemma ring_prev : forall l u a a', proper_ring l -> In (a, u) (edges l) -> In (a', u) (edges l) -> a = a'.
Proof.
  intros l u a a' (p & l' & -> & N & _) I I'. apply edges_nth in I as (i & I1 & I2). apply edges_nth in I' as (j & J1 & J2).
  cbn [nth_error] in I2, J2.
  assert (N' : NoDup (l' ++ [p])) by (apply (Permutation_NoDup (l := p :: l')); auto; apply Permutation_cons_append).
  assert (Li : i < List.length (l' ++ [p])) by (apply nth_error_Some; congruence).
  assert (i = j) by (eapply (proj1 (NoDup_nth_error (l' ++ [p])) N'); [auto|congruence]). subst j. congruence.
Qed.
Lemma chain_all : forall (Q : pt * pt -> Prop) l, (forall a u b, In (a, u) (edges l) -> In (u, b) (edges l) -> (Q (a, u) <-> Q (u, b))) ->
  forall x y, In x (edges l) -> In y (edges l) -> Q x -> Q y.
Proof.
  intros Q l HQ. assert (G : forall x, In x (edges l) -> (Q x <-> Q (hd x (edges l)))).
  { induction l as [|p [|q l] IH]; [intros x []|intros x []|]. intros x I. rewrite edges_cons in *. cbn [hd]. destruct I as [<-|I]; [tauto|].
    assert (Z : Q x <-> Q (hd x (edges (q :: l)))) by (apply IH; auto; intros a u b I1 I2; apply HQ; right; auto). rewrite Z. destruct l as [|r l]; [destruct I|]. rewrite edges_cons. cbn [hd]. symmetry. apply HQ; [left; auto|right; rewrite edges_cons; left; auto]. }
  intros x y I J Qx. apply (proj2 (G y J)). assert (Z : hd y (edges l) = hd x (edges l)) by (destruct (edges l); [destruct I|reflexivity]). rewrite Z. apply (proj1 (G x I)). exact Qx.
Qed.
(** The least vertex decides the winding order. *)
Lemma least_from : forall l best b i, (least_index_from best b i l = best /\ forall v, In v l -> lex_le b v) \/
  (exists j u, least_index_from best b i l = i + j /\ nth_error l j = Some u /\ lex_lt u b /\ forall v, In v l -> lex_le u v).
Proof.
  induction l as [|p l IH]; intros best b i; cbn [least_index_from]; [left; split; [auto|intros v []]|].
  destruct (pltb_spec p b) as [Lp|Lp].
  - right. destruct (IH i p (S i)) as [[Q F]|(j & u & Q & Nj & Lu & F)].
    + exists 0, p. split; [lia|]. split; [reflexivity|]. split; auto. intros v [<-|I]; [apply lex_le_refl|auto].
    + exists (S j), u. split; [lia|]. split; [exact Nj|]. split; [lord|]. intros v [<-|I]; [lord|auto].
  - destruct (IH best b (S i)) as [[Q F]|(j & u & Q & Nj & Lu & F)].
    + left. split; auto. intros v [<-|I]; [destruct (lex_le_dec b p); auto; contradiction|auto].
    + right. exists (S j), u. split; [lia|]. split; [exact Nj|]. split; [auto|]. intros v [<-|I]; [|auto]. destruct (lex_le_dec b p) as [Z|Z]; [lord|contradiction].
Qed.
Lemma other_hd : forall u x l, x <> u -> first_other u (x :: l) = Some x.
Proof. intros u x l N. unfold first_other. cbn [find]. destruct (peqb_spec x u); [contradiction|reflexivity]. Qed.
Theorem winding_least : forall l, proper_ring l -> exists a u b, In (a, u) (edges l) /\ In (u, b) (edges l) /\ (forall v, In v l -> lex_le u v) /\
  ls_winding_order l = match orient2d a u b with CounterClockwise => Some Ccw | Clockwise => Some Cw | Collinear => None end.
Proof.
  intros l (p & l' & -> & N & Ln). unfold ls_winding_order.
  assert (L4 : (List.length (p :: l' ++ [p]) <? 4) = false) by (apply Nat.ltb_ge; cbn; rewrite app_length; cbn; lia). rewrite L4.
  rewrite P_RingWalk.closed_pts. cbn [orb negb]. unfold least_index. apply NoDup_cons_iff in N as [Np N].
  destruct (least_from (l' ++ [p]) 0 p 1) as [[Q F]|(j & u & Q & Nj & Lu & F)]; rewrite Q.
  - cbn [nth_error skipn firstn app rev]. rewrite app_nil_r.
    destruct l' as [|b l1] eqn:El; [cbn in Ln; lia|]. assert (exists a l2, l' = l2 ++ [a]) as (a & l2 & El2).
    { destruct (exists_last (l := l')) as (l2 & a & Z); [rewrite El; discriminate|]. eauto. }
    rewrite <- El in *. exists a, p, b.
    assert (Nb : b <> p) by (intros ->; apply Np; rewrite El; left; auto). assert (Na : a <> p) by (intros ->; apply Np; rewrite El2; apply in_or_app; right; left; auto).
    split; [apply edges_in; exists (p :: l2), []; rewrite El2; cbn; rewrite <- app_assoc; reflexivity|].
    split; [apply edges_in; exists [], (l1 ++ [p]); rewrite El; reflexivity|]. split; [intros v [<-|I]; [apply lex_le_refl|auto]|].
    assert (E1 : first_other p (l' ++ [p]) = Some b) by (rewrite El; apply other_hd; auto). rewrite E1.
    assert (E2 : first_other p (rev (l' ++ [p])) = Some a).
    { rewrite rev_unit, El2, rev_unit. unfold first_other. cbn [find]. destruct (peqb_spec p p); [|congruence]. cbn [negb]. destruct (peqb_spec a p); [contradiction|reflexivity]. }
    rewrite E2. reflexivity.
  - assert (Lj : j < List.length l').
    { assert (Z : j < List.length (l' ++ [p])) by (apply nth_error_Some; congruence). rewrite app_length in Z. cbn in Z. destruct (Nat.eq_dec j (List.length l')) as [->|]; [|lia].
      rewrite nth_error_app2, Nat.sub_diag in Nj by lia. injection Nj as <-. lord. }
    rewrite nth_error_app1 in Nj by auto. apply nth_error_split in Nj as (x & y & -> & <-).
    assert (E0 : p :: (x ++ u :: y) ++ [p] = (p :: x) ++ u :: (y ++ [p])) by (cbn; rewrite <- app_assoc; reflexivity). rewrite E0.
    replace (1 + List.length x) with (List.length (p :: x)) by reflexivity. rewrite nth_error_app2, Nat.sub_diag by lia. cbn [nth_error].
    replace (S (List.length (p :: x))) with (List.length (p :: x) + 1) by lia. rewrite firstn_app, firstn_all, Nat.sub_diag. cbn [firstn]. rewrite app_nil_r.
    rewrite skipn_app. rewrite skipn_all2 by lia. replace (List.length (p :: x) + 1 - List.length (p :: x)) with 1 by lia. rewrite app_nil_l. cbn [skipn].
    assert (Nup : u <> p) by (intros ->; lord). apply NoDup_remove_2 in N.
    assert (exists b y', y ++ [p] = b :: y' /\ b <> u) as (b & y' & Eb & Nb).
    { destruct y as [|b y']; [exists p, []; auto|exists b, (y' ++ [p]); split; [reflexivity|]; intros ->; apply N; apply in_or_app; right; left; auto]. }
    assert (exists a x', p :: x = x' ++ [a] /\ a <> u) as (a & x' & Ea & Na).
    { destruct (exists_last (l := p :: x)) as (x' & a & Z); [discriminate|]. exists a, x'. split; auto. intros ->.
      assert (I : In u (p :: x)) by (rewrite Z; apply in_or_app; right; left; auto). destruct I as [I|I]; [congruence|]. apply N. apply in_or_app; auto. }
    exists a, u, b. rewrite Eb, Ea. split; [apply edges_in; exists x', (b :: y'); rewrite <- app_assoc; reflexivity|].
    split; [apply edges_in; exists (x' ++ [a]), y'; reflexivity|]. split.
    + intros v I. rewrite <- Eb, <- Ea, <- E0 in I. destruct I as [<-|I]; [lord|]. apply F; auto.
    + cbn [app]. rewrite other_hd by auto. rewrite rev_unit. cbn [app]. rewrite other_hd by auto. reflexivity.
Qed.

(** * Parities at a vertex *)
Section Vertex.
Variables (ln : nat -> line) (n : nat) (e : Qc) (V V' : list pt).
Hypothesis HT' : tilts e (fun p => In p V').
Hypothesis HVV : incl V V'.
Hypothesis HV1 : forall c a z, c < n -> geo ln c = Line a z -> In a V /\ In z V.
Hypothesis HV2 : forall c c' a z a' z' r, c < n -> c' < n -> geo ln c = Line a z -> geo ln c' = Line a' z' ->
  on_seg a z r -> on_seg a' z' r -> (forall r', on_seg a z r' -> on_seg a' z' r' -> r' = r) -> In r V.
Hypothesis HL : forall c, c < n -> exists a z, geo ln c = Line a z.
Notation tl := (tilt e).
Notation H := (P_Order.H e).
Notation K := (P_Order.K e).
Notation ea := (ea ln).
Notation ez := (ez ln).
Notation eb := (eb ln).
Notation thr := (thr ln).
Notation actb := (actb ln).
Notation upto := (upto ln e).
Notation lek := (lek ln e).
Notation under := (P_OpStep.under ln e).
Hypothesis NO : no_overlap ln n.
Hypothesis Ends : forall v c, c < n -> In v V -> thr v c -> v = ea c \/ v = ez c.

Let HT : tilts e (fun p => In p V).
Proof. intros a b A B. apply HT'; auto. Qed.
Let EBG := ebg ln n V HV1 HL.

(** Two edges over the same place are not on one line. *)
Lemma no_same : forall p c c', c < n -> c' < n -> c <> c' -> actb p c = true -> actb p c' = true -> K (tl p) (eb c) (eb c') <> Eq.
Proof.
  intros p c c' L L' N A A' Q. apply K_eq_same in Q as [_ Q]. apply actb_iff in A as [A1 A2]. apply actb_iff in A' as [B1 B2].
  assert (Tr : forall x, In x V -> lex_le (ea c) x -> lex_le x (ez c) -> lex_le (ea c') x -> lex_le x (ez c') -> thr x c \/ thr x c' -> thr x c /\ thr x c').
  { intros x Vx X1 X2 X3 X4 T. apply HVV in Vx. rewrite !(thr_iff ln n e V V' HT' HVV HV1 HL) in * by auto. rewrite (Q (tl x)) in *. destruct T; auto. }
  destruct (eV ln n V HV1 HL c L) as [Va Vz]. destruct (eV ln n V HV1 HL c' L') as [Va' Vz'].
  assert (X : exists x, In x V /\ lex_le x p /\ thr x c /\ thr x c').
  { destruct (lex_le_dec (ea c) (ea c')) as [Z|Z].
    - exists (ea c'). split; auto. split; auto. apply Tr; auto; [lord|apply lex_le_refl|lord|]. right. apply on_seg_start.
    - exists (ea c). split; auto. split; auto. apply Tr; auto; [apply lex_le_refl|lord|lord|lord|]. left. apply on_seg_start. }
  assert (Y : exists y, lex_lt p y /\ thr y c /\ thr y c').
  { destruct (lex_le_dec (ez c) (ez c')) as [Z|Z].
    - exists (ez c). split; auto. apply Tr; auto; [lord|apply lex_le_refl|lord|]. left. apply on_seg_end.
    - exists (ez c'). split; auto. apply Tr; auto; [lord|lord|lord|apply lex_le_refl|]. right. apply on_seg_end. }
  destruct X as (x & _ & X1 & X2 & X3). destruct Y as (y & Y1 & Y2 & Y3). pose proof (NO c c' x y L L' N X2 X3 Y2 Y3) as Z. subst y. lord.
Qed.
Lemma lek_total : forall p c c', c < n -> c' < n -> c <> c' -> actb p c = true -> actb p c' = true -> lek p c' c = negb (lek p c c').
Proof.
  intros p c c' L L' N A A'. pose proof (no_same p c c' L L' N A A') as Q. unfold P_OpLab.lek. rewrite (K_opp e (tl p) (eb c) (eb c')).
  destruct (K (tl p) (eb c) (eb c')); [congruence|reflexivity|reflexivity].
Qed.
Lemma lek_refl : forall p c, lek p c c = true.
Proof. intros p c. unfold P_OpLab.lek. assert (Q : K (tl p) (eb c) (eb c) = Eq) by (apply K_eq_same, same_line_refl). rewrite Q. reflexivity. Qed.

Section Fam.
Variable fs : nat -> bool.
Hypothesis HB : forall b (g : pt -> bool), par fs n b (fun c => xorb (g (ea c)) (g (ez c))) = false.
(** The parity above an edge, at its start. *)
Definition side (c : nat) : bool := par fs n true (upto (ea c) c).
Lemma side_at : forall p c, c < n -> In p V' -> actb p c = true -> par fs n true (upto p c) = side c.
Proof.
  intros p c L Vp A. unfold side. pose proof A as A'. apply actb_iff in A' as [A1 A2]. destruct (pt_dec (ea c) p) as [->|Np]; [reflexivity|].
  symmetry. apply (lab_inv n Union fs). destruct (eV ln n V HV1 HL c L) as [Va Vz].
  apply (far ln n e V V' HT' HVV HV1 HV2 HL Union fs HB); auto.
  - apply lex_le_neq; auto.
  - apply actb_iff. split; [apply lex_le_refl|apply (e_lt ln n HL); auto].
  - intros v Iv L1 L2 T. destruct (Ends v c L Iv T) as [-> | ->]; lord.
Qed.
Lemma under_thr : forall u c, c < n -> In u V -> under u c = true -> ~ thr u c.
Proof.
  intros u c L Vu U T. unfold P_OpStep.under in U. apply andb_true_iff in U as [U1 U2]. apply actb_iff in U1 as [U3 U4]. apply qltb_iff in U2.
  apply (thr_iff ln n e V V' HT' HVV HV1 HL) in T; auto; [|lord]. rewrite T in U2. destruct (Qclt_not_eq _ _ U2 eq_refl).
Qed.
Lemma vstart : forall u c, c < n -> ea c = u -> side c = xorb (par fs n true (under u)) (par fs n true (fun c' => peqb (ea c') u && lek u c' c)).
Proof.
  intros u c L Q. unfold side. rewrite Q, <- par_xor. apply par_ext. intros c' L'. pose proof (eV ln n V HV1 HL c L) as [Vu _]. rewrite Q in Vu.
  unfold P_OpLab.upto, P_OpStep.under. destruct (peqb_spec (ea c') u) as [Q'|Q'].
  - assert (A : actb u c' = true) by (apply actb_iff; rewrite <- Q'; split; [apply lex_le_refl|apply (e_lt ln n HL); auto]). rewrite A. cbn [andb].
    assert (T : H (eb c') (tl u) = cy u).
    { apply (thr_iff ln n e V V' HT' HVV HV1 HL); auto; apply actb_iff in A as [A1 A2]; auto; [apply lex_lt_le; auto|rewrite <- Q'; apply on_seg_start]. }
    rewrite T. assert (Z : qltb (cy u) (cy u) = false) by (destruct (qltb (cy u) (cy u)) eqn:Z; auto; apply qltb_iff in Z; destruct (Qclt_not_eq _ _ Z eq_refl)).
    rewrite Z. destruct (lek u c' c); reflexivity.
  - cbn [andb]. rewrite xorb_false_r. destruct (actb u c') eqn:A; [|reflexivity]. cbn [andb].
    assert (NT : H (eb c') (tl u) <> cy u).
    { intros Z. pose proof A as A'. apply actb_iff in A' as [A1 A2]. apply (thr_iff ln n e V V' HT' HVV HV1 HL) in Z; auto; [|apply lex_lt_le; auto].
      destruct (Ends u c' L' Vu Z) as [Z'|Z']; [congruence|]. rewrite <- Z' in A2. lord. }
    assert (T : H (eb c) (tl u) = cy u).
    { apply (thr_iff ln n e V V' HT' HVV HV1 HL); auto; rewrite <- Q; [apply lex_le_refl|apply lex_lt_le, (e_lt ln n HL); auto|apply on_seg_start]. }
    unfold P_OpLab.lek. destruct (qltb (H (eb c') (tl u)) (cy u)) eqn:Z.
    + apply qltb_iff in Z. assert (E1 : K (tl u) (eb c') (eb c) = Lt) by (apply K_lt_iff; left; rewrite T; exact Z). rewrite E1. reflexivity.
    + assert (E1 : K (tl u) (eb c') (eb c) = Gt); [|rewrite E1; reflexivity]. apply K_gt_iff. apply K_lt_iff. left. rewrite T.
      destruct (Qclt_le_dec (cy u) (H (eb c') (tl u))) as [Q1|Q1]; auto. exfalso. destruct (Qcle_lt_or_eq _ _ Q1) as [Q2|Q2]; [|auto].
      apply qltb_iff in Q2. congruence.
Qed.
Lemma vend : forall p u c, c < n -> ez c = u -> In p V' -> lex_lt p u -> (forall v, In v V -> lex_lt p v -> lex_lt v u -> False) ->
  side c = xorb (par fs n true (under u)) (par fs n true (fun c' => peqb (ez c') u && lek p c' c)).
Proof.
  intros p u c L Q Vp Lpu NV. pose proof (eV ln n V HV1 HL c L) as [Va Vu]. rewrite Q in Vu. pose proof (e_lt ln n HL c L) as Lc. rewrite Q in Lc.
  assert (Le : lex_le (ea c) p) by (apply (V_le V p u NV); auto).
  assert (Ac : actb p c = true) by (apply actb_iff; rewrite Q; auto).
  rewrite <- (side_at p c L Vp Ac), <- par_xor. apply par_ext. intros c' L'. destruct (eV ln n V HV1 HL c' L') as [Va' Vz']. pose proof (e_lt ln n HL c' L') as Lc'.
  assert (T : H (eb c) (tl u) = cy u).
  { apply (thr_iff ln n e V V' HT' HVV HV1 HL); auto; [apply lex_lt_le; auto|rewrite Q; apply lex_le_refl|rewrite <- Q; apply on_seg_end]. }
  unfold P_OpLab.upto, P_OpStep.under. destruct (peqb_spec (ez c') u) as [Q'|Q'].
  - assert (A : actb p c' = true) by (apply actb_iff; rewrite Q'; split; auto; apply (V_le V p u NV); auto; rewrite <- Q'; auto).
    assert (A' : actb u c' = false) by (destruct (actb u c') eqn:Z; auto; apply actb_iff in Z as [_ Z]; rewrite Q' in Z; lord).
    rewrite A, A'. destruct (lek p c' c); reflexivity.
  - cbn [andb]. rewrite xorb_false_r. destruct (actb u c') eqn:A.
    + apply actb_iff in A as [A1 A2]. cbn [andb]. destruct (pt_dec (ea c') u) as [Q1|Q1].
      * assert (Z : actb p c' = false) by (destruct (actb p c') eqn:Z; auto; apply actb_iff in Z as [Z _]; rewrite Q1 in Z; lord). rewrite Z. cbn [andb]. symmetry.
        assert (T' : H (eb c') (tl u) = cy u).
        { apply (thr_iff ln n e V V' HT' HVV HV1 HL); auto; [apply lex_lt_le; auto|rewrite <- Q1; apply on_seg_start]. }
        rewrite T'. destruct (qltb (cy u) (cy u)) eqn:Z1; auto. apply qltb_iff in Z1. destruct (Qclt_not_eq _ _ Z1 eq_refl).
      * assert (Lu : lex_lt (ea c') u) by (apply lex_le_neq; auto). assert (Lp : lex_le (ea c') p) by (apply (V_le V p u NV); auto).
        assert (Z : actb p c' = true) by (apply actb_iff; split; auto; lord). rewrite Z. cbn [andb].
        assert (NT : ~ thr u c') by (intros Z1; destruct (Ends u c' L' Vu Z1); congruence).
        unfold P_OpLab.lek. rewrite (persist ln n e V V' HT' HVV HV1 HV2 HL p u c c'); auto; [|rewrite Q; apply lex_le_refl|lord|].
        -- assert (NH : H (eb c') (tl u) <> cy u).
           { intros Z1. apply NT. apply (thr_iff ln n e V V' HT' HVV HV1 HL); auto; lord. }
           destruct (qltb (H (eb c') (tl u)) (cy u)) eqn:Z2.
           ++ apply qltb_iff in Z2. assert (E1 : K (tl u) (eb c') (eb c) = Lt) by (apply K_lt_iff; left; rewrite T; exact Z2). rewrite E1. reflexivity.
           ++ assert (E1 : K (tl u) (eb c') (eb c) = Gt); [|rewrite E1; reflexivity]. apply K_gt_iff. apply K_lt_iff. left. rewrite T.
              destruct (Qclt_le_dec (cy u) (H (eb c') (tl u))) as [Z3|Z3]; auto. exfalso. destruct (Qcle_lt_or_eq _ _ Z3) as [Z4|Z4]; [|auto]. apply qltb_iff in Z4. congruence.
        -- intros r Vr L1 L2 T1 T2. destruct (pt_dec r u) as [->|Nr]; [auto|]. apply (NV r Vr L1). apply lex_le_neq; auto.
    + cbn [andb]. destruct (actb p c') eqn:A'; [|reflexivity]. exfalso. apply actb_iff in A' as [A1 A2].
      assert (Z : lex_lt u (ez c')).
      { apply lex_le_neq; [|congruence]. destruct (lex_le_dec u (ez c')) as [Z|Z]; auto. destruct (NV (ez c')); auto. }
      assert (Z' : actb u c' = true) by (apply actb_iff; split; auto; lord). congruence.
Qed.
End Fam.

(** * Rings *)
Variables (s0 : pt) (rs : list ring) (rc : nat -> nat) (tr : nat -> pt * pt).
Hypothesis Vs0 : In s0 V'.
Hypothesis Ls0 : forall v, In v V -> lex_lt s0 v.
Definition coords (R : nat) : list pt := match nth_error rs R with Some r => r_coords r | None => [] end.
Hypothesis Rc : forall c, c < n -> rc c < List.length rs.
Hypothesis Tr : forall c, c < n -> In (tr c) (edges (coords (rc c))).
Hypothesis Geo : forall c, c < n -> tr c = (ea c, ez c) \/ tr c = (ez c, ea c).
Hypothesis Cov : forall R a, R < List.length rs -> In a (edges (coords R)) -> exists c, c < n /\ rc c = R /\ tr c = a.
Hypothesis Inj : forall c c', c < n -> c' < n -> rc c = rc c' -> tr c = tr c' -> c = c'.
Hypothesis Prp : forall R, R < List.length rs -> proper_ring (coords R).
Notation fsr R := (fun c => rc c =? R).
Hypothesis HBr : forall R b (g : pt -> bool), par (fsr R) n b (fun c => xorb (g (ea c)) (g (ez c))) = false.
Definition dirf (c : nat) : bool := pltb (fst (tr c)) (snd (tr c)).

Lemma two : forall R g c1 c2, c1 < n -> c2 < n -> c1 <> c2 -> rc c1 = R -> rc c2 = R ->
  (forall c, c < n -> rc c = R -> g c = true -> c = c1 \/ c = c2) -> par (fsr R) n true g = xorb (g c1) (g c2).
Proof.
  intros R g c1 c2 L1 L2 N R1 R2 G.
  assert (K1 : forall k b, k < n -> rc k = R -> par (fsr R) n true (fun c => b && (c =? k)) = b).
  { intros k [] Lk Rk; cbn [andb]; [|apply par_none; auto]. rewrite par_eqb, Rk, Nat.eqb_refl by auto. reflexivity. }
  rewrite <- (K1 c1 (g c1)), <- (K1 c2 (g c2)), <- par_xor by auto. unfold par. apply odd_ext. intros c I. apply in_seq in I.
  destruct (Nat.eqb_spec (rc c) R) as [Q|Q]; [|reflexivity]. cbn [Bool.eqb andb].
  destruct (Nat.eqb_spec c c1) as [->|Q1]; [destruct (Nat.eqb_spec c1 c2); [contradiction|]; rewrite andb_true_r, andb_false_r, xorb_false_r; reflexivity|].
  destruct (Nat.eqb_spec c c2) as [->|Q2]; [rewrite andb_true_r, andb_false_r; destruct (g c2); reflexivity|].
  rewrite !andb_false_r. destruct (g c) eqn:Gc; auto. destruct (G c ltac:(lia) Q Gc); contradiction.
Qed.
Lemma tr_ne : forall c, c < n -> fst (tr c) <> snd (tr c).
Proof. intros c L Q. pose proof (e_lt ln n HL c L) as Lt. destruct (Geo c L) as [Z|Z]; rewrite Z in Q; cbn in Q; rewrite Q in Lt; lord. Qed.
Lemma dirf_iff : forall c, c < n -> (dirf c = true /\ tr c = (ea c, ez c)) \/ (dirf c = false /\ tr c = (ez c, ea c)).
Proof.
  intros c L. pose proof (e_lt ln n HL c L) as Lt. unfold dirf. destruct (Geo c L) as [Z|Z]; rewrite Z; cbn [fst snd].
  - left. split; auto. apply pltb_iff; auto.
  - right. split; auto. destruct (pltb (ez c) (ea c)) eqn:Q; auto. apply pltb_iff in Q. lord.
Qed.

Lemma at_vertex : forall c1 c2 c a u b, c1 < n -> c2 < n -> c < n -> rc c1 = rc c2 -> rc c = rc c1 -> tr c1 = (a, u) -> tr c2 = (u, b) ->
  ea c = u \/ ez c = u -> c = c1 \/ c = c2.
Proof.
  intros c1 c2 c a u b L1 L2 L R12 R T1 T2 I. pose proof (Tr c1 L1) as I1. pose proof (Tr c2 L2) as I2. pose proof (Tr c L) as I0. rewrite <- R12 in I2. rewrite R in I0.
  rewrite T1 in I1. rewrite T2 in I2. pose proof (Prp _ (Rc c1 L1)) as P.
  assert (Z : fst (tr c) = u \/ snd (tr c) = u) by (destruct (Geo c L) as [Z|Z]; rewrite Z; cbn [fst snd]; tauto).
  destruct (tr c) as [x y] eqn:Et. cbn [fst snd] in Z. destruct Z as [-> | ->].
  - right. apply Inj; auto; [congruence|]. rewrite Et, T2. f_equal. eapply ring_next; eauto.
  - left. apply Inj; auto. rewrite Et, T1. f_equal. eapply ring_prev; eauto.
Qed.
Lemma pred_u : forall u, In u V -> exists p, In p V' /\ lex_lt p u /\ forall v, In v V -> lex_lt p v -> lex_lt v u -> False.
Proof.
  intros u Vu. destruct (P_OpTotal.pred_of V u s0 (Ls0 u Vu)) as (p & I & L & B). exists p. split; [|auto]. destruct I as [->|I]; auto.
Qed.
Lemma neq12 : forall c1 c2 a u b, c1 < n -> c2 < n -> tr c1 = (a, u) -> tr c2 = (u, b) -> c1 <> c2.
Proof. intros c1 c2 a u b L1 L2 T1 T2 Q. subst c2. apply (tr_ne c1 L1). rewrite T1. rewrite T1 in T2. injection T2 as -> ->. reflexivity. Qed.
(** Along a ring, the side on which its inside is changes with the direction. *)
Lemma own_step : forall c1 c2 a u b, c1 < n -> c2 < n -> rc c1 = rc c2 -> tr c1 = (a, u) -> tr c2 = (u, b) ->
  xorb (side (fsr (rc c1)) c1) (dirf c1) = xorb (side (fsr (rc c1)) c2) (dirf c2).
Proof.
  intros c1 c2 a u b L1 L2 R T1 T2. set (R1 := rc c1) in *. pose proof (neq12 c1 c2 a u b L1 L2 T1 T2) as N.
  assert (AV : forall c, c < n -> rc c = R1 -> ea c = u \/ ez c = u -> c = c1 \/ c = c2) by (intros c L Q I; apply (at_vertex c1 c2 c a u b); auto).
  assert (G1 : forall k (f : nat -> nat -> bool), par (fsr R1) n true (fun c' => peqb (ea c') u && f k c') = xorb (peqb (ea c1) u && f k c1) (peqb (ea c2) u && f k c2)).
  { intros k f. apply (two R1 (fun c' => peqb (ea c') u && f k c')); auto. intros c L Q I. apply AV; auto. left. apply andb_true_iff in I as [I _]. apply peqb_iff; auto. }
  assert (G2 : forall k (f : nat -> nat -> bool), par (fsr R1) n true (fun c' => peqb (ez c') u && f k c') = xorb (peqb (ez c1) u && f k c1) (peqb (ez c2) u && f k c2)).
  { intros k f. apply (two R1 (fun c' => peqb (ez c') u && f k c')); auto. intros c L Q I. apply AV; auto. right. apply andb_true_iff in I as [I _]. apply peqb_iff; auto. }
  clear AV. assert (Vu : In u V).
  { destruct (eV ln n V HV1 HL c1 L1) as [A B]. destruct (Geo c1 L1) as [Z|Z]; rewrite T1 in Z; injection Z as -> ->; auto. }
  destruct (pred_u u Vu) as (p & Vp & Lp & NV).
  pose proof (fun c L Q => vstart (fsr R1) u c L Q) as VS. pose proof (fun c L Q => vend (fsr R1) (HBr R1) p u c L Q Vp Lp NV) as VE.
  pose proof (e_lt ln n HL c1 L1) as Lt1. pose proof (e_lt ln n HL c2 L2) as Lt2.
  assert (Pt : forall x, peqb x x = true) by (intros x; apply peqb_iff; reflexivity).
  assert (Pf : forall x y, lex_lt x y -> peqb x y = false /\ peqb y x = false).
  { intros x y Lxy. split; [destruct (peqb_spec x y) as [->|]|destruct (peqb_spec y x) as [->|]]; auto; lord. }
  destruct (dirf_iff c1 L1) as [[D1 Z1]|[D1 Z1]]; rewrite T1 in Z1; injection Z1 as Z1 Z1'; destruct (dirf_iff c2 L2) as [[D2 Z2]|[D2 Z2]]; rewrite T2 in Z2; injection Z2 as Z2 Z2'; rewrite D1, D2.
  - rewrite (VE c1 L1 (eq_sym Z1')), (VS c2 L2 (eq_sym Z2)), (G1 c2 (fun k c' => lek u c' k)), (G2 c1 (fun k c' => lek p c' k)).
    rewrite <- Z1', <- Z2 in *. rewrite Pt, !lek_refl. rewrite (proj1 (Pf _ _ Lt1)), (proj2 (Pf _ _ Lt2)). cbn [andb].
    destruct (par (fsr R1) n true (under u)); reflexivity.
  - rewrite (VE c1 L1 (eq_sym Z1')), (VE c2 L2 (eq_sym Z2)), (G2 c1 (fun k c' => lek p c' k)), (G2 c2 (fun k c' => lek p c' k)).
    rewrite <- Z1', <- Z2 in *. rewrite Pt, !lek_refl. cbn [andb]. rewrite (lek_total p c1 c2); auto.
    + destruct (par (fsr R1) n true (under u)), (lek p c1 c2); reflexivity.
    + apply actb_iff. rewrite <- Z1'. split; auto. apply (V_le V p u NV); [apply (eV ln n V HV1 HL); auto|auto].
    + apply actb_iff. rewrite <- Z2. split; auto. apply (V_le V p u NV); [apply (eV ln n V HV1 HL); auto|auto].
  - rewrite (VS c1 L1 (eq_sym Z1')), (VS c2 L2 (eq_sym Z2)), (G1 c1 (fun k c' => lek u c' k)), (G1 c2 (fun k c' => lek u c' k)).
    rewrite <- Z1', <- Z2 in *. rewrite Pt, !lek_refl. cbn [andb]. rewrite (lek_total u c1 c2); auto.
    + destruct (par (fsr R1) n true (under u)), (lek u c1 c2); reflexivity.
    + apply actb_iff. rewrite <- Z1'. split; [apply lex_le_refl|auto].
    + apply actb_iff. rewrite <- Z2. split; [apply lex_le_refl|auto].
  - rewrite (VS c1 L1 (eq_sym Z1')), (VE c2 L2 (eq_sym Z2)), (G1 c1 (fun k c' => lek u c' k)), (G2 c2 (fun k c' => lek p c' k)).
    rewrite <- Z1', <- Z2 in *. rewrite Pt, !lek_refl. rewrite (proj2 (Pf _ _ Lt1)), (proj1 (Pf _ _ Lt2)). cbn [andb].
    destruct (par (fsr R1) n true (under u)); reflexivity.
Qed.
Lemma ring_const : forall (X : nat -> bool) R, R < List.length rs ->
  (forall c1 c2 a u b, c1 < n -> c2 < n -> rc c1 = R -> rc c2 = R -> tr c1 = (a, u) -> tr c2 = (u, b) -> X c1 = X c2) ->
  forall c c', c < n -> c' < n -> rc c = R -> rc c' = R -> X c = X c'.
Proof.
  intros X R LR St c c' L L' Q Q'.
  set (P := fun x => exists k, k < n /\ rc k = R /\ tr k = x /\ X k = X c).
  assert (G : P (tr c')).
  { apply (chain_all P (coords R)) with (x := tr c).
    - intros a u b I J. destruct (Cov R _ LR I) as (c1 & L1 & R1 & T1). destruct (Cov R _ LR J) as (c2 & L2 & R2 & T2).
      pose proof (St c1 c2 a u b L1 L2 R1 R2 T1 T2) as E. split; intros (k & Lk & Rk & Tk & Xk).
      + assert (k = c1) as -> by (apply Inj; auto; congruence). exists c2. repeat split; auto. congruence.
      + assert (k = c2) as -> by (apply Inj; auto; congruence). exists c1. repeat split; auto. congruence.
    - rewrite <- Q. apply Tr; auto.
    - rewrite <- Q'. apply Tr; auto.
    - exists c. auto. }
  destruct G as (k & Lk & Rk & Tk & Xk). assert (k = c') as -> by (apply Inj; auto; congruence). auto.
Qed.

(** ** The least vertex of a ring *)
Record least (R : nat) (u : pt) (c1 c2 : nat) : Prop := {
  le_1 : c1 < n; le_2 : c2 < n; le_r1 : rc c1 = R; le_r2 : rc c2 = R; le_t1 : tr c1 = (ez c1, ea c1); le_t2 : tr c2 = (ea c2, ez c2);
  le_u1 : ea c1 = u; le_u2 : ea c2 = u; le_d1 : dirf c1 = false; le_d2 : dirf c2 = true;
  le_min : forall c, c < n -> rc c = R -> lex_le u (ea c);
  le_wind : ls_winding_order (coords R) = match orient2d (ez c1) u (ez c2) with CounterClockwise => Some Ccw | Clockwise => Some Cw | Collinear => None end
}.
Lemma edges_mem : forall l x y, In (x, y) (edges l) -> In x l /\ In y l.
Proof. intros l x y I. apply edges_in in I as (a & b & ->). split; apply in_or_app; right; [left|right; left]; auto. Qed.
Lemma least_ex : forall R, R < List.length rs -> exists u c1 c2, least R u c1 c2.
Proof.
  intros R LR. destruct (winding_least (coords R) (Prp R LR)) as (a & u & b & I1 & I2 & Mn & W).
  destruct (Cov R _ LR I1) as (c1 & L1 & R1 & T1). destruct (Cov R _ LR I2) as (c2 & L2 & R2 & T2). exists u, c1, c2.
  pose proof (Mn _ (proj1 (edges_mem _ _ _ I1))) as M1. pose proof (Mn _ (proj2 (edges_mem _ _ _ I2))) as M2.
  pose proof (e_lt ln n HL c1 L1) as Lt1. pose proof (e_lt ln n HL c2 L2) as Lt2.
  destruct (dirf_iff c1 L1) as [[D1 Z1]|[D1 Z1]]; pose proof Z1 as Z1'; rewrite T1 in Z1; injection Z1 as Za Zu; [rewrite <- Za, <- Zu in Lt1; lord|].
  destruct (dirf_iff c2 L2) as [[D2 Z2]|[D2 Z2]]; pose proof Z2 as Z2'; rewrite T2 in Z2; injection Z2 as Zu2 Zb; [|rewrite <- Zb, <- Zu2 in Lt2; lord].
  constructor; auto.
  - intros c L Q. apply Mn. pose proof (Tr c L) as I. rewrite Q in I. destruct (Geo c L) as [Z|Z]; rewrite Z in I; apply edges_mem in I; tauto.
  - rewrite W, <- Za, <- Zb. reflexivity.
Qed.
(** No edge of the ring is below its least vertex. *)
Lemma least_under : forall R u c1 c2, least R u c1 c2 -> par (fsr R) n true (under u) = false.
Proof.
  intros R u c1 c2 Le. apply odd_none. intros c I. apply in_seq in I. destruct (Nat.eqb_spec (rc c) R) as [Q|Q]; [|reflexivity]. cbn [Bool.eqb andb].
  destruct (under u c) eqn:U; auto. exfalso. pose proof (le_min _ _ _ _ Le c ltac:(lia) Q) as M. pose proof (eV ln n V HV1 HL c1 (le_1 _ _ _ _ Le)) as [Vu _]. rewrite (le_u1 _ _ _ _ Le) in Vu.
  apply (under_thr u c ltac:(lia) Vu U). unfold P_OpStep.under in U. apply andb_true_iff in U as [U _]. apply actb_iff in U as [U _].
  assert (Z : u = ea c) by (apply lex_le_antisym; auto). unfold P_OpLab.thr. rewrite Z. apply on_seg_start.
Qed.
Definition ccw (R : nat) : bool := match ls_winding_order (coords R) with Some Ccw => true | _ => false end.
Lemma least_side : forall R u c1 c2, least R u c1 c2 -> ls_winding_order (coords R) <> None /\ side (fsr R) c2 = ccw R.
Proof.
  intros R u c1 c2 Le. pose proof Le as [L1 L2 R1 R2 T1 T2 U1 U2 D1 D2 Mn W].
  assert (N : c1 <> c2) by congruence.
  rewrite (vstart (fsr R) u c2 L2 U2), (least_under _ _ _ _ Le).
  assert (Q : par (fsr R) n true (fun c' => peqb (ea c') u && lek u c' c2) = xorb (peqb (ea c1) u && lek u c1 c2) (peqb (ea c2) u && lek u c2 c2)).
  { apply (two R (fun c' => peqb (ea c') u && lek u c' c2)); auto. intros c L Q I. apply andb_true_iff in I as [I _]. apply peqb_iff in I. apply (at_vertex c1 c2 c (ez c1) u (ez c2)); auto; congruence. }
  rewrite Q. assert (P1 : peqb (ea c1) u = true) by (apply peqb_iff; auto). assert (P2 : peqb (ea c2) u = true) by (apply peqb_iff; auto). rewrite P1, P2, lek_refl. cbn [andb].
  assert (A1 : actb u c1 = true) by (apply actb_iff; rewrite <- U1; split; [apply lex_le_refl|apply (e_lt ln n HL); auto]).
  assert (A2 : actb u c2 = true) by (apply actb_iff; rewrite <- U2; split; [apply lex_le_refl|apply (e_lt ln n HL); auto]).
  pose proof (no_same u c1 c2 L1 L2 N A1 A2) as NS.
  destruct (eV ln n V HV1 HL c1 L1) as [Vu Va]. rewrite U1 in Vu.
  assert (Lta : lex_lt u (ez c1)) by (rewrite <- U1; apply (e_lt ln n HL); auto).
  assert (Tla : (tl u < tl (ez c1))%Qc) by (apply HT; auto).
  assert (H1 : H (eb c1) (tl u) = cy u) by (apply (thr_iff ln n e V V' HT' HVV HV1 HL); auto; [apply actb_iff in A1; tauto|apply lex_lt_le; apply actb_iff in A1; tauto|rewrite <- U1; apply on_seg_start]).
  assert (H2 : H (eb c2) (tl u) = cy u) by (apply (thr_iff ln n e V V' HT' HVV HV1 HL); auto; [apply actb_iff in A2; tauto|apply lex_lt_le; apply actb_iff in A2; tauto|rewrite <- U2; apply on_seg_start]).
  assert (H3 : H (eb c1) (tl (ez c1)) = cy (ez c1)) by (apply (thr_iff ln n e V V' HT' HVV HV1 HL); auto; [apply lex_lt_le, (e_lt ln n HL); auto|apply lex_le_refl|apply on_seg_end]).
  pose proof (H_diff e (eb c2) (eb c1) (tl u) (tl (ez c1))) as HD. rewrite H1, H2, H3 in HD.
  assert (Cr : cross (ez c1) u (ez c2) = cross (ea c2) (ez c2) (ez c1)) by (rewrite U2; unfold cross; ring).
  pose proof (P_OpSide.pos_H ln n e V V' HT' HVV HV1 HL c2 (ez c1) L2) as PH. pose proof (P_OpSide.neg_H ln n e V V' HT' HVV HV1 HL c2 (ez c1) L2) as NH. rewrite <- Cr in PH, NH.
  unfold ccw. rewrite W. unfold P_OpLab.lek.
  assert (Kl : K (tl u) (eb c1) (eb c2) = Lt -> (cross (ez c1) u (ez c2) < 0)%Qc).
  { intros Z. apply K_lt_iff in Z as [Z|[_ Z]]; [rewrite H1, H2 in Z; destruct (Qclt_not_eq _ _ Z eq_refl)|]. apply NH. clear - Z HD Tla. assert (P : (0 < (tl (ez c1) - tl u) * (P_Order.S e (eb c2) - P_Order.S e (eb c1)))%Qc) by (apply pos_mul; qcl). qcl. }
  assert (Kg : K (tl u) (eb c1) (eb c2) = Gt -> (0 < cross (ez c1) u (ez c2))%Qc).
  { intros Z. apply K_gt_iff, K_lt_iff in Z as [Z|[_ Z]]; [rewrite H1, H2 in Z; destruct (Qclt_not_eq _ _ Z eq_refl)|]. apply PH. clear - Z HD Tla. assert (P : (0 < (tl (ez c1) - tl u) * (P_Order.S e (eb c1) - P_Order.S e (eb c2)))%Qc) by (apply pos_mul; qcl). qcl. }
  destruct (K (tl u) (eb c1) (eb c2)) eqn:Ek; [congruence| |].
  - specialize (Kl eq_refl). destruct (orient2d_spec (ez c1) u (ez c2)) as [Z|Z|Z]; [exfalso; qcl|split; [discriminate|reflexivity]|exfalso; rewrite Z in Kl; qcl].
  - specialize (Kg eq_refl). destruct (orient2d_spec (ez c1) u (ez c2)) as [Z|Z|Z]; [split; [discriminate|reflexivity]|exfalso; qcl|exfalso; rewrite Z in Kg; qcl].
Qed.

(** The inside of a ring is on the left hand side of its edges if it runs
    counter-clockwise. *)
Theorem own_side : forall c, c < n -> ls_winding_order (coords (rc c)) <> None /\ side (fsr (rc c)) c = Bool.eqb (dirf c) (ccw (rc c)).
Proof.
  intros c L. destruct (least_ex (rc c) (Rc c L)) as (u & c1 & c2 & Le). destruct (least_side _ _ _ _ Le) as [Nn Sd]. split; auto.
  assert (Q : xorb (side (fsr (rc c)) c) (dirf c) = xorb (side (fsr (rc c)) c2) (dirf c2)).
  { apply (ring_const (fun c' => xorb (side (fsr (rc c)) c') (dirf c')) (rc c)); auto; [|apply Le|apply Le]. intros k1 k2 a x b L1 L2 R1 R2 T1 T2.
    pose proof (own_step k1 k2 a x b L1 L2) as St. rewrite R1 in St. apply St; auto. }
  rewrite Sd, (le_d2 _ _ _ _ Le) in Q. destruct (side (fsr (rc c)) c), (dirf c), (ccw (rc c)); cbn in *; congruence.
Qed.

(** ** Rings around rings *)
Definition disjoint : Prop := forall c c' u, c < n -> c' < n -> rc c <> rc c' -> ea c = u \/ ez c = u -> ea c' = u \/ ez c' = u -> False.
Definition around (R R' : nat) : bool :=
  if R =? R' then false else match find (fun c => rc c =? R) (seq 0 n) with Some c => side (fsr R') c | None => false end.
Lemma around_self : forall R, around R R = false.
Proof. intros R. unfold around. rewrite Nat.eqb_refl. reflexivity. Qed.
Section Disjoint.
Hypothesis Dj : disjoint.
Lemma other_at : forall c u R', c < n -> ea c = u \/ ez c = u -> R' <> rc c -> side (fsr R') c = par (fsr R') n true (under u).
Proof.
  intros c u R' L Q N.
  assert (Z : forall g, (forall c', c' < n -> rc c' = R' -> g c' = true -> ea c' = u \/ ez c' = u) -> par (fsr R') n true g = false).
  { intros g G. apply odd_none. intros c' I. apply in_seq in I. destruct (Nat.eqb_spec (rc c') R') as [Q'|Q']; [|reflexivity]. cbn [Bool.eqb andb].
    destruct (g c') eqn:Gc; auto. exfalso. apply (Dj c c' u); auto; [lia|congruence|]. apply G; auto. lia. }
  destruct Q as [Q|Q].
  - rewrite (vstart (fsr R') u c L Q), (Z (fun c' => peqb (ea c') u && lek u c' c)), xorb_false_r; auto.
    intros c' _ _ I. apply andb_true_iff in I as [I _]. apply peqb_iff in I. auto.
  - assert (Vu : In u V) by (rewrite <- Q; apply (eV ln n V HV1 HL); auto). destruct (pred_u u Vu) as (p & Vp & Lp & NV).
    rewrite (vend (fsr R') (HBr R') p u c L Q Vp Lp NV), (Z (fun c' => peqb (ez c') u && lek p c' c)), xorb_false_r; auto.
    intros c' _ _ I. apply andb_true_iff in I as [I _]. apply peqb_iff in I. auto.
Qed.
Lemma around_side : forall c R', c < n -> R' <> rc c -> side (fsr R') c = around (rc c) R'.
Proof.
  intros c R' L N. unfold around. destruct (Nat.eqb_spec (rc c) R') as [Q|_]; [congruence|].
  destruct (find (fun c' => rc c' =? rc c) (seq 0 n)) as [c'|] eqn:F.
  - apply find_some in F as [F1 F2]. apply in_seq in F1. apply Nat.eqb_eq in F2.
    apply (ring_const (side (fsr R')) (rc c)); auto; [|lia]. intros c1 c2 a u b L1 L2 R1 R2 T1 T2.
    rewrite (other_at c1 u R'), (other_at c2 u R'); auto; try congruence.
    + destruct (Geo c2 L2) as [Z|Z]; rewrite T2 in Z; injection Z as -> ->; auto.
    + destruct (Geo c1 L1) as [Z|Z]; rewrite T1 in Z; injection Z as -> ->; auto.
  - exfalso. assert (Ic : In c (seq 0 n)) by (apply in_seq; lia). pose proof (find_none _ _ F c Ic) as Z. cbv beta in Z. rewrite Nat.eqb_refl in Z. discriminate.
Qed.
Lemma around_under : forall c u R', c < n -> ea c = u \/ ez c = u -> R' <> rc c -> par (fsr R') n true (under u) = around (rc c) R'.
Proof. intros c u R' L Q N. rewrite <- (other_at c u R' L Q N). apply around_side; auto. Qed.
(** The ring around another one begins first. *)
Lemma around_least : forall R R' u c1 c2, least R u c1 c2 -> around R R' = true -> exists c', c' < n /\ rc c' = R' /\ lex_lt (ea c') u.
Proof.
  intros R R' u c1 c2 Le A. assert (N : R' <> R) by (intros ->; rewrite around_self in A; discriminate).
  rewrite <- (le_r2 _ _ _ _ Le) in A, N. rewrite <- (around_under c2 u R') in A; [|apply Le|left; apply Le|exact N].
  destruct (existsb (fun c' => (rc c' =? R') && under u c') (seq 0 n)) eqn:Ex.
  - apply existsb_exists in Ex as (c' & I & Z). apply in_seq in I. apply andb_true_iff in Z as [Z1 Z2]. apply Nat.eqb_eq in Z1. exists c'. split; [lia|]. split; auto.
    assert (Vu : In u V) by (rewrite <- (le_u2 _ _ _ _ Le); apply (eV ln n V HV1 HL); apply Le).
    pose proof (under_thr u c' ltac:(lia) Vu Z2) as NT. unfold P_OpStep.under in Z2. apply andb_true_iff in Z2 as [Z2 _]. apply actb_iff in Z2 as [Z2 _]. apply lex_le_neq; auto.
    intros Q. apply NT. rewrite <- Q. apply on_seg_start.
  - exfalso. assert (Z : par (fsr R') n true (under u) = false); [|congruence]. apply odd_none. intros c' I.
    destruct ((rc c' =? R') && under u c') eqn:Z; [|destruct (rc c' =? R'), (under u c'); try reflexivity; discriminate].
    assert (Z' : existsb (fun c' => (rc c' =? R') && under u c') (seq 0 n) = true) by (apply existsb_exists; eauto). congruence.
Qed.
Lemma around_lt : forall R R' u c1 c2 u' c1' c2', least R u c1 c2 -> least R' u' c1' c2' -> around R R' = true -> lex_lt u' u.
Proof.
  intros R R' u c1 c2 u' c1' c2' Le Le' A. destruct (around_least _ _ _ _ _ Le A) as (c' & L & Q & Z). pose proof (le_min _ _ _ _ Le' c' L Q). lord.
Qed.
Lemma around_anti : forall R R', R <> R' -> R < List.length rs -> R' < List.length rs -> around R R' = true -> around R' R = true -> False.
Proof.
  intros R R' N L L' A A'. destruct (least_ex R L) as (u & c1 & c2 & Le). destruct (least_ex R' L') as (u' & c1' & c2' & Le').
  pose proof (around_lt _ _ _ _ _ _ _ _ Le Le' A). pose proof (around_lt _ _ _ _ _ _ _ _ Le' Le A'). lord.
Qed.
End Disjoint.

(** ** A point of the plane *)
Lemma under_above : forall q c, c < n -> under q c = above (ea c) (ez c) q.
Proof.
  intros q c L. pose proof (above_H ln n e V V' HT' HVV HV1 HL q c L) as A. unfold P_OpStep.under. destruct (above (ea c) (ez c) q) eqn:Q.
  - destruct A as [A _]. destruct (A eq_refl) as [Q1 Q2]. rewrite Q1. apply qltb_iff in Q2. rewrite Q2. reflexivity.
  - destruct (actb q c) eqn:Z; [|reflexivity]. cbn [andb]. destruct (qltb (H (eb c) (tl q)) (cy q)) eqn:Z2; auto. apply qltb_iff in Z2. assert (Z3 : false = true) by (apply A; auto). discriminate.
Qed.
Lemma q_top : forall q, In q V' -> (forall c, c < n -> under q c = false) \/
  exists c, c < n /\ under q c = true /\ forall fs, (forall b (g : pt -> bool), par fs n b (fun c => xorb (g (ea c)) (g (ez c))) = false) ->
    par fs n true (under q) = side fs c.
Proof.
  intros q Vq. destruct (existsb (under q) (seq 0 n)) eqn:Ex.
  - right. apply existsb_exists in Ex as (c0 & I & U0). apply in_seq in I. destruct (top ln n e q (under q)) as (c & L & U & Mx); [exists c0; split; [lia|auto]|].
    exists c. split; auto. split; auto. intros fs HB. pose proof U as U'. unfold P_OpStep.under in U'. apply andb_true_iff in U' as [A Hc]. apply qltb_iff in Hc.
    rewrite <- (side_at fs HB q c L Vq A). apply par_ext. intros c' L'. unfold P_OpLab.upto, P_OpLab.lek. specialize (Mx c' L').
    destruct (under q c') eqn:U1.
    + specialize (Mx eq_refl). unfold P_OpStep.under in U1. apply andb_true_iff in U1 as [A1 _]. rewrite A1. destruct (K (tl q) (eb c') (eb c)); [reflexivity|reflexivity|congruence].
    + unfold P_OpStep.under in U1. destruct (actb q c'); [|reflexivity]. cbn [andb] in *. destruct (K (tl q) (eb c') (eb c)) eqn:Ek; auto; exfalso.
      * apply K_eq_iff in Ek as [Ek _]. rewrite <- Ek in Hc. apply qltb_iff in Hc. congruence.
      * apply K_le in Ek. assert (Z : (H (eb c') (tl q) < cy q)%Qc) by qcl. apply qltb_iff in Z. congruence.
  - left. intros c L. destruct (under q c) eqn:U; auto. assert (Z : existsb (under q) (seq 0 n) = true) by (apply existsb_exists; exists c; split; [apply in_seq; lia|auto]). congruence.
Qed.
(** The parity above an edge, seen from a point that is visible from it. *)
Lemma side_by : forall fs, (forall b (g : pt -> bool), par fs n b (fun c => xorb (g (ea c)) (g (ez c))) = false) ->
  forall c m q, c < n -> In m V' -> ~ In m V -> thr m c -> (forall r, on_seg m q r -> r <> m -> forall c, c < n -> ~ thr r c) ->
  (0 < cross (ea c) (ez c) q)%Qc -> side fs c = par fs n true (fun c => above (ea c) (ez c) q).
Proof.
  intros fs HB c m q L Vm Nm T Vi Cr.
  assert (A : actb m c = true).
  { destruct (thr_between ln n HL m c L T) as [A1 A2]. apply actb_iff. split; auto. apply lex_le_neq; auto. intros ->. apply Nm. apply (eV ln n V HV1 HL); auto. }
  rewrite <- (side_at fs HB m c L Vm A).
  rewrite (lab_inv n Union fs _ _ (lab_Fm ln n e V V' HT' HVV HV1 HV2 HL Union fs m Vm Nm c L T)).
  rewrite <- (lab_inv n Union fs _ _ (lab_seen ln n V V' HV1 HL Union fs HB m Vm Nm q c T Vi)).
  apply par_ext. intros c' L'. symmetry. apply (seen_up ln n e V V' HT' HVV HV1 HV2 HL m Vm Nm q c L T Cr); auto.
Qed.
End Vertex.
