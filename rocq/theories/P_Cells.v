(** The area of a region in a rectangle, from its directed boundary. *)
Require Import List Bool Arith Lia Sorted Permutation.
From Verif Require Import Base Scalar M_Events M_Geo M_MonoPoly S_Geo P_Geo S_Mono P_Mono Props_Mono S_Raster P_RasterArea M_Rings S_Op S_Chains S_Cells P_MonoAbove P_OpLab P_OpPoly.
Import ListNotations.
Local Open Scope list_scope.
Local Open Scope Qc_scope.
Local Notation sum := S_Mono.sum.

(** ** The area above 0 of a straight line *)
Definition pos (u : Qc) : Qc := if qleb 0 u then u else 0.
Lemma pos_case : forall u, (0 <= u /\ pos u = u) \/ (u <= 0 /\ pos u = 0).
Proof. intros u. unfold pos. destruct (qleb 0 u) eqn:E; [left; apply qleb_iff in E; auto|right; split; auto]. apply Qcnot_lt_le. intros L. apply Qclt_le_weak, qleb_iff in L. congruence. Qed.
Ltac nz := repeat split; first [assumption|discriminate|let Z := fresh in intros Z; match goal with H : _ <> _ |- _ => apply H; qcl end].
Lemma aa_ne : forall w u v, u <> v -> area_above_0 w u v = w * (pos v * pos v - pos u * pos u) / ((1 + 1) * (v - u)).
Proof.
  intros w u v N. assert (N1 : v - u <> 0) by (intros Q; apply N; symmetry; qcl). assert (N2 : u - v <> 0) by (intros Q; apply N; qcl).
  destruct (pos_case u) as [[U ->]|[U ->]], (pos_case v) as [[V ->]|[V ->]].
  - rewrite aa_pos by auto. field; nz.
  - destruct (Qc_eq_dec v 0) as [Q|Q]; [rewrite aa_pos by (rewrite ?Q; auto using Qcle_refl); rewrite Q in *; field; nz|]. destruct (Qc_eq_dec u 0) as [Q'|Q']; [rewrite aa_neg by (rewrite ?Q'; auto using Qcle_refl); rewrite Q' in *; field; nz|].
    unfold area_above_0. destruct (qcmp_spec u 0) as [A|A|A]; [contradiction|exfalso; qcl|]. destruct (qcmp_spec v 0) as [B|B|B]; [contradiction| |exfalso; qcl]. field; nz.
  - destruct (Qc_eq_dec v 0) as [Q|Q]; [rewrite aa_neg by (rewrite ?Q; auto using Qcle_refl); rewrite Q in *; field; nz|]. destruct (Qc_eq_dec u 0) as [Q'|Q']; [rewrite aa_pos by (rewrite ?Q'; auto using Qcle_refl); rewrite Q' in *; field; nz|].
    unfold area_above_0. destruct (qcmp_spec u 0) as [A|A|A]; [contradiction| |exfalso; qcl]. destruct (qcmp_spec v 0) as [B|B|B]; [contradiction|exfalso; qcl|]. field; nz.
  - rewrite aa_neg by auto. field; nz.
Qed.
Lemma aa_eq : forall w u, area_above_0 w u u = w * pos u.
Proof. intros w u. destruct (pos_case u) as [[U ->]|[U ->]]; [rewrite aa_pos by auto; field; discriminate|rewrite aa_neg by auto; ring]. Qed.
Definition Phi (al be x : Qc) : Qc := if qeqb be 0 then x * pos al else pos (al + be * x) * pos (al + be * x) / ((1 + 1) * be).
Lemma qeqb_dec : forall a b, (qeqb a b = true /\ a = b) \/ (qeqb a b = false /\ a <> b).
Proof. intros a b. destruct (qeqb a b) eqn:E; [left; apply qeqb_iff in E; auto|right; split; auto; intros Q; apply qeqb_iff in Q; congruence]. Qed.
Lemma aa_phi : forall al be l r, area_above_0 (r - l) (al + be * l) (al + be * r) = Phi al be r - Phi al be l.
Proof.
  intros al be l r. unfold Phi. destruct (qeqb_dec be 0) as [[-> B]|[-> B]].
  - subst be. replace (al + 0 * l) with al by ring. replace (al + 0 * r) with al by ring. rewrite aa_eq. ring.
  - destruct (Qc_eq_dec l r) as [E|N]; [subst r; rewrite aa_eq; field; split; [auto|discriminate]|].
    assert (N' : r - l <> 0) by (intros Q; apply N; symmetry; qcl).
    assert (K : (al + be * r) - (al + be * l) = be * (r - l)) by ring. rewrite aa_ne.
    + rewrite K. field. repeat split; auto; discriminate.
    + intros Q. assert (Z : be * (r - l) = 0) by (rewrite <- K, Q; ring). apply Qcmult_integral in Z. tauto.
Qed.

(** ** Edges that run to the right *)
Definition cl (x1 x2 x : Qc) : Qc := qmax x1 (qmin x x2).
Definition slope (e : pt * pt) : Qc := (cy (snd e) - cy (fst e)) / (cx (snd e) - cx (fst e)).
Definition ephi (c : Qc) (e : pt * pt) (x : Qc) : Qc := Phi (c - cy (fst e) + slope e * cx (fst e)) (- slope e) x.
Lemma ephi_ok : forall c (e : pt * pt) l r, area_above_0 (r - l) (c - height_at e l) (c - height_at e r) = ephi c e r - ephi c e l.
Proof.
  intros c e l r. unfold ephi. rewrite <- aa_phi. unfold height_at, slope.
  f_equal; unfold Qcdiv; ring.
Qed.
Lemma qmin_case : forall a b, (a <= b /\ qmin a b = a) \/ (b <= a /\ qmin a b = b).
Proof. intros a b. unfold qmin. destruct (qleb a b) eqn:E; [left; apply qleb_iff in E; auto|right; split; auto]. apply Qcnot_lt_le. intros L. apply Qclt_le_weak, qleb_iff in L. congruence. Qed.
Lemma qmax_case : forall a b, (a <= b /\ qmax a b = b) \/ (b <= a /\ qmax a b = a).
Proof. intros a b. unfold qmax. destruct (qleb a b) eqn:E; [left; apply qleb_iff in E; auto|right; split; auto]. apply Qcnot_lt_le. intros L. apply Qclt_le_weak, qleb_iff in L. congruence. Qed.
Lemma qltb_case : forall a b, (a < b /\ qltb a b = true) \/ (b <= a /\ qltb a b = false).
Proof. intros a b. destruct (qltb a b) eqn:E; [left; apply qltb_iff in E; auto|right; split; auto]. apply Qcnot_lt_le. intros L. apply qltb_iff in L. congruence. Qed.
Lemma cl_case : forall x1 x2 x, x1 <= x2 -> (x <= x1 /\ cl x1 x2 x = x1) \/ (x1 <= x /\ x <= x2 /\ cl x1 x2 x = x) \/ (x2 <= x /\ cl x1 x2 x = x2).
Proof.
  intros x1 x2 x L. unfold cl. destruct (qmin_case x x2) as [[A ->]|[A ->]].
  - destruct (qmax_case x1 x) as [[B ->]|[B ->]]; auto.
  - destruct (qmax_case x1 x2) as [[B ->]|[B ->]]; auto. right. right. split; auto. apply Qcle_antisym; auto.
Qed.
Lemma over_phi : forall a b c (e : pt * pt), a <= b -> cx (fst e) <= cx (snd e) ->
  over_edge a b c e = ephi c e (cl (cx (fst e)) (cx (snd e)) b) - ephi c e (cl (cx (fst e)) (cx (snd e)) a).
Proof.
  intros a b c e L X. unfold over_edge. cbv zeta. set (x1 := cx (fst e)) in *. set (x2 := cx (snd e)) in *.
  destruct (qltb_case (qmax a x1) (qmin b x2)) as [[K ->]|[K ->]].
  - assert (E1 : cl x1 x2 a = qmax a x1) by (destruct (cl_case x1 x2 a X) as [[A ->]|[[A [A' ->]]|[A ->]]], (qmax_case a x1) as [[B E]|[B E]], (qmin_case b x2) as [[C F]|[C F]]; rewrite E, F in *; try reflexivity; try (apply Qcle_antisym; auto; fail); exfalso; qcl).
    assert (E2 : cl x1 x2 b = qmin b x2) by (destruct (cl_case x1 x2 b X) as [[A ->]|[[A [A' ->]]|[A ->]]], (qmax_case a x1) as [[B E]|[B E]], (qmin_case b x2) as [[C F]|[C F]]; rewrite E, F in *; try reflexivity; try (apply Qcle_antisym; auto; fail); exfalso; qcl).
    rewrite E1, E2. apply ephi_ok.
  - assert (Q : cl x1 x2 a = cl x1 x2 b).
    { destruct (cl_case x1 x2 a X) as [[A ->]|[[A [A' ->]]|[A ->]]], (cl_case x1 x2 b X) as [[A0 ->]|[[A0 [A0' ->]]|[A0 ->]]], (qmax_case a x1) as [[B E]|[B E]], (qmin_case b x2) as [[C F]|[C F]]; rewrite E, F in *; try reflexivity; apply Qcle_antisym; qcl. }
    rewrite Q. ring.
Qed.
Lemma over_cut : forall a m b c (e : pt * pt), a <= m -> m <= b -> cx (fst e) <= cx (snd e) -> over_edge a b c e = over_edge a m c e + over_edge m b c e.
Proof. intros a m b c e L1 L2 X. rewrite !over_phi by (auto; apply Qcle_trans with m; auto). ring. Qed.
Lemma over_nil : forall a c (e : pt * pt), over_edge a a c e = 0.
Proof. intros a c e. unfold over_edge. cbv zeta. destruct (qltb_case (qmax a (cx (fst e))) (qmin a (cx (snd e)))) as [[K ->]|[K ->]]; auto. exfalso. destruct (qmax_case a (cx (fst e))) as [[B E]|[B E]], (qmin_case a (cx (snd e))) as [[C F]|[C F]]; rewrite E, F in *; qcl. Qed.
Lemma over_out : forall a b c (e : pt * pt), a <= b -> cx (fst e) <= cx (snd e) -> cx (snd e) <= a \/ b <= cx (fst e) -> over_edge a b c e = 0.
Proof.
  intros a b c e L X O. rewrite over_phi by auto. set (x1 := cx (fst e)) in *. set (x2 := cx (snd e)) in *.
  assert (Q : cl x1 x2 a = cl x1 x2 b). { destruct (cl_case x1 x2 a X) as [[A ->]|[[A [A' ->]]|[A ->]]], (cl_case x1 x2 b X) as [[A0 ->]|[[A0 [A0' ->]]|[A0 ->]]]; try reflexivity; destruct O; apply Qcle_antisym; qcl. }
  rewrite Q. ring.
Qed.
Lemma over_in : forall a b c (e : pt * pt), a <= b -> cx (fst e) <= a -> b <= cx (snd e) -> over_edge a b c e = area_above_0 (b - a) (c - height_at e a) (c - height_at e b).
Proof.
  intros a b c e L X1 X2. rewrite over_phi, ephi_ok by (auto; apply Qcle_trans with a; auto; apply Qcle_trans with b; auto). set (x1 := cx (fst e)) in *. set (x2 := cx (snd e)) in *.
  assert (X : x1 <= x2) by (apply Qcle_trans with a; auto; apply Qcle_trans with b; auto).
  replace (cl x1 x2 a) with a by (destruct (cl_case x1 x2 a X) as [[A ->]|[[A [A' ->]]|[A ->]]]; apply Qcle_antisym; qcl).
  replace (cl x1 x2 b) with b by (destruct (cl_case x1 x2 b X) as [[A ->]|[[A [A' ->]]|[A ->]]]; apply Qcle_antisym; qcl). reflexivity.
Qed.

(** ** A chain scanned by trapezoids *)
Lemma on_height : forall a b r, cx a < cx b -> on_seg a b r -> cy r = height_at (a, b) (cx r).
Proof.
  intros a b r L (t & _ & _ & X & Y). unfold height_at. cbn [fst snd]. rewrite X, Y. assert (N : cx b - cx a <> 0) by (apply pos_ne; qcl). set (w := cx b - cx a) in *. set (h := cy b - cy a) in *. clearbody w h. field. auto.
Qed.
Lemma on_x : forall a b r, cx a <= cx b -> on_seg a b r -> cx a <= cx r /\ cx r <= cx b.
Proof. intros a b r L (t & T1 & T2 & X & _). rewrite X. set (w := cx b - cx a). assert (0 <= w) by (unfold w; qcl). replace (cx b) with (cx a + w) by (unfold w; ring). clearbody w. split; qc. Qed.
Lemma sum_split : forall {X} (f g : X -> Qc) l, sum (fun x => f x + g x) l = sum f l + sum g l.
Proof. intros X f g l. induction l as [|x l IH]; [cbn; ring|]. rewrite !sum_cons, IH. ring. Qed.
Lemma sum_same : forall {X} (f g : X -> Qc) l, (forall x, In x l -> f x = g x) -> sum f l = sum g l.
Proof. intros X f g l. induction l as [|x l IH]; intros E; auto. rewrite !sum_cons, IH by (intros; apply E; right; auto). rewrite (E x) by (left; auto). reflexivity. Qed.
Lemma sum_zero : forall {X} (f : X -> Qc) l, (forall x, In x l -> f x = 0) -> sum f l = 0.
Proof. intros X f l E. rewrite (sum_same f (fun _ => 0)) by auto. clear E. induction l as [|x l IH]; auto. rewrite sum_cons, IH. ring. Qed.
Lemma sum_one : forall {X} (f : X -> Qc) l x, NoDup l -> In x l -> (forall y, In y l -> y <> x -> f y = 0) -> sum f l = f x.
Proof.
  intros X f l x. induction l as [|y l IH]; intros Nd I E; [destruct I|]. inversion Nd as [|? ? N Nd']; subst. rewrite sum_cons. destruct I as [->|I].
  - rewrite sum_zero; [ring|]. intros z J. apply E; [right; auto|]. intros ->. contradiction.
  - rewrite IH; auto; [|intros; apply E; auto; right; auto]. rewrite (E y); [ring|left; auto|]. intros ->. contradiction.
Qed.
Lemma inc_nodup : forall l, increasing l -> NoDup (edges l).
Proof.
  induction l as [|a [|b l] IH]; intros I; [constructor|constructor|]. inversion I as [|? ? I' F]; subst. rewrite edges_cons. constructor; [|apply IH; auto].
  intros J. apply inc_edge with (1 := I') in J as L. rewrite Forall_forall in F. assert (K : lex_lt a a); [|apply (lex_lt_not_le _ _ K), lex_le_refl].
  apply F. apply edges_nth in J as (i & A & _). eapply nth_error_In; eauto.
Qed.
Lemma chain_step : forall l a b c r s, increasing l -> on_one_edge l r s -> cx r = a -> cx s = b -> a < b ->
  sum (over_edge a b c) (edges l) = area_above_0 (b - a) (c - cy r) (c - cy s).
Proof.
  intros l a b c r s I (p & q & J & O1 & O2) <- <- L. pose proof (lex_x _ _ (lex_lt_le _ _ (inc_edge l p q I J))) as X.
  destruct (on_x _ _ _ X O1) as [X1 X2]. destruct (on_x _ _ _ X O2) as [X3 X4]. assert (X' : cx p < cx q) by qcl.
  rewrite (sum_one _ _ (p, q)); auto using inc_nodup.
  - rewrite over_in by (auto using Qclt_le_weak). rewrite <- !on_height by auto. reflexivity.
  - intros [u v] K N. pose proof (lex_x _ _ (lex_lt_le _ _ (inc_edge l u v I K))) as Y. apply over_out; auto using Qclt_le_weak. cbn [fst snd].
    destruct (inc_order l u v p q I K J) as [Q|[Q|Q]]; [contradiction|left|right]; apply lex_x in Q; eapply Qcle_trans; eauto.
Qed.
Lemma chain_scan : forall l c (f : trip -> Qc) a b zs, increasing l -> gap_free a b zs ->
  Forall (fun z => on_one_edge l (mkC (t_x (z_left z)) (f (z_left z))) (mkC (t_x (z_right z)) (f (z_right z)))) zs ->
  a <= b /\ sum (over_edge a b c) (edges l) = sum (fun z => area_above_0 (t_x (z_right z) - t_x (z_left z)) (c - f (z_left z)) (c - f (z_right z))) zs.
Proof.
  intros l c f a b zs I G. induction G as [a|z a b zs K1 K2 G IH]; intros F.
  - split; [apply Qcle_refl|]. apply sum_zero. intros e _. apply over_nil.
  - inversion F as [|? ? F1 F2]; subst. destruct (IH F2) as [L E]. split; [apply Qclt_le_weak in K2; eapply Qcle_trans; eauto|]. rewrite sum_cons, <- E.
    pose proof (chain_step l (t_x (z_left z)) (t_x (z_right z)) c _ _ I F1 eq_refl eq_refl K2) as Q. cbn [cy] in Q. rewrite <- Q, <- sum_split. apply sum_same. intros [u v] J. apply over_cut; auto using Qclt_le_weak. cbn [fst snd]. apply lex_x, lex_lt_le, (inc_edge l); auto.
Qed.
(** Only the part of the strip that the chain spans matters. *)
Lemma chain_clamp : forall l p q a b c, increasing l -> starts_at l p -> ends_at l q -> a <= b ->
  sum (over_edge a b c) (edges l) = sum (over_edge (cl (cx p) (cx q) a) (cl (cx p) (cx q) b) c) (edges l).
Proof.
  intros l p q a b c I Sp Eq L. apply sum_same. intros [u v] J. pose proof (lex_x _ _ (lex_lt_le _ _ (inc_edge l u v I J))) as X.
  destruct (chain_bounds l p q u I Sp Eq) as [B1 _]; [exists u, v; split; auto; apply on_seg_start|]. destruct (chain_bounds l p q v I Sp Eq) as [_ B2]; [exists u, v; split; auto; apply on_seg_end|].
  apply lex_x in B1. apply lex_x in B2. assert (PQ : cx p <= cx q) by (eapply Qcle_trans; eauto; eapply Qcle_trans; eauto).
  rewrite !over_phi by (auto; cbn [fst snd]; auto; destruct (cl_case (cx p) (cx q) a PQ) as [[A ->]|[[A [A' ->]]|[A ->]]], (cl_case (cx p) (cx q) b PQ) as [[A0 ->]|[[A0 [A0' ->]]|[A0 ->]]]; qcl). cbn [fst snd].
  assert (K : forall x, cl (cx u) (cx v) (cl (cx p) (cx q) x) = cl (cx u) (cx v) x).
  { intros x. destruct (cl_case (cx p) (cx q) x PQ) as [[A ->]|[[A [A' ->]]|[A ->]]]; auto.
    - destruct (cl_case (cx u) (cx v) (cx p) X) as [[A1 ->]|[[A1 [A1' ->]]|[A1 ->]]], (cl_case (cx u) (cx v) x X) as [[A0 ->]|[[A0 [A0' ->]]|[A0 ->]]]; try reflexivity; apply Qcle_antisym; qcl.
    - destruct (cl_case (cx u) (cx v) (cx q) X) as [[A1 ->]|[[A1 [A1' ->]]|[A1 ->]]], (cl_case (cx u) (cx v) x X) as [[A0 ->]|[[A0 [A0' ->]]|[A0 ->]]]; try reflexivity; apply Qcle_antisym; qcl. }
  rewrite !K. reflexivity.
Qed.

(** ** Cutting intervals *)
Lemma refine : forall (B : list Qc) (phi : Qc -> Qc -> Prop),
  (forall a b, a < b -> (forall x, In x B -> ~ (a < x /\ x < b)) -> phi a b) ->
  (forall a m b, a < m -> m < b -> phi a m -> phi m b -> phi a b) -> forall a b, a < b -> phi a b.
Proof.
  intros B phi. induction B as [|x B IH]; intros Base Cat; [intros a b L; apply Base; auto|]. apply IH; auto. intros a b L O.
  destruct (Qclt_le_dec a x) as [L1|L1]; [destruct (Qclt_le_dec x b) as [L2|L2]|].
  - apply (Cat a x b); auto; apply Base; auto; intros y [<-|I] [Y1 Y2].
    + apply (Qclt_not_eq _ _ Y2); auto.
    + apply (O y I). split; auto. apply (Qclt_trans _ x); auto.
    + apply (Qclt_not_eq _ _ Y1); auto.
    + apply (O y I). split; auto. apply (Qclt_trans _ x); auto.
  - apply Base; auto. intros y [<-|I]; [intros [_ Y]; apply (Qclt_not_le _ _ Y); auto|auto].
  - apply Base; auto. intros y [<-|I]; [intros [Y _]; apply (Qclt_not_le _ _ Y); auto|auto].
Qed.
Lemma mid_ok : forall a b : Qc, a < b -> a < (a + b) / (1 + 1) /\ (a + b) / (1 + 1) < b.
Proof. intros a b L. assert (Z : (a + b) / (1 + 1) * (1 + 1) = a + b) by (field; discriminate). set (m := (a + b) / (1 + 1)) in *. clearbody m. split; qcl. Qed.

(** ** A directed boundary *)
Definition sgn (e : pt * pt) : Qc := if qleb (cx (fst e)) (cx (snd e)) then 1 else - (1).
Definition rightward (e : pt * pt) : pt * pt := if qleb (cx (fst e)) (cx (snd e)) then e else reversed e.
Lemma rightward_le : forall e, cx (fst (rightward e)) <= cx (snd (rightward e)).
Proof. intros [a b]. unfold rightward. cbn [fst snd]. destruct (qleb (cx a) (cx b)) eqn:E; [apply qleb_iff; auto|]. cbn. apply Qcnot_lt_le. intros L. apply Qclt_le_weak, qleb_iff in L. congruence. Qed.
Lemma signed_sgn : forall a b c e, signed_over a b c e = sgn e * over_edge a b c (rightward e).
Proof. intros a b c e. unfold signed_over, sgn, rightward. destruct (qleb _ _); ring. Qed.
Definition b2q (b : bool) : Qc := if b then 1 else 0.
Section Boundary.
Variable es : list (pt * pt).
(** How often the boundary runs around [q]. *)
Definition wind (q : pt) : Qc := sum (fun e => sgn e * b2q (ray_crosses q e)) es.
Definition part (a b c d : Qc) : Qc := sum (fun e => signed_over a b d e - signed_over a b c e) es.
Lemma part_cut_x : forall a m b c d, a <= m -> m <= b -> part a b c d = part a m c d + part m b c d.
Proof. intros a m b c d L1 L2. unfold part. rewrite <- sum_split. apply sum_same. intros e _. rewrite !signed_sgn, !(over_cut a m b) by (auto; apply rightward_le). ring. Qed.
Lemma part_cut_y : forall a b c m d, part a b c d = part a b c m + part a b m d.
Proof. intros a b c m d. unfold part. rewrite <- sum_split. apply sum_same. intros e _. ring. Qed.

(** Lengths on a vertical line. *)
Definition spans (x : Qc) (e : pt * pt) : bool := qltb (cx (fst (rightward e))) x && qltb x (cx (snd (rightward e))).
Definition len (x c : Qc) : Qc := sum (fun e => sgn e * (b2q (spans x e) * pos (c - height_at (rightward e) x))) es.
Lemma ray_span : forall x y e, cx (fst e) <> x -> cx (snd e) <> x -> ray_crosses (mkC x y) e = spans x e && qltb (height_at (rightward e) x) y.
Proof.
  intros x y e N1 N2.
  assert (K : forall a b : pt, cx a <= cx b -> cx a <> x -> cx b <> x -> ray_crosses (mkC x y) (a, b) = qltb (cx a) x && qltb x (cx b) && qltb (height_at (a, b) x) y).
  { intros a b L M1 M2. unfold ray_crosses. cbn [cx fst snd].
    destruct (qltb_case (cx a) x) as [[A ->]|[A ->]]; [replace (qleb (cx a) x) with true by (symmetry; apply qleb_iff; apply Qclt_le_weak; auto)|].
    - destruct (qltb_case x (cx b)) as [[B ->]|[B ->]]; cbn [andb].
      + assert (N : cx b - cx a <> 0) by (apply pos_ne; qcl).
        assert (Z : cross a b (mkC x y) = (cx b - cx a) * (y - height_at (a, b) x)) by (unfold cross, height_at; cbn [cx cy fst snd]; field; auto). rewrite Z. set (h := height_at (a, b) x). clearbody h.
        destruct (qltb_case h y) as [[C ->]|[C ->]].
        * apply qltb_iff. assert (0 < cx b - cx a) by qcl. assert (0 < y - h) by qcl. set (u := cx b - cx a) in *. set (v := y - h) in *. clearbody u v. clear - H H0. qc.
        * apply not_true_iff_false. intros Q. apply qltb_iff in Q. assert (0 < cx b - cx a) by qcl. assert (y - h <= 0) by qcl. set (u := cx b - cx a) in *. set (v := y - h) in *. clearbody u v. clear - H H0 Q. qc.
      + replace (qltb x (cx a)) with false; [rewrite andb_false_r; reflexivity|]. symmetry. apply not_true_iff_false. intros Q. apply qltb_iff in Q. qcl.
    - replace (qleb (cx a) x) with false. 2:{ symmetry. apply not_true_iff_false. intros Q. apply qleb_iff in Q. apply M1. apply Qcle_antisym; auto. }
      cbn [andb]. replace (qleb (cx b) x) with false; [reflexivity|]. symmetry. apply not_true_iff_false. intros Q. apply qleb_iff in Q. apply M1. apply Qcle_antisym; auto. apply Qcle_trans with (cx b); auto. }
  destruct e as [a b]. unfold spans, rightward. cbn [fst snd] in *. destruct (qleb (cx a) (cx b)) eqn:E; cbn [reversed fst snd].
  - apply K; auto. apply qleb_iff; auto.
  - rewrite <- K; auto. { apply ray_sym. } apply Qcnot_lt_le. intros L. apply Qclt_le_weak, qleb_iff in L. congruence.
Qed.
Hypothesis W01 : forall q, wind q = 0 \/ wind q = 1.
(** On a vertical line without vertices. *)
Lemma len_ok : forall x, (forall e, In e es -> cx (fst e) <> x /\ cx (snd e) <> x) -> forall c d, c < d ->
  0 <= len x d - len x c /\ len x d - len x c <= d - c /\
  ((forall y, c < y -> y < d -> wind (mkC x y) = 0) -> len x d - len x c = 0) /\
  ((forall y, c < y -> y < d -> wind (mkC x y) = 1) -> len x d - len x c = d - c).
Proof.
  intros x Nv. apply (refine (map (fun e => height_at (rightward e) x) es)).
  - intros c d L O. destruct (mid_ok c d L) as [M1 M2]. set (y := (c + d) / (1 + 1)) in *. clearbody y.
    assert (E : len x d - len x c = (d - c) * wind (mkC x y)).
    { unfold len, wind. transitivity (sum (fun e => (d - c) * (sgn e * b2q (ray_crosses (mkC x y) e))) es).
      - assert (S1 : forall f g : pt * pt -> Qc, sum f es - sum g es = sum (fun e => f e - g e) es) by (intros f g; clear; induction es as [|e l IH]; [cbn; ring|]; rewrite !sum_cons, <- IH; ring).
        rewrite S1. apply sum_same. intros e I. destruct (Nv e I) as [N1 N2]. rewrite (ray_span x y e N1 N2). assert (O' := O (height_at (rightward e) x) (in_map _ _ _ I)). set (h := height_at (rightward e) x) in *. clearbody h.
        destruct (spans x e); cbn [b2q andb]; [|ring]. destruct (qltb_case h y) as [[C ->]|[C ->]]; cbn [b2q].
        + assert (h <= c) by (apply Qcnot_lt_le; intros Z; apply O'; split; auto; apply (Qclt_trans _ y); auto). destruct (pos_case (d - h)) as [[P1 ->]|[P1 ->]]; [|exfalso; qcl]. destruct (pos_case (c - h)) as [[P2 ->]|[P2 ->]]; [ring|]. assert (c = h) by (apply Qcle_antisym; auto; qcl). subst h. ring.
        + assert (d <= h) by (apply Qcnot_lt_le; intros Z; apply O'; split; auto; apply (Qclt_le_trans _ y); auto). destruct (pos_case (c - h)) as [[P2 ->]|[P2 ->]]; [exfalso; qcl|]. destruct (pos_case (d - h)) as [[P1 ->]|[P1 ->]]; [|ring]. assert (d = h) by (apply Qcle_antisym; auto; qcl). subst h. ring.
      - clear. induction es as [|e l IH]; [cbn; ring|]. rewrite !sum_cons, IH. ring. }
    rewrite E. split; [destruct (W01 (mkC x y)) as [-> | ->]; qcl|]. split; [destruct (W01 (mkC x y)) as [-> | ->]; qcl|]. split; intros A; rewrite (A y M1 M2); ring.
  - intros c m d L1 L2 (A1 & A2 & A3 & A4) (B1 & B2 & B3 & B4). assert (Z : len x d - len x c = (len x m - len x c) + (len x d - len x m)) by ring. rewrite Z. split; [qcl|]. split; [qcl|]. split; intros H.
    + rewrite A3, B3; [ring| |]; intros y Y1 Y2; apply H; auto; first [apply (Qclt_trans _ m); auto; fail | auto].
    + rewrite A4, B4; [ring| |]; intros y Y1 Y2; apply H; auto; first [apply (Qclt_trans _ m); auto; fail | auto].
Qed.
(** The area of a strip without vertices and without crossings of the lines at [c] and [d]. *)
Lemma strip_over : forall a b c e, a < b -> (forall x, x = cx (fst e) \/ x = cx (snd e) -> ~ (a < x /\ x < b)) ->
  (forall x, a < x -> x < b -> cx (fst (rightward e)) <> cx (snd (rightward e)) -> height_at (rightward e) x = c -> height_at (rightward e) a = c /\ height_at (rightward e) b = c) ->
  signed_over a b c e = (b - a) * (sgn e * (b2q (spans ((a + b) / (1 + 1)) e) * pos (c - height_at (rightward e) ((a + b) / (1 + 1))))).
Proof.
  intros a b c e L Nv Nc. rewrite signed_sgn. destruct (mid_ok a b L) as [M1 M2].
  assert (Nv' : forall x, x = cx (fst (rightward e)) \/ x = cx (snd (rightward e)) -> ~ (a < x /\ x < b)) by (intros x Hx; apply Nv; unfold rightward in Hx; destruct (qleb _ _); auto; cbn in Hx; tauto).
  pose proof (rightward_le e) as X. unfold spans. set (g := rightward e) in *. clearbody g. set (m := (a + b) / (1 + 1)) in *.
  destruct (qltb_case (cx (fst g)) m) as [[A ->]|[A ->]]; [destruct (qltb_case m (cx (snd g))) as [[B ->]|[B ->]]|]; cbn [andb b2q].
  - assert (A' : cx (fst g) <= a) by (apply Qcnot_lt_le; intros Z; apply (Nv' (cx (fst g))); auto; split; auto; apply (Qclt_trans _ m); auto).
    assert (B' : b <= cx (snd g)) by (apply Qcnot_lt_le; intros Z; apply (Nv' (cx (snd g))); auto; split; auto; apply (Qclt_trans _ m); auto).
    rewrite over_in by (auto using Qclt_le_weak). assert (Nx : cx (fst g) <> cx (snd g)) by (intros Q; rewrite Q in A'; qcl).
    assert (Nx' : cx (snd g) - cx (fst g) <> 0) by (intros Q; apply Nx; symmetry; qcl).
    assert (Hm : height_at g m = (height_at g a + height_at g b) / (1 + 1)) by (unfold height_at, m; field; split; [auto|discriminate]).
    assert (HL : forall x, height_at g x = height_at g a + (x - a) / (b - a) * (height_at g b - height_at g a)) by (intros x; unfold height_at; field; split; [auto|apply pos_ne; qcl]).
    assert (Lm : forall x, a < x -> x < b -> 0 < (x - a) / (b - a) /\ (x - a) / (b - a) < 1).
    { intros x X1 X2. assert (Z : (x - a) / (b - a) * (b - a) = x - a) by (apply div_mul, pos_ne; qcl). set (t := (x - a) / (b - a)) in *. clearbody t. clear - Z X1 X2 L. split; apply Qcnot_le_lt; intros K; qc. }
    rewrite Hm. set (u := height_at g a) in *. set (v := height_at g b) in *.
    destruct (Qclt_le_dec u c) as [U|U], (Qclt_le_dec v c) as [V|V].
    + rewrite aa_pos by (apply Qclt_le_weak; qcl). destruct (pos_case (c - (u + v) / (1 + 1))) as [[P ->]|[P ->]]; [field; discriminate|].
      exfalso. assert (Z : (u + v) / (1 + 1) * (1 + 1) = u + v) by (field; discriminate). set (h := (u + v) / (1 + 1)) in *. clearbody h u v. clear - Z P U V. qcl.
    + destruct (Qc_eq_dec v c) as [Ev|Ev].
      * assert (Z : (u + v) / (1 + 1) * (1 + 1) = u + v) by (field; discriminate). rewrite aa_pos by (clear - U Ev; qcl). destruct (pos_case (c - (u + v) / (1 + 1))) as [[P ->]|[P ->]]; [field; discriminate|]. exfalso. set (h := (u + v) / (1 + 1)) in *. clearbody h u v. clear - Z P U Ev. qcl.
      * exfalso. set (x := a + (c - u) / (v - u) * (b - a)). assert (Dv : v - u <> 0) by (apply pos_ne; clear - U V; qcl). assert (Z : (c - u) / (v - u) * (v - u) = c - u) by (apply div_mul; auto).
        assert (V' : c < v) by (apply Qcle_lt_or_eq in V as [V|V]; auto; congruence).
        assert (T : 0 < (c - u) / (v - u) /\ (c - u) / (v - u) < 1) by (set (t := (c - u) / (v - u)) in *; clearbody t u v; clear - Z U V'; split; apply Qcnot_le_lt; intros K; qc).
        destruct T as [T1 T2]. set (t := (c - u) / (v - u)) in *. destruct (Nc x) as [K1 K2]; auto.
        -- unfold x. clearbody t. clear - T1 L. qc.
        -- unfold x. clearbody t. clear - T2 L. qc.
        -- rewrite HL. unfold x. replace ((a + t * (b - a) - a) / (b - a)) with t by (field; apply pos_ne; qcl). clearbody t u v. clear - Z. qcl.
    + destruct (Qc_eq_dec u c) as [Ev|Ev].
      * assert (Z : (u + v) / (1 + 1) * (1 + 1) = u + v) by (field; discriminate). rewrite aa_pos by (clear - V Ev; qcl). destruct (pos_case (c - (u + v) / (1 + 1))) as [[P ->]|[P ->]]; [field; discriminate|]. exfalso. set (h := (u + v) / (1 + 1)) in *. clearbody h u v. clear - Z P V Ev. qcl.
      * exfalso. set (x := a + (c - u) / (v - u) * (b - a)). assert (Dv : v - u <> 0) by (intros Q; clear - Q U V; assert (v = u) by qcl; subst v; qcl). assert (Z : (c - u) / (v - u) * (v - u) = c - u) by (apply div_mul; auto).
        assert (V' : c < u) by (apply Qcle_lt_or_eq in U as [U|U]; auto; congruence).
        assert (T : 0 < (c - u) / (v - u) /\ (c - u) / (v - u) < 1) by (set (t := (c - u) / (v - u)) in *; clearbody t u v; clear - Z V V'; split; apply Qcnot_le_lt; intros K; qc).
        destruct T as [T1 T2]. set (t := (c - u) / (v - u)) in *. destruct (Nc x) as [K1 K2]; auto.
        -- unfold x. clearbody t. clear - T1 L. qc.
        -- unfold x. clearbody t. clear - T2 L. qc.
        -- rewrite HL. unfold x. replace ((a + t * (b - a) - a) / (b - a)) with t by (field; apply pos_ne; qcl). clearbody t u v. clear - Z. qcl.
    + rewrite aa_neg by (clear - U V; qcl). destruct (pos_case (c - (u + v) / (1 + 1))) as [[P ->]|[P ->]]; [|ring].
      assert (Z : (u + v) / (1 + 1) * (1 + 1) = u + v) by (field; discriminate). assert (E0 : c - (u + v) / (1 + 1) = 0) by (set (h := (u + v) / (1 + 1)) in *; clearbody h u v; clear - Z P U V; apply Qcle_antisym; qcl). rewrite E0. ring.
  - rewrite over_out; auto using Qclt_le_weak; [ring|]. left. apply Qcnot_lt_le. intros Z. apply (Nv' (cx (snd g))); auto. split; auto. apply (Qcle_lt_trans _ m); auto.
  - rewrite over_out; auto using Qclt_le_weak; [ring|]. right. apply Qcnot_lt_le. intros Z. apply (Nv' (cx (fst g))); auto. split; auto. apply (Qclt_le_trans _ m); auto.
Qed.
(** Where an edge crosses a horizontal line. *)
Definition root (c : Qc) (e : pt * pt) : Qc := cx (fst e) + (c - cy (fst e)) / (cy (snd e) - cy (fst e)) * (cx (snd e) - cx (fst e)).
Lemma root_ok : forall c e a b x, a < x -> x < b -> ~ (a < root c e /\ root c e < b) -> cx (fst e) <> cx (snd e) -> height_at e x = c -> height_at e a = c /\ height_at e b = c.
Proof.
  intros c e a b x X1 X2 Nr Nx H. unfold height_at, root in *. assert (N : cx (snd e) - cx (fst e) <> 0) by (intros Q; apply Nx; symmetry; qcl).
  destruct (Qc_eq_dec (cy (snd e) - cy (fst e)) 0) as [E|E].
  - rewrite E in *. replace (_ / _ * 0) with 0 in H by ring. split; rewrite <- H; ring.
  - exfalso. apply Nr. replace (cx (fst e) + _) with x; [auto|]. rewrite <- H. field. auto.
Qed.
(** The area of the boundary's inside in a rectangle. *)
Theorem part_ok : forall a b c d, a < b -> c < d ->
  0 <= part a b c d /\ part a b c d <= (b - a) * (d - c) /\
  ((forall q, in_cell a b c d q -> wind q = 0) -> part a b c d = 0) /\
  ((forall q, in_cell a b c d q -> wind q = 1) -> part a b c d = (b - a) * (d - c)).
Proof.
  intros a b c d L Lc. revert a b L.
  apply (refine (flat_map (fun e => [cx (fst e); cx (snd e); root c (rightward e); root d (rightward e)]) es)).
  - intros a b L O. assert (E : part a b c d = (b - a) * (len ((a + b) / (1 + 1)) d - len ((a + b) / (1 + 1)) c)).
    { unfold part, len. transitivity (sum (fun e => (b - a) * (sgn e * (b2q (spans ((a + b) / (1 + 1)) e) * pos (d - height_at (rightward e) ((a + b) / (1 + 1)))) - sgn e * (b2q (spans ((a + b) / (1 + 1)) e) * pos (c - height_at (rightward e) ((a + b) / (1 + 1)))))) es).
      - apply sum_same. intros e I. assert (O' : forall x, In x [cx (fst e); cx (snd e); root c (rightward e); root d (rightward e)] -> ~ (a < x /\ x < b)) by (intros x J; apply O, in_flat_map; eauto).
        rewrite !strip_over; auto; try ring; try (intros x [-> | ->]; apply O'; cbn; auto).
        + intros x X1 X2 N H. apply (root_ok _ _ _ _ x); auto. apply O'. cbn. auto.
        + intros x X1 X2 N H. apply (root_ok _ _ _ _ x); auto. apply O'. cbn. auto.
      - clear. induction es as [|e l IH]; [cbn; ring|]. rewrite !sum_cons, IH. ring. }
    destruct (mid_ok a b L) as [M1 M2]. set (m := (a + b) / (1 + 1)) in *. destruct (len_ok m) with (c := c) (d := d) as (A1 & A2 & A3 & A4); auto.
    { intros e I. split; intros Q; [apply (O (cx (fst e)))|apply (O (cx (snd e)))]; try (rewrite Q; auto; fail); apply in_flat_map; exists e; cbn; auto. }
    rewrite E. set (g := len m d - len m c) in *. assert (L' : 0 < b - a) by qcl. split; [|split; [|split]].
    + set (w := b - a) in *. clearbody g w. clear - L' A1. qc.
    + set (w := b - a) in *. set (h := d - c) in *. clearbody g w h. clear - L' A2. qc.
    + intros H. rewrite A3; [ring|]. intros y Y1 Y2. apply H. unfold in_cell. cbn [cx cy]. auto.
    + intros H. rewrite A4; [ring|]. intros y Y1 Y2. apply H. unfold in_cell. cbn [cx cy]. auto.
  - intros a m b L1 L2 (A1 & A2 & A3 & A4) (B1 & B2 & B3 & B4). rewrite (part_cut_x a m b) by (auto using Qclt_le_weak). split; [qcl|]. split; [|split]; [clear - A2 B2; qcl| |]; intros H.
    + rewrite A3, B3; [ring| |]; intros q (Q1 & Q2 & Q3 & Q4); apply H; repeat split; auto; apply (Qclt_trans _ m); auto.
    + rewrite A4, B4; [ring| |]; intros q (Q1 & Q2 & Q3 & Q4); apply H; repeat split; auto; apply (Qclt_trans _ m); auto.
Qed.
End Boundary.
