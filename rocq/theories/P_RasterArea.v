Require Import List String Bool Arith Lia ZArith Lqa Psatz Sorted.
From Verif Require Import Base Scalar M_Events M_Geo S_Geo P_Geo M_MonoPoly S_Mono P_Mono Props_Mono M_Raster S_Raster P_Raster.
Import ListNotations.
Local Open Scope list_scope.
Local Open Scope Qc_scope.

Lemma div_mul : forall a b : Qc, b <> 0 -> a / b * b = a.
Proof. intros a b H. unfold Qcdiv. rewrite <- Qcmult_assoc, (Qcmult_comm (/ _)), Qcmult_inv_r, Qcmult_1_r; auto. Qed.
Lemma pos_ne : forall a : Qc, 0 < a -> a <> 0.
Proof. intros a H E. rewrite E in H. exact (Qclt_not_eq _ _ H eq_refl). Qed.
Lemma mul_cancel : forall a b c : Qc, c <> 0 -> a * c = b * c -> a = b.
Proof.
  intros a b c H E. rewrite <- (Qcmult_1_r a), <- (Qcmult_1_r b), <- (Qcmult_inv_r c H), !Qcmult_assoc, E. reflexivity.
Qed.

Lemma sum_cons : forall {A} (f : A -> Qc) a l, sum f (a :: l) = f a + sum f l.
Proof. reflexivity. Qed.

(** ** The area below a chain as a function of the abscissa *)
Definition line_at (p q : pt) (x : Qc) : Qc := cy p + (x - cx p) / (cx q - cx p) * (cy q - cy p).
Definition clip (x : Qc) (e : pt * pt) : Qc :=
  if qleb x (cx (fst e)) then 0
  else if qleb (cx (snd e)) x then strip e
  else strip (fst e, mkC x (line_at (fst e) (snd e) x)).
Lemma clip_left : forall x (p q : pt), x <= cx p -> clip x (p, q) = 0.
Proof. intros x p q H. unfold clip. cbn [fst snd]. replace (qleb x (cx p)) with true by (symmetry; apply qleb_iff; auto). reflexivity. Qed.
Lemma strip_vert : forall (p q : pt), cx p = cx q -> strip (p, q) = 0.
Proof. intros p q E. unfold strip. cbn [fst snd]. rewrite E. unfold Qcdiv. ring. Qed.
Lemma clip_right : forall x (p q : pt), cx p <= cx q -> cx q <= x -> clip x (p, q) = strip (p, q).
Proof.
  intros x p q H H'. unfold clip. cbn [fst snd]. destruct (qleb x (cx p)) eqn:E.
  - apply qleb_iff in E. symmetry. apply strip_vert. qcl.
  - replace (qleb (cx q) x) with true by (symmetry; apply qleb_iff; auto). reflexivity.
Qed.
Lemma clip_mid : forall x y (p q : pt), cx p <= cx q -> on_seg p q (mkC x y) -> clip x (p, q) = strip (p, mkC x y).
Proof.
  intros x y p q L H. destruct (on_seg_x p q _ L H) as [X1 X2]. cbn [cx] in X1, X2.
  destruct (Qclt_le_dec (cx p) x) as [K|K].
  2:{ rewrite clip_left by auto. symmetry. apply strip_vert. cbn [cx]. apply Qcle_antisym; auto. }
  assert (L' : cx p < cx q) by qcl. assert (D : cx q - cx p <> 0) by (apply pos_ne; qcl).
  destruct H as [t [_ [_ [T1 T2]]]]. cbn [cx cy] in T1, T2.
  assert (Y : y = line_at p q x).
  { unfold line_at. rewrite T2. f_equal. f_equal. apply (mul_cancel _ _ (cx q - cx p) D). rewrite div_mul by auto. rewrite T1. ring. }
  destruct (Qclt_le_dec x (cx q)) as [K'|K'].
  - unfold clip. cbn [fst snd]. replace (qleb x (cx p)) with false by (symmetry; apply qleb_false; auto).
    replace (qleb (cx q) x) with false by (symmetry; apply qleb_false; auto). rewrite Y. reflexivity.
  - rewrite clip_right by auto. assert (E : x = cx q) by (apply Qcle_antisym; auto).
    f_equal. f_equal. destruct q as [qx qy]. cbn [cx cy] in *. rewrite E. f_equal. rewrite Y. unfold line_at. cbn [cx cy]. rewrite E.
    assert (O : (qx - cx p) / (qx - cx p) = 1) by (unfold Qcdiv; apply Qcmult_inv_r; auto). rewrite O. ring.
Qed.
Lemma clips_left : forall l x, (forall p, In p l -> x <= cx p) -> sum (clip x) (edges l) = 0.
Proof.
  induction l as [|a [|b l] IH]; intros x H; [reflexivity|reflexivity|].
  rewrite edges_cons. rewrite sum_cons. rewrite IH by (intros; apply H; right; auto).
  rewrite clip_left by (apply H; left; auto). ring.
Qed.
Lemma pot_fun : forall l i x y, increasing l -> at_edge l i x y -> pot l i x y = sum (clip x) (edges l).
Proof.
  induction l as [|a l IH]; intros i x y I A.
  - destruct A as [p [Hp _]]. destruct i; discriminate.
  - destruct l as [|b l].
    + destruct A as [p [Hp H]]. destruct i as [|i]; [|destruct i; discriminate]. simpl in Hp, H. injection Hp as Hap. rewrite <- Hap in H.
      unfold pot. simpl. rewrite H. unfold strip. simpl. unfold Qcdiv. ring.
    + assert (I' : increasing (b :: l)) by (inversion I; auto).
      assert (Lab : cx a <= cx b) by (apply lex_lt_x; apply (inc_nth (a :: b :: l) 0 1); auto).
      destruct i as [|i].
      * destruct A as [p [Hp H]]. simpl in Hp, H. injection Hp as Hap. rewrite <- Hap in H.
        destruct (on_seg_x _ _ _ Lab H) as [_ Lb]. simpl in Lb.
        rewrite edges_cons. rewrite sum_cons. rewrite clips_left.
        -- rewrite (clip_mid x y a b Lab H). unfold pot. cbn [nth_error firstn]. change (sum strip (edges [a])) with (Q2Qc 0). ring.
        -- intros c Hc. apply In_nth_error in Hc. destruct Hc as [[|j] Hj]; [simpl in Hj; inversion Hj; subst; auto|].
           pose proof (inc_nth (b :: l) 0 (S j) b c I' ltac:(lia) eq_refl Hj) as K'. apply lex_lt_x in K'. qcl.
      * rewrite pot_cons, edges_cons. rewrite sum_cons.
        rewrite (IH i x y I' A). f_equal. symmetry. apply clip_right; auto.
        destruct A as [p [Hp H]]. cbn [nth_error] in Hp.
        destruct (at_edge_x (b :: l) i x y p I') as [K _]; auto. { exists p. split; auto. }
        destruct i as [|i]; [simpl in Hp; inversion Hp; subst; auto|].
        pose proof (inc_nth (b :: l) 0 (S i) b p I' ltac:(lia) eq_refl Hp) as K'. apply lex_lt_x in K'. qcl.
Qed.
Lemma s_pot_fun : forall m s, mono_pair (mp_top m) (mp_bot m) -> scan_inv m s ->
  s_pot s = sum (clip (t_x (sc_curr s))) (edges (mp_top m)) - sum (clip (t_x (sc_curr s))) (edges (mp_bot m)).
Proof.
  intros m s [p [q [_ [_ [_ [_ [_ [IT IB]]]]]]]] [E [AT AB]]. unfold s_pot. rewrite E.
  rewrite (pot_fun _ _ _ _ IT AT), (pot_fun _ _ _ _ IB AB). reflexivity.
Qed.

(** ** The flipped trapezoid *)
Definition pos (u : Qc) : Qc := if qleb u 0 then 0 else u.
Lemma clip_const : forall a b x c, a <= b -> clip c (mkC a x, mkC b x) = x * (pos (c - a) - pos (c - b)).
Proof.
  intros a b x c H. unfold clip, pos, strip, line_at. cbn [fst snd cx cy].
  destruct (qleb c a) eqn:E1.
  - apply qleb_iff in E1. replace (qleb (c - a) 0) with true by (symmetry; apply qleb_iff; qcl).
    replace (qleb (c - b) 0) with true by (symmetry; apply qleb_iff; qcl). ring.
  - apply qleb_false in E1. replace (qleb (c - a) 0) with false by (symmetry; apply qleb_false; qcl).
    destruct (qleb b c) eqn:E2.
    + apply qleb_iff in E2. destruct (qleb (c - b) 0) eqn:E3.
      * apply qleb_iff in E3. assert (c = b) by qcl. subst c.
        apply (mul_cancel _ _ (1 + 1)); [discriminate|]. rewrite div_mul by discriminate. ring.
      * apply (mul_cancel _ _ (1 + 1)); [discriminate|]. rewrite div_mul by discriminate. ring.
    + apply qleb_false in E2. replace (qleb (c - b) 0) with true by (symmetry; apply qleb_iff; qcl).
      apply (mul_cancel _ _ (1 + 1)); [discriminate|]. rewrite div_mul by discriminate. ring.
Qed.
(** One slanted side, its axes exchanged: to the area between the side and the line. *)
Lemma clip_slant : forall a b xa xb c, a <= b ->
  xb * pos (c - b) - xa * pos (c - a) + clip c (mkC a xa, mkC b xb) = area_above_0 (xb - xa) (c - a) (c - b).
Proof.
  intros a b xa xb c H. unfold clip, pos, strip, line_at, area_above_0. cbn [fst snd cx cy].
  destruct (qleb c a) eqn:E1.
  - apply qleb_iff in E1. replace (qleb (c - a) 0) with true by (symmetry; apply qleb_iff; qcl).
    replace (qleb (c - b) 0) with true by (symmetry; apply qleb_iff; qcl).
    destruct (qcmp_spec (c - a) 0) as [A|A|A]; [| |exfalso; qcl].
    + destruct (qcmp_spec (c - b) 0) as [B|B|B]; [|ring|exfalso; qcl].
      rewrite A, B. unfold Qcdiv. ring.
    + destruct (qcmp_spec (c - b) 0) as [B|B|B]; [ring|ring|exfalso; qcl].
  - apply qleb_false in E1. replace (qleb (c - a) 0) with false by (symmetry; apply qleb_false; qcl).
    destruct (qcmp_spec (c - a) 0) as [A|A|A]; [exfalso; qcl|exfalso; qcl|].
    destruct (qleb b c) eqn:E2.
    + apply qleb_iff in E2.
      assert (P : (if qleb (c - b) 0 then 0 else c - b) = c - b).
      { destruct (qleb (c - b) 0) eqn:E3; auto. apply qleb_iff in E3. qcl. }
      rewrite P. destruct (qcmp_spec (c - b) 0) as [B|B|B]; [|exfalso; qcl|];
      (apply (mul_cancel _ _ (1 + 1)); [discriminate|]; rewrite Qcmult_plus_distr_l, !div_mul by discriminate; clear; qcl).
    + apply qleb_false in E2. replace (qleb (c - b) 0) with true by (symmetry; apply qleb_iff; qcl).
      destruct (qcmp_spec (c - b) 0) as [B|B|B]; [exfalso; qcl| |exfalso; qcl].
      assert (D : b - a <> 0) by (apply pos_ne; qcl).
      assert (D2 : (1 + 1) * (c - a - (c - b)) <> 0).
      { intros K. apply D. assert (X : (b - a) * (1 + 1) = 0) by (rewrite <- K; ring).
        apply (mul_cancel _ _ (1 + 1)); [discriminate|]. rewrite X. reflexivity. }
      apply (mul_cancel _ _ ((1 + 1) * (c - a - (c - b))) D2). rewrite (div_mul _ _ D2).
      set (f := (c - a) / (b - a)). assert (F : f * (b - a) = c - a) by (apply div_mul; auto). clearbody f.
      transitivity ((- xa * (c - a) * (1 + 1) + (c - a) * (xa + (xa + f * (xb - xa)))) * (b - a)).
      * assert (HH : (c - a) * (xa + (xa + f * (xb - xa))) / (1 + 1) * (1 + 1) = (c - a) * (xa + (xa + f * (xb - xa)))) by (apply div_mul; discriminate).
        set (g := (c - a) * (xa + (xa + f * (xb - xa))) / (1 + 1)) in *. clearbody g. rewrite <- HH. ring.
      * transitivity ((c - a) * (f * (b - a)) * (xb - xa)); [ring|]. rewrite F. ring.
Qed.
Lemma above_0_swap : forall w u v, area_above_0 w u v = - area_above_0 (- w) v u.
Proof.
  intros w u v. unfold area_above_0. destruct (qcmp_spec u 0) as [A|A|A], (qcmp_spec v 0) as [B|B|B]; try ring;
  unfold Qcdiv; ring.
Qed.

Section Flip.
Variable z : trapz.
Let lx := t_x (z_left z).
Let rx := t_x (z_right z).
Let lb := t_bot (z_left z).
Let rb := t_bot (z_right z).
Let lt := t_top (z_left z).
Let rt := t_top (z_right z).
Hypothesis W : lx < rx.
Hypothesis HL : lb <= lt.
Hypothesis HR : rb <= rt.

Ltac flip_cases :=
  unfold flip; fold lx rx lb rb lt rt;
  destruct (qleb lb rb) eqn:E1; [apply qleb_iff in E1|apply qleb_false in E1];
  (destruct (qltb rb rt) eqn:E2; [apply qltb_iff in E2|
     assert (E2' : rb = rt) by (apply Qcle_antisym; [exact HR|apply Qcnot_lt_le; rewrite <- qltb_iff; congruence]); clear E2]);
  (destruct (qltb lb lt) eqn:E3; [apply qltb_iff in E3|
     assert (E3' : lb = lt) by (apply Qcle_antisym; [exact HL|apply Qcnot_lt_le; rewrite <- qltb_iff; congruence]); clear E3]);
  (destruct (qleb lt rt) eqn:E4; [apply qleb_iff in E4|apply qleb_false in E4]); cbn [app].

Lemma lex_x : forall a b c d, a < c -> lex_lt (mkC a b) (mkC c d).
Proof. intros. left. auto. Qed.
Lemma lex_y : forall a b c d, a <= c -> b < d -> lex_lt (mkC a b) (mkC c d).
Proof. intros a b c d H H'. apply Qcle_lt_or_eq in H. destruct H; [left|right]; auto. Qed.
Lemma inc2 : forall a b, lex_lt a b -> increasing [a; b].
Proof. intros. apply windows_iff. simpl. rewrite !andb_true_r. apply pltb_iff. auto. Qed.
Lemma inc3 : forall a b c, lex_lt a b -> lex_lt b c -> increasing [a; b; c].
Proof. intros. apply windows_iff. simpl. rewrite !andb_true_r, andb_true_iff. split; apply pltb_iff; auto. Qed.
Lemma inc4 : forall a b c d, lex_lt a b -> lex_lt b c -> lex_lt c d -> increasing [a; b; c; d].
Proof. intros. apply windows_iff. simpl. rewrite !andb_true_r, !andb_true_iff. repeat split; apply pltb_iff; auto. Qed.
Lemma ends_snoc : forall l p, ends_at (l ++ [p]) p. Proof. intros. exists l. reflexivity. Qed.

Lemma flip_mono : exists p q, starts_at (fst (flip z)) p /\ starts_at (snd (flip z)) p /\
  ends_at (fst (flip z)) q /\ ends_at (snd (flip z)) q /\ p <> q /\
  increasing (fst (flip z)) /\ increasing (snd (flip z)) /\ cx p = qmin lb rb /\ cx q = qmax lt rt.
Proof.
  assert (NE : forall a b, lex_lt a b -> a <> b).
  { intros a b [H|[_ H]] E; subst; exact (Qclt_not_eq _ _ H eq_refl). }
  assert (MN1 : lb <= rb -> qmin lb rb = lb) by (intros; apply qmin_l; auto).
  assert (MN2 : rb < lb -> qmin lb rb = rb) by (intros; apply qmin_r; apply Qclt_le_weak; auto).
  assert (MX1 : lt <= rt -> qmax lt rt = rt).
  { intros. unfold qmax. replace (qleb lt rt) with true by (symmetry; apply qleb_iff; auto). auto. }
  assert (MX2 : rt < lt -> qmax lt rt = lt).
  { intros. unfold qmax. replace (qleb lt rt) with false by (symmetry; apply qleb_false; auto). auto. }
  exists (if qleb lb rb then mkC lb lx else mkC rb rx), (if qleb lt rt then mkC rt rx else mkC lt lx).
  pose proof W as W'. pose proof HL as HL'. pose proof HR as HR'.
  flip_cases; cbn [fst snd];
  try (exfalso; qcl);
  try rewrite <- E2' in *; try rewrite <- E3' in *;
  (split; [eexists; reflexivity|]); (split; [eexists; reflexivity|]);
  (split; [(apply (ends_snoc []) || apply (ends_snoc [_]) || apply (ends_snoc [_; _]) || apply (ends_snoc [_; _; _]))|]);
  (split; [(apply (ends_snoc []) || apply (ends_snoc [_]) || apply (ends_snoc [_; _]) || apply (ends_snoc [_; _; _]))|]);
  (split; [apply NE; (apply lex_x; qcl) || (apply lex_y; qcl)|]);
  (split; [(apply inc2 || apply inc3 || apply inc4); ((apply lex_x; qcl) || (apply lex_y; qcl))|]);
  (split; [(apply inc2 || apply inc3 || apply inc4); ((apply lex_x; qcl) || (apply lex_y; qcl))|]);
  (split; [symmetry; auto|symmetry; auto]).
Qed.

Lemma slant_up : forall a b c, a <= b ->
  clip c (mkC a lx, mkC b rx) = area_above_0 (rx - lx) (c - a) (c - b) - rx * pos (c - b) + lx * pos (c - a).
Proof. intros a b c H. rewrite <- (clip_slant a b lx rx c H). ring. Qed.
Lemma slant_down : forall a b c, b <= a ->
  clip c (mkC b rx, mkC a lx) = - area_above_0 (rx - lx) (c - a) (c - b) + rx * pos (c - b) - lx * pos (c - a).
Proof.
  intros a b c H. rewrite (above_0_swap (rx - lx)). replace (- (rx - lx)) with (lx - rx) by ring.
  rewrite <- (clip_slant b a rx lx c H). ring.
Qed.
Lemma edges2 : forall a b : pt, edges [a; b] = [(a, b)]. Proof. reflexivity. Qed.
Lemma edges3 : forall a b c : pt, edges [a; b; c] = [(a, b); (b, c)]. Proof. reflexivity. Qed.
Lemma edges4 : forall a b c d : pt, edges [a; b; c; d] = [(a, b); (b, c); (c, d)]. Proof. reflexivity. Qed.
Lemma sum_nil : forall {A} (f : A -> Qc), sum f [] = 0. Proof. reflexivity. Qed.
Lemma flip_pot : forall c,
  sum (clip c) (edges (fst (flip z))) - sum (clip c) (edges (snd (flip z))) = area_below z c.
Proof.
  intros c. unfold area_below. fold lx rx lb rb lt rt.
  pose proof (clip_const rb rt rx c HR) as CR. pose proof (clip_const lb lt lx c HL) as CL.
  pose proof (slant_up lb rb c) as SU. pose proof (slant_down lb rb c) as SD.
  pose proof (slant_up lt rt c) as TU. pose proof (slant_down lt rt c) as TD.
  flip_cases; cbn [fst snd]; rewrite ?edges2, ?edges3, ?edges4, ?sum_cons, ?sum_nil;
  try specialize (SU E1); try specialize (SD (Qclt_le_weak _ _ E1));
  try specialize (TU E4); try specialize (TD (Qclt_le_weak _ _ E4));
  clearbody lx rx lb rb lt rt; try subst rb; try subst lb;
  try (exfalso; clear - E1 E4; qcl);
  change (edges [mkC rt rx]) with (@nil (pt * pt)) || change (edges [mkC lt lx]) with (@nil (pt * pt)) || idtac;
  rewrite ?sum_nil; unfold pt in *;
  rewrite ?CR, ?CL, ?SU, ?SD, ?TU, ?TD; try ring.
Qed.

Definition on_side (a b : Qc) (r : pt) : Prop :=
  exists t, 0 <= t /\ t <= 1 /\ cx r = a + t * (b - a) /\ cy r = lx + t * (rx - lx).
Lemma side_up : forall a b r, on_seg (mkC a lx) (mkC b rx) r -> on_side a b r.
Proof. intros a b r [t H]. exists t. exact H. Qed.
Lemma side_down : forall a b r, on_seg (mkC b rx) (mkC a lx) r -> on_side a b r.
Proof.
  intros a b r [t [T0 [T1 [X Y]]]]. cbn [cx cy] in *. exists (1 - t).
  split; [qcl|]. split; [qcl|]. rewrite X, Y. split; ring.
Qed.
Lemma side_flat : forall a b x r, on_seg (mkC a x) (mkC b x) r -> cy r = x.
Proof. intros a b x r [t [_ [_ [_ H]]]]. cbn [cy] in H. rewrite H. ring. Qed.
Lemma on_top : forall r, on_chain (fst (flip z)) r ->
  (lb <= rb /\ on_side lb rb r) \/ cy r = rx \/ (rt < lt /\ on_side lt rt r).
Proof.
  intros r [a [b [E S]]]. revert E. flip_cases; cbn [fst snd]; rewrite ?edges2, ?edges3, ?edges4; intros E; simpl in E;
  repeat match goal with H : _ \/ _ |- _ => destruct H | H : False |- _ => contradiction end;
  repeat match goal with H : (_, _) = (_, _) |- _ => inversion H; clear H; subst a b end;
  first [ left; split; [assumption|apply side_up; assumption]
        | right; left; eapply side_flat; eassumption
        | right; right; split; [assumption|apply side_down; first [assumption|rewrite <- E2'; assumption]] ].
Qed.
Lemma on_bot : forall r, on_chain (snd (flip z)) r ->
  (rb < lb /\ on_side lb rb r) \/ cy r = lx \/ (lt <= rt /\ on_side lt rt r).
Proof.
  intros r [a [b [E S]]]. revert E. flip_cases; cbn [fst snd]; rewrite ?edges2, ?edges3, ?edges4; intros E; simpl in E;
  repeat match goal with H : _ \/ _ |- _ => destruct H | H : False |- _ => contradiction end;
  repeat match goal with H : (_, _) = (_, _) |- _ => inversion H; clear H; subst a b end;
  first [ left; split; [assumption|apply side_down; assumption]
        | right; left; eapply side_flat; eassumption
        | right; right; split; [assumption|apply side_up; first [assumption|rewrite <- E3'; assumption]] ].
Qed.
Lemma side_range : forall a b r, on_side a b r -> lx <= cy r /\ cy r <= rx.
Proof. intros a b r [t [T0 [T1 [_ Y]]]]. rewrite Y. pose proof W. clearbody lx rx. split; qc. Qed.
Lemma flip_above : qmin lb rb < qmax lt rt -> above (fst (flip z)) (snd (flip z)).
Proof.
  intros M r s Hr Hs X. pose proof W as W'. pose proof HL as HL'. pose proof HR as HR'.
  assert (Rr : lx <= cy r /\ cy r <= rx).
  { destruct (on_top r Hr) as [[_ H]|[H|[_ H]]]; [apply (side_range _ _ _ H)| |apply (side_range _ _ _ H)].
    rewrite H. split; [apply Qclt_le_weak; auto|apply Qcle_refl]. }
  assert (Rs : lx <= cy s /\ cy s <= rx).
  { destruct (on_bot s Hs) as [[_ H]|[H|[_ H]]]; [apply (side_range _ _ _ H)| |apply (side_range _ _ _ H)].
    rewrite H. split; [apply Qcle_refl|apply Qclt_le_weak; auto]. }
  destruct (on_top r Hr) as [[K [t [T0 [T1 [Xr Yr]]]]]|[H|[K [t [T0 [T1 [Xr Yr]]]]]]]; [|rewrite H; apply Rs|];
  (destruct (on_bot s Hs) as [[K' [t' [T0' [T1' [Xs Ys]]]]]|[H'|[K' [t' [T0' [T1' [Xs Ys]]]]]]]; [|rewrite H'; apply Rr|]).
  - exfalso. exact (Qclt_not_le _ _ K' K).
  - rewrite Xr, Xs in X. rewrite Yr, Ys. clear Xr Xs Yr Ys Hr Hs Rr Rs.
    destruct (Qclt_le_dec t t') as [L|L]; [exfalso|clearbody lx rx; qc].
    clearbody lx rx lb rb lt rt. clear W W' HL HR.
    assert (P1 : 0 <= (t' - t) * (rt - lt)) by (clear - L K'; qc).
    assert (P2 : 0 <= (1 - t) * (lt - lb)) by (clear - T1 HL'; qc).
    assert (P3 : 0 <= t * (rt - rb)) by (clear - T0 HR'; qc).
    assert (P4 : (t' - t) * (rt - lt) = 0) by (clear - P1 P2 P3 X; qcl).
    assert (EL : rt = lt).
    { apply Qcle_antisym; auto. apply Qcnot_lt_le. intros C. clear - L C P4. qc. }
    assert (P5 : (1 - t) * (rb - lb) <= 0) by (clear - X EL HR' ; subst rt; qcl).
    assert (EB : rb = lb).
    { apply Qcle_antisym; auto. apply Qcnot_lt_le. intros C. clear - L C P5 T1'. qc. }
    subst rt rb. unfold qmin, qmax in M. rewrite !(proj2 (qleb_iff _ _) (Qcle_refl _)) in M.
    clear - X M. qcl.
  - rewrite Xr, Xs in X. rewrite Yr, Ys. clear Xr Xs Yr Ys Hr Hs Rr Rs.
    destruct (Qclt_le_dec t t') as [L|L]; [exfalso|clearbody lx rx; qc].
    clearbody lx rx lb rb lt rt. clear W W' HL HR.
    assert (P1 : 0 < (t' - t) * (lb - rb)) by (clear - L K'; qc).
    assert (P2 : 0 <= (1 - t) * (lt - lb)) by (clear - T0 T1 T1' L HL'; qc).
    assert (P3 : 0 <= t * (rt - rb)) by (clear - T0 HR'; qc).
    clear - P1 P2 P3 X. qcl.
  - exfalso. exact (Qclt_not_le _ _ K K').
Qed.
End Flip.

(** ** The area below a line *)
Lemma aa_pos : forall w u v, 0 <= u -> 0 <= v -> area_above_0 w u v = w * (u + v) / (1 + 1).
Proof.
  intros w u v U V. unfold area_above_0. destruct (qcmp_spec u 0) as [A|A|A], (qcmp_spec v 0) as [B|B|B]; try reflexivity; exfalso; qcl.
Qed.
Lemma aa_neg : forall w u v, u <= 0 -> v <= 0 -> area_above_0 w u v = 0.
Proof.
  intros w u v U V. unfold area_above_0. destruct (qcmp_spec u 0) as [A|A|A], (qcmp_spec v 0) as [B|B|B]; try reflexivity; try (exfalso; qcl).
  rewrite A, B. unfold Qcdiv. ring.
Qed.
Definition z_min (z : trapz) : Qc := qmin (t_bot (z_left z)) (t_bot (z_right z)).
Definition z_max (z : trapz) : Qc := qmax (t_top (z_left z)) (t_top (z_right z)).
Definition z_ok (z : trapz) : Prop :=
  t_x (z_left z) < t_x (z_right z) /\ t_bot (z_left z) <= t_top (z_left z) /\ t_bot (z_right z) <= t_top (z_right z).
Lemma below_low : forall z c, z_ok z -> c <= z_min z -> area_below z c = 0.
Proof.
  intros z c [_ [HL HR]] H. unfold z_min in H. unfold area_below.
  destruct (qmin_cases (t_bot (z_left z)) (t_bot (z_right z))) as [[A E]|[A E]]; rewrite E in H;
  rewrite !aa_neg by qcl; ring.
Qed.
Lemma below_high : forall z c, z_ok z -> z_max z <= c -> area_below z c = trapezoid_area z.
Proof.
  intros z c [_ [HL HR]] H. unfold z_max in H. unfold area_below, trapezoid_area.
  destruct (qmax_cases (t_top (z_left z)) (t_top (z_right z))) as [[A E]|[A E]]; rewrite E in H;
  rewrite !aa_pos by qcl; unfold Qcdiv; ring.
Qed.

(** ** Adding to the array *)
Lemma add_at_ok : forall arr j v, (j < List.length arr)%nat -> exists arr', add_at arr j v = Ok arr' /\
  List.length arr' = List.length arr /\
  forall k, nth k arr' 0 = nth k arr 0 + (if Nat.eqb k j then v else 0).
Proof.
  induction arr as [|a arr IH]; intros j v H; [simpl in H; lia|]. destruct j as [|j]; simpl.
  - eexists. split; [reflexivity|]. split; [reflexivity|]. intros [|k]; simpl; ring.
  - simpl in H. destruct (IH j v) as [arr' [E [L N]]]; [lia|]. rewrite E. simpl.
    eexists. split; [reflexivity|]. split; [simpl; lia|]. intros [|k]; simpl; [ring|apply N].
Qed.
Lemma add_areas_ok : forall tzs arr j, (j < List.length arr)%nat ->
  Forall (fun tz => trapz_area tz = Ok (trapezoid_area tz)) tzs -> exists arr', add_areas arr j tzs = Ok arr' /\
  List.length arr' = List.length arr /\
  forall k, nth k arr' 0 = nth k arr 0 + (if Nat.eqb k j then sum trapezoid_area tzs else 0).
Proof.
  unfold add_areas. induction tzs as [|tz tzs IH]; intros arr j H F.
  - exists arr. split; [reflexivity|]. split; auto. intros k. rewrite sum_nil. destruct (Nat.eqb k j); ring.
  - inversion F; subst. cbn [fold_res]. rewrite H2. cbn [bind].
    destruct (add_at_ok arr j (trapezoid_area tz) H) as [a1 [E1 [L1 N1]]]. rewrite E1. cbn [bind].
    destruct (IH a1 j) as [a2 [E2 [L2 N2]]]; [lia|auto|]. exists a2. split; auto. split; [lia|].
    intros k. rewrite N2, N1, sum_cons. destruct (Nat.eqb k j); ring.
Qed.

Section Loop.
Variable z : trapz.
Hypothesis Z : z_ok z.
Let m := mkMono (fst (flip z)) (snd (flip z)).
Lemma flip_new : mp_new (fst (flip z)) (snd (flip z)) = Ok m.
Proof.
  apply mp_new_ok. split; auto. destruct Z as [W [HL HR]].
  destruct (flip_mono z W HL HR) as [p [q [A [B [C [D [N [I [J _]]]]]]]]]. exists p, q. auto 10.
Qed.
Lemma flip_pair : mono_pair (mp_top m) (mp_bot m).
Proof. destruct (of_new _ _ _ flip_new) as [_ [_ H]]. exact H. Qed.
Lemma flip_ends : exists p q, starts_at (mp_top m) p /\ ends_at (mp_top m) q /\ cx p = z_min z /\ cx q = z_max z.
Proof.
  destruct Z as [W [HL HR]]. destruct (flip_mono z W HL HR) as [p [q [A [B [C [D [N [I [J [K L]]]]]]]]]].
  exists p, q. auto.
Qed.
Lemma pot_below : forall sc, scan_inv m sc -> s_pot sc = area_below z (t_x (sc_curr sc)).
Proof.
  intros sc I. rewrite (s_pot_fun m sc flip_pair I). destruct Z as [W [HL HR]]. apply flip_pot; auto.
Qed.
Lemma inv_x_ge : forall sc p, scan_inv m sc -> starts_at (mp_top m) p -> cx p <= t_x (sc_curr sc).
Proof.
  intros sc p [_ [A _]] [l E]. pose proof flip_pair as [p0 [q0 [_ [_ [_ [_ [_ [I _]]]]]]]].
  pose proof A as [p1 [H _]]. destruct (at_edge_x _ _ _ _ _ I A H) as [L _]. eapply Qcle_trans; [|exact L].
  destruct (sc_top sc) as [|i]; [rewrite E in H; inversion H; apply Qcle_refl|].
  apply lex_lt_x. apply (inc_nth (mp_top m) 0 (S i)); auto; [lia|]. rewrite E. reflexivity.
Qed.
(** One row. *)
Lemma row_ok : forall sc u, scan_reach m sc -> exists sc' tzs, advance_to sc u = Ok (sc', tzs) /\ scan_reach m sc' /\
  Forall (fun tz => trapz_area tz = Ok (trapezoid_area tz)) tzs /\
  area_below z (t_x (sc_curr sc')) = area_below z (t_x (sc_curr sc)) + sum trapezoid_area tzs /\
  (t_x (sc_curr sc) <= u -> t_x (sc_curr sc') <= u /\ area_below z (t_x (sc_curr sc')) = area_below z u).
Proof.
  intros sc u R. pose proof flip_pair as MP.
  destruct (scan_ok m sc u MP R) as [sc' [tzs [[I' [G [B [P [X1 [X2 _]]]]]] [R' F]]]].
  destruct (reach_inv m sc MP R) as [I _]. destruct (F _ _ (Nat.le_refl _) (Nat.le_refl _)) as [_ F'].
  exists sc', tzs. split. { unfold advance_to. pose proof I as [-> _]. exact F'. }
  split; auto. destruct flip_ends as [p [q [Sp [Eq [Xp Xq]]]]]. apply ends_iff in Eq.
  split.
  { destruct (Qclt_le_dec (z_min z) (z_max z)) as [L|L].
    - destruct Z as [W [HL HR]]. pose proof (flip_above z W HL HR L) as AB.
      eapply Forall_impl; [|exact B]. intros a Ha. apply (above_area m a AB Ha).
    - inversion G as [a E|t a b l E1 E2 G']; [constructor|exfalso].
      pose proof (inv_x_ge sc p I Sp) as L1. pose proof (inv_x_le m sc' q MP I' Eq) as L2. rewrite Xp in L1. rewrite Xq in L2.
      assert (L3 : forall a b l, gap_free a b l -> a <= b).
      { clear. induction 1; [apply Qcle_refl|]. subst. eapply Qcle_trans; [apply Qclt_le_weak; eauto|auto]. }
      apply L3 in G'. qcl. }
  rewrite <- !pot_below by auto. split; auto. intros L. rewrite pot_below by auto.
  destruct (Qclt_le_dec (t_x (sc_curr sc)) u) as [L'|L'].
  - rewrite (X1 q Eq L'). destruct (qmin_cases u (cx q)) as [[K E]|[K E]]; rewrite E; [split; auto; apply Qcle_refl|].
    split; auto. rewrite !below_high; auto; rewrite <- Xq; auto. apply Qcle_refl.
  - assert (t_x (sc_curr sc) = u) by (apply Qcle_antisym; auto). destruct (X2 L') as [-> _]. split; auto. congruence.
Qed.
Variables (lo hi : Qc) (n : nat).
Hypothesis LH : lo < hi.
Hypothesis N : (1 <= n)%nat.
Notation F k := (area_below z (row lo hi n k)).
Lemma rows_ok : forall c j sc arr, List.length arr = n -> (j + c <= n)%nat -> scan_reach m sc ->
  t_x (sc_curr sc) <= row lo hi n (S j) -> area_below z (t_x (sc_curr sc)) = F j ->
  exists arr', area_rows lo ((hi - lo) / num n) sc arr j c = Ok arr' /\ List.length arr' = n /\
    forall k, nth k arr' 0 = nth k arr 0 + (if (j <=? k)%nat && (k <? j + c)%nat then F (S k) - F k else 0).
Proof.
  induction c as [|c IH]; intros j sc arr L B R T P.
  - exists arr. split; [reflexivity|]. split; auto. intros k.
    replace ((j <=? k)%nat && (k <? j + 0)%nat) with false; [ring|].
    symmetry. apply andb_false_iff. rewrite Nat.leb_gt, Nat.ltb_ge. lia.
  - cbn [area_rows]. replace (of_nat (j + 1) * ((hi - lo) / num n) + lo) with (row lo hi n (S j)).
    2:{ unfold row. change of_nat with num. replace (j + 1)%nat with (S j) by lia. ring. }
    destruct (row_ok sc (row lo hi n (S j)) R) as [sc' [tzs [A [R' [FA [S1 S2]]]]]]. rewrite A. cbn [bind].
    destruct (S2 T) as [T' P'].
    destruct (add_areas_ok tzs arr j) as [a1 [E1 [L1 N1]]]; [lia|auto|]. rewrite E1. cbn [bind].
    destruct (IH (S j) sc' a1) as [a2 [E2 [L2 N2]]]; auto; [lia|lia| |].
    { eapply Qcle_trans; [exact T'|]. apply row_le; auto. }
    exists a2. split; auto. split; auto. intros k. rewrite N2, N1.
    assert (SS : sum trapezoid_area tzs = F (S j) - F j) by (rewrite <- P', S1, P; ring).
    destruct (Nat.eqb k j) eqn:E.
    + apply Nat.eqb_eq in E. subst k. replace (S j <=? j)%nat with false by (symmetry; apply Nat.leb_gt; lia).
      replace (j <=? j)%nat with true by (symmetry; apply Nat.leb_le; lia).
      replace (j <? j + S c)%nat with true by (symmetry; apply Nat.ltb_lt; lia). simpl andb. cbv iota. rewrite SS. ring.
    + apply Nat.eqb_neq in E. replace (S j <=? k)%nat with (j <=? k)%nat.
      2:{ destruct (j <=? k)%nat eqn:E3; symmetry; [apply Nat.leb_le in E3; apply Nat.leb_le; lia|apply Nat.leb_gt in E3; apply Nat.leb_gt; lia]. }
      replace (j + S c)%nat with (S j + c)%nat by lia. destruct (_ && _); ring.
Qed.
Lemma area_trapz_ok : forall arr, List.length arr = n -> exists arr', area_trapz lo hi arr z = Ok arr' /\
  List.length arr' = n /\ forall k, (k < n)%nat -> nth k arr' 0 = nth k arr 0 + area_between z (row lo hi n k) (row lo hi n (S k)).
Proof.
  intros arr L. unfold area_trapz. rewrite L, (surjective_pairing (flip z)). cbv beta iota zeta. rewrite flip_new.
  cbn [bind]. destruct flip_ends as [p [q [Sp [Eq [Xp Xq]]]]].
  assert (MN' : mp_new (mp_top m) (mp_bot m) = Ok m) by apply flip_new.
  destruct (C36_scan_lines _ _ m lo p q MN' Sp Eq) as [sc [E [R X]]]. rewrite E. cbn [bind].
  fold (z_min z) (z_max z). rewrite Xp, Xq in X. unfold area_between.
  assert (RL : forall k, lo <= row lo hi n k). { intros k. rewrite <- (row_0 lo hi n) at 1. apply row_le; auto. lia. }
  assert (RH : forall k, (k <= n)%nat -> row lo hi n k <= hi).
  { intros k Hk. pose proof (row_le lo hi n LH N k n Hk) as H. rewrite (row_n lo hi n N) in H. exact H. }
  destruct (qleb hi (z_min z) || qleb (z_max z) lo) eqn:SK.
  - exists arr. split; auto. split; auto. intros k Hk. apply orb_true_iff in SK. rewrite !qleb_iff in SK. destruct SK as [SK|SK].
    + rewrite !below_low; auto; [ring| |].
      * eapply Qcle_trans; [apply RH; lia|auto].
      * eapply Qcle_trans; [apply RH; lia|auto].
    + rewrite !below_high; auto; [ring| |]; (eapply Qcle_trans; [exact SK|apply RL]).
  - apply orb_false_iff in SK. destruct SK as [K1 K2]. apply qleb_false in K1, K2.
    destruct (index_ok lo hi n LH N (z_min z) _ (or_intror eq_refl)) as [j [J1 [J2 [J3 [J4 J5]]]]].
    destruct (index_ok lo hi n LH N (z_max z) _ (or_intror eq_refl)) as [j' [J1' [J2' [J3' [J4' J5']]]]].
    change of_nat with num. rewrite J1. cbn [bind]. rewrite J1'. cbn [bind].
    rewrite qmin_l in X by (apply Qclt_le_weak; auto).
    assert (J5a : z_min z < row lo hi n (S j)).
    { destruct J5 as [J5|J5]; auto. rewrite J5, (row_n lo hi n N). auto. }
    destruct (rows_ok (S j' - j) j sc arr) as [a1 [E1 [L1 N1]]]; auto; [lia| | |].
    { rewrite X. destruct (qmax_cases (z_min z) lo) as [[_ Ee]|[_ Ee]]; rewrite Ee; [apply RL|apply Qclt_le_weak; auto]. }
    { rewrite X. destruct (qmax_cases (z_min z) lo) as [[Ha Ee]|[Ha Ee]]; rewrite Ee.
      - rewrite (J4 Ha), row_0. reflexivity.
      - rewrite !below_low; auto. apply Qcle_refl. }
    exists a1. split; auto. split; auto. intros k Hk. rewrite N1.
    destruct ((j <=? k)%nat && (k <? j + (S j' - j))%nat) eqn:IN; auto.
    apply andb_false_iff in IN. rewrite Nat.leb_gt, Nat.ltb_ge in IN.
    assert (C : (k < j)%nat \/ (j' < k)%nat) by lia. clear IN. f_equal. destruct C as [C|C].
    + destruct (Qclt_le_dec (z_min z) lo) as [Hl|Hl]; [rewrite (J4 (Qclt_le_weak _ _ Hl)) in C; lia|].
      specialize (J3 Hl). rewrite !below_low; auto; (eapply Qcle_trans; [|exact J3]; apply row_le; auto; lia).
    + destruct J5' as [J5'|J5']; [|lia].
      rewrite !below_high; auto; [ring| |]; (apply Qclt_le_weak; eapply Qclt_le_trans; [exact J5'|]; apply row_le; auto; lia).
Qed.
End Loop.

Lemma fold_area_ok : forall lo hi n zs arr, lo < hi -> (1 <= n)%nat -> Forall z_ok zs -> List.length arr = n ->
  exists arr', fold_res (area_trapz lo hi) arr zs = Ok arr' /\ List.length arr' = n /\
    forall k, (k < n)%nat -> nth k arr' 0 = nth k arr 0 + sum (fun z => area_between z (row lo hi n k) (row lo hi n (S k))) zs.
Proof.
  intros lo hi n zs. induction zs as [|z zs IH]; intros arr LH N F L.
  - exists arr. split; [reflexivity|]. split; auto. intros k _. rewrite sum_nil. ring.
  - inversion F as [|? ? Hz Hzs]; subst. cbn [fold_res].
    destruct (area_trapz_ok z Hz lo hi _ LH N arr eq_refl) as [a1 [E1 [L1 N1]]]. rewrite E1. cbn [bind].
    destruct (IH a1 LH N Hzs L1) as [a2 [E2 [L2 N2]]]. exists a2. split; auto. split; auto.
    intros k Hk. rewrite (N2 k Hk), (N1 k Hk), sum_cons. ring.
Qed.
