(** Pieces of the decomposition are valid polygons. *)
Require Import List Bool Arith Lia Sorted Permutation.
From Verif Require Import Base Scalar M_Events M_Geo M_MonoPoly S_Geo P_Geo S_Mono P_Mono S_Rings S_Op S_Laminar S_Chains P_Order P_OpPlane P_MonoGeo P_MonoStep P_ChainStep P_MonoChains P_MonoAbove.
Import ListNotations.
Local Open Scope Qc_scope.

Definition half_way (a b : pt) : pt := mkC ((cx a + cx b) / (1 + 1)) ((cy a + cy b) / (1 + 1)).
Lemma half_qc : forall x y : Qc, (x + y) / (1 + 1) + (x + y) / (1 + 1) = x + y.
Proof. intros. field. discriminate. Qed.
Lemma half_lex : forall a b, lex_lt a b -> lex_lt a (half_way a b) /\ lex_lt (half_way a b) b.
Proof.
  intros a b L. pose proof (half_qc (cx a) (cx b)) as X. pose proof (half_qc (cy a) (cy b)) as Y. unfold lex_lt, half_way. cbn [cx cy].
  set (x := (cx a + cx b) / (1 + 1)) in *. set (y := (cy a + cy b) / (1 + 1)) in *. clearbody x y. destruct L as [L|[E L]].
  - split; left; qcl.
  - split; right; split; qcl.
Qed.
Lemma cross_half : forall u v a b, cross u v a = 0 -> cross u v (half_way a b) + cross u v (half_way a b) = cross u v b.
Proof. intros u v a b E. rewrite <- (Qcplus_0_l (cross u v b)), <- E. unfold cross, half_way. cbn [cx cy]. field. discriminate. Qed.

(** Ordered segments that do not lie along each other have at most ends in common. *)
Lemma ordered_meet : forall u v u' v', lex_lt u v -> lex_lt u' v' -> clr u v u' v' -> (forall q, ordered_at q [(u, v)] [(u', v')]) -> meet_at_ends (u, v) (u', v').
Proof.
  intros u v u' v' Lu Lu' (C1 & C2 & C3 & C4) Or r O O'. cbn [fst snd] in *.
  destruct (pt_dec r u) as [->|N1]; [split; auto|]. destruct (pt_dec r v) as [->|N2]; [split; auto|]. destruct (pt_dec r u') as [->|N3]; [split; auto|]. destruct (pt_dec r v') as [->|N4]; [split; auto|]. exfalso.
  destruct (on_seg_between _ _ _ Lu O) as [B1 B2]. destruct (on_seg_between _ _ _ Lu' O') as [B3 B4].
  assert (U1 : lex_lt u r) by (apply lex_le_neq; auto). assert (U2 : lex_lt r v) by (apply lex_le_neq; auto). assert (U3 : lex_lt u' r) by (apply lex_le_neq; auto). assert (U4 : lex_lt r v') by (apply lex_le_neq; auto).
  assert (Or' : forall q, isact u v q = true -> isact u' v' q = true -> (0 < cross u' v' q -> 0 < cross u v q) /\ (0 <= cross u' v' q -> 0 <= cross u v q)) by (intros q; apply (Or q u v u' v'); left; auto).
  pose proof (proj1 (Or r u v u' v' (or_introl eq_refl) (or_introl eq_refl))) as Sk. clear Or C1 C2 C3 C4.
  pose proof (on_seg_cross _ _ _ O) as Z. pose proof (on_seg_cross _ _ _ O') as Z'.
  destruct O as (t & T0 & T1 & Tx & Ty). destruct O' as (s & S0 & S1 & Sx & Sy).
  assert (T0' : 0 < t). { destruct (Qclt_le_dec 0 t) as [Q|Q]; auto. exfalso. assert (t = 0) by qcl. subst t. apply N1. apply pt_eq; [rewrite Tx|rewrite Ty]; ring. }
  assert (T1' : t < 1). { destruct (Qclt_le_dec t 1) as [Q|Q]; auto. exfalso. assert (t = 1) by qcl. subst t. apply N2. apply pt_eq; [rewrite Tx|rewrite Ty]; ring. }
  assert (S0' : 0 < s). { destruct (Qclt_le_dec 0 s) as [Q|Q]; auto. exfalso. assert (s = 0) by qcl. subst s. apply N3. apply pt_eq; [rewrite Sx|rewrite Sy]; ring. }
  assert (S1' : s < 1). { destruct (Qclt_le_dec s 1) as [Q|Q]; auto. exfalso. assert (s = 1) by qcl. subst s. apply N4. apply pt_eq; [rewrite Sx|rewrite Sy]; ring. }
  set (K := (cx v - cx u) * (cy v' - cy u') - (cy v - cy u) * (cx v' - cx u')).
  assert (E1 : cross u v u' = - (s * K)).
  { assert (W : cross u v u' = cross u v u' - cross u v r) by (rewrite Z; ring). rewrite W. unfold K, cross. rewrite Sx, Sy. ring. }
  assert (E2 : cross u v v' = (1 - s) * K).
  { assert (W : cross u v v' = cross u v v' - cross u v r) by (rewrite Z; ring). rewrite W. unfold K, cross. rewrite Sx, Sy. ring. }
  assert (E3 : cross u' v' u = t * K).
  { assert (W : cross u' v' u = cross u' v' u - cross u' v' r) by (rewrite Z'; ring). rewrite W. unfold K, cross. rewrite Tx, Ty. ring. }
  assert (E4 : cross u' v' v = - ((1 - t) * K)).
  { assert (W : cross u' v' v = cross u' v' v - cross u' v' r) by (rewrite Z'; ring). rewrite W. unfold K, cross. rewrite Tx, Ty. ring. }
  clearbody K.
  assert (K1 : K <= 0).
  { destruct (Qclt_le_dec 0 K) as [Q|Q]; auto. exfalso. destruct (lex_le_dec u u') as [L|L].
    - destruct (Or' u') as [_ W]; [apply isact_iff; split; lord|apply isact_iff; split; auto using lex_le_refl|]. assert (X : cross u' v' u' = 0) by (unfold cross; ring). rewrite X in W. specialize (W (Qcle_refl 0)). rewrite E1 in W. clear - W Q S0'. qc.
    - apply lex_not_le in L. destruct (Or' u) as [W _]; [apply isact_iff; split; auto using lex_le_refl|apply isact_iff; split; lord|]. assert (X : cross u v u = 0) by (unfold cross; ring). rewrite X, E3 in W. assert (P : 0 < t * K) by (clear - T0' Q; qc). specialize (W P). qcl. }
  assert (K2 : 0 <= K).
  { destruct (Qclt_le_dec K 0) as [Q|Q]; auto. exfalso. destruct (lex_le_dec v v') as [L|L].
    - destruct (half_lex r v U2) as [H1 H2]. destruct (Or' (half_way r v)) as [W _]; [apply isact_iff; split; lord|apply isact_iff; split; lord|]. pose proof (cross_half u' v' r v Z') as X. pose proof (cross_half u v r v Z) as Y. assert (Y' : cross u v v = 0) by (unfold cross; ring). rewrite E4 in X. rewrite Y' in Y.
      assert (P : 0 < - ((1 - t) * K)) by (clear - T1' Q; qc). assert (P' : 0 < cross u' v' (half_way r v)) by (clear - X P; qcl). specialize (W P'). clear - Y W. qcl.
    - apply lex_not_le in L. destruct (half_lex r v' U4) as [H1 H2]. destruct (Or' (half_way r v')) as [_ W]; [apply isact_iff; split; lord|apply isact_iff; split; lord|]. pose proof (cross_half u v r v' Z) as X. pose proof (cross_half u' v' r v' Z') as Y. assert (Y' : cross u' v' v' = 0) by (unfold cross; ring). rewrite E2 in X. rewrite Y' in Y.
      assert (P : (1 - s) * K < 0) by (clear - S1' Q; qc). assert (P' : 0 <= cross u' v' (half_way r v')) by (clear - Y; qcl). specialize (W P'). clear - X W P. qcl. }
  assert (K0 : K = 0) by qcl. rewrite K0 in *. destruct Sk as [Sk|[Sk|[Sk|[Sk|[Sk|Sk]]]]]; [lord|lord| | | |]; apply Sk; [rewrite E1|rewrite E2|rewrite E3|rewrite E4]; ring.
Qed.
Lemma meet_sym : forall e e', meet_at_ends e e' -> meet_at_ends e' e.
Proof. intros e e' M r O O'. destruct (M r O' O). auto. Qed.
Lemma meet_rev : forall e e', meet_at_ends e e' -> meet_at_ends e (reversed e').
Proof. intros e e' M r O O'. cbn [reversed fst snd] in *. apply on_seg_sym in O'. destruct (M r O O') as [A [B|B]]; auto. Qed.

(** The edges of one chain. *)
Lemma edges_sorted : forall l, increasing l -> ForallOrdPairs (fun e e' => lex_lt (fst e) (snd e) /\ lex_lt (fst e') (snd e') /\ lex_le (snd e) (fst e')) (edges l).
Proof.
  induction l as [|a l IH]; intros S; [constructor|]. destruct l as [|b l]; [constructor|]. rewrite edges_cons. inversion S as [|? ? S' F]; subst. constructor; auto.
  apply Forall_forall. intros [c d] I. cbn [fst snd]. inversion F as [|? ? Fb _]; subst. split; auto. split; [apply (inc_edge (b :: l)); auto|].
  apply edges_nth in I as ([|i] & A & B); [injection A as ->; apply lex_le_refl|]. apply lex_lt_le. apply (inc_nth (b :: l) 0 (Datatypes.S i)); auto; lia.
Qed.
Lemma chain_meet : forall l, increasing l -> ForallOrdPairs meet_at_ends (edges l).
Proof.
  intros l S. apply (FOP_impl (fun e e' => lex_lt (fst e) (snd e) /\ lex_lt (fst e') (snd e') /\ lex_le (snd e) (fst e'))); [|apply edges_sorted; auto]. intros [a b] [c d] _ _ (L1 & L2 & L3) r O O'. cbn [fst snd] in *.
  destruct (on_seg_between _ _ _ L1 O) as [A B]. destruct (on_seg_between _ _ _ L2 O') as [C D].
  assert (r = b) by (apply lex_le_antisym; auto; lord). assert (r = c) by (apply lex_le_antisym; auto; lord). auto.
Qed.
Lemma FOP_reversed : forall l, ForallOrdPairs meet_at_ends l -> ForallOrdPairs meet_at_ends (rev (map reversed l)).
Proof.
  intros l F. induction F as [|a l Fa F IH]; [constructor|]. cbn [map rev]. apply FOP_app. split; auto. split; [constructor; constructor|]. intros x y I [<-|[]].
  apply in_rev, in_map_iff in I as (z & <- & I). rewrite Forall_forall in Fa. apply meet_rev, meet_sym, meet_rev. auto.
Qed.
Lemma inc_nodup : forall l, increasing l -> NoDup l.
Proof.
  intros l S. induction S as [|a l S IH F]; constructor; auto. intros I. rewrite Forall_forall in F. apply (lex_irrefl a). auto.
Qed.

Theorem piece_valid : forall m, mono_pair (mp_top m) (mp_bot m) -> (forall q, ordered_at q (edges (mp_bot m)) (edges (mp_top m))) -> tight (mp_bot m) (mp_top m) ->
  valid_polygon (mkPolygon (mp_top m ++ tl (rev (mp_bot m))) []).
Proof.
  intros [top bot] MP Or [Cl Ap]. cbn [mp_top mp_bot] in *. pose proof MP as (p & q & [t' S1] & [b' S2] & [t0 E1] & [b0 E2] & Npq & I1 & I2).
  assert (Sb : exists c, bot = p :: c ++ [q]).
  { destruct b0 as [|x c]; [rewrite E2 in S2; injection S2 as S2 _; congruence|]. exists c. rewrite E2 in S2. injection S2 as <- _. exact E2. }
  destruct Sb as [c Sb]. assert (St : exists k, t' = k ++ [q]).
  { destruct t0 as [|x k]; [rewrite E1 in S1; injection S1 as S1 _; congruence|]. exists k. rewrite E1 in S1. injection S1 as _ <-. reflexivity. }
  destruct St as [k St].
  assert (Rg : top ++ tl (rev bot) = p :: (t' ++ rev c) ++ [p]).
  { rewrite S1, Sb. cbn [rev]. rewrite rev_app_distr. cbn [rev app tl]. rewrite <- app_assoc. reflexivity. }
  pose proof (inc_nodup _ I1) as N1. pose proof (inc_nodup _ I2) as N2. rewrite S1 in N1. rewrite Sb in N2.
  rewrite Sb, S1 in Ap. clear S2.
  constructor; cbn [pg_interiors pg_exterior].
  - intros l [<-|[]]. cbn [pg_exterior]. rewrite Rg. exists p, (t' ++ rev c). split; auto. split.
    + change (p :: t' ++ rev c) with ((p :: t') ++ rev c). apply nodup_app; split; [|split].
      * exact N1.
      * apply NoDup_rev. inversion N2 as [|? ? _ N3]; subst. apply NoDup_app_remove_r in N3. exact N3.
      * intros x I J. apply in_rev in J. inversion N2 as [|? ? Np Nc]. assert (Ib : In x (p :: c ++ [q])) by (right; apply in_or_app; auto). destruct (Ap x Ib I) as [[k' Q]|[k' Q]].
        -- injection Q as Q _. subst x. apply Np. apply in_or_app; auto.
        -- change (p :: c ++ [q]) with ((p :: c) ++ [q]) in Q. apply app_inj_tail in Q as [_ <-]. apply NoDup_remove_2 in Nc. apply Nc. rewrite app_nil_r. exact J.
    + rewrite app_length, rev_length, St, app_length. cbn [length]. destruct k as [|y k]; [|cbn [length]; lia]. destruct c as [|y c]; [|cbn [length]; lia]. exfalso. rewrite Sb, S1, St in Or. cbn in Or.
      destruct (Or p p q p q (or_introl eq_refl) (or_introl eq_refl)) as [Sk _]. rewrite S1, St in I1. inversion I1 as [|? ? _ F]; subst. inversion F as [|? ? L _]; subst. destruct Sk as [Sk|[Sk|[Sk|[Sk|[Sk|Sk]]]]]; [lord|lord| | | |]; apply Sk; unfold cross; ring.
  - unfold all_edges, rings_in. cbn [flat_map app pg_exterior pg_interiors map]. rewrite !app_nil_r. rewrite into_polygon_edges by auto. apply FOP_app. split; [apply chain_meet; auto|]. split; [apply FOP_reversed, chain_meet; auto|].
    intros [u' v'] x It I. apply in_rev, in_map_iff in I as ([u v] & <- & I). apply meet_rev, meet_sym. apply ordered_meet; auto; [apply (inc_edge bot); auto|apply (inc_edge top); auto|].
    intros r a b x y [Q|[]] [Q'|[]]. injection Q as <- <-. injection Q' as <- <-. apply (Or r); auto.
  - cbn. constructor; constructor.
  - intros h v [].
  - intros A h B v Q. destruct A; discriminate.
Qed.
