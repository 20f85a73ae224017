(** Monotone decomposition: the six kinds of events keep the invariant of the chains. *)
Require Import List String Bool Arith Lia Permutation Sorted.
From Verif Require Import Base Scalar M_Events M_Geo M_LineOrPoint M_Slab M_Active M_MonoPoly M_Rings M_Op M_MonoSweep M_Chains.
From Verif Require Import S_Geo P_Geo P_LineOrPoint P_Tilt P_Chain P_Bundle P_Order P_Inv P_Slab P_BTree.
From Verif Require Import P_OpLab P_OpStep P_OpPlane P_MonoGeo P_MonoSweep P_MonoStep P_ChainDesc P_ChainEvent P_MonoChains P_ChainStep.
Import Datatypes.
Import ListNotations.
Local Open Scope nat_scope.

Lemma tagged_one : forall b z, tagged b [z] = []. Proof. reflexivity. Qed.
Ltac acct := unfold open, tag, twice; cbn [flat_map map app prs snd fst tedges]; unfold tedges; cbn [sett setb ob ot];
  repeat match goal with E : ob ?o = _ |- context [ob ?o] => rewrite E | E : ot ?o = _ |- context [ot ?o] => rewrite E end;
  rewrite ?tagged_cons, ?tagged_one;
  apply cnt_perm; intros ?x; repeat (rewrite ?cnt_app, ?cnt_cons, ?cnt_nil); lia.

Section Steps.
Context {ln : nat -> line} {n : nat} {e : Qc} {V V' : list pt} {top : nat -> bool}.
Context (G : mono_geo ln n e V V' top).
Notation tl := (tilt e).
Notation H := (P_Order.H e).
Notation K := (P_Order.K e).
Notation Sl := (P_Order.S e).
Notation ea := (ea ln).
Notation ez := (ez ln).
Notation eb := (eb ln).
Notation actb := (actb ln).
Notation inc := (inc ln).
Notation lo := (@lo ln e).
Notation sorted := (@sorted ln n e).
Notation pos := (@pos ln e).
Notation sstep := (@sstep ln n e).
Notation ends_at := (@ends_at ln n).
Notation starts_at := (@starts_at ln n).
Notation HVV := (mg_incl _ _ _ _ _ _ G).
Notation pw := (@pw e V V').
Notation segle := (@segle e V').
Notation gbase := (@gbase ln e V).
Notation gbody := (@gbody ln n e V V' top).
Notation gw := (@gw ln n e V V' top).
Notation done := (@done e V V').
Notation started := (@started ln n top).
Notation cinv := (@cinv ln n e V V' top).
Notation pend := (@pend ln n top).
Notation tag := (@tag ln top).

Variables p p' : pt.
Hypothesis Vp : In p V'.
Hypothesis Vp' : In p' V.
Hypothesis Lp : lex_lt p p'.
Hypothesis Nx : forall v, In v V -> lex_lt p v -> lex_lt v p' -> False.
Notation Vq := (Vp0 G p' Vp').

Lemma gap_new : forall q X b t h m Y, In q V' -> sorted q (flat (X ++ mkSgap b t h m :: Y)) ->
  b < n /\ t < n /\ actb q b = true /\ actb q t = true /\ lo q b t /\ top b = false /\ top t = true.
Proof.
  intros q X b t h m Y Vq S. assert (Ib : In b (flat (X ++ mkSgap b t h m :: Y))) by (rewrite flat_app; apply in_or_app; right; left; auto). assert (It : In t (flat (X ++ mkSgap b t h m :: Y))) by (rewrite flat_app; apply in_or_app; right; right; left; auto).
  destruct (gap_labels (top := top) (X ++ mkSgap b t h m :: Y)) with (g := mkSgap b t h m) as [T1 T2]; [apply (alt_sorted G q); auto|apply in_or_app; right; left; auto|].
  repeat split; auto; try (apply (so_lt _ _ _ S); auto); try (apply (so_actb _ _ _ S); auto).
  pose proof (so_ord _ _ S) as F. rewrite flat_app in F. apply FOP_app in F as (_ & F & _). cbn in F. inversion F as [|? ? F1 _]; subst. inversion F1; subst. auto.
Qed.

Section Mid.
Variables (X mid Y : list gbod) (cs : list mchain) (D : list opair).
Hypothesis C : cinv p (X ++ mid ++ Y) cs D.
Hypothesis So : sorted p (flat (map fst (X ++ mid ++ Y))).
Lemma in_mid : forall y, In y mid -> In y (X ++ mid ++ Y). Proof. intros y I. rewrite !in_app_iff. auto. Qed.
Lemma in_rest : forall o, In o (open X ++ open Y) -> exists x, In x (X ++ mid ++ Y) /\ (In x X \/ In x Y) /\ In o (prs (snd x)).
Proof. intros o I. rewrite in_app_iff, !in_open in I. destruct I as [(x & I & J)|(x & I & J)]; exists x; rewrite !in_app_iff; auto. Qed.
Lemma mid_desc : desc cs (open mid ++ open X ++ open Y) D.
Proof.
  apply (desc_perm _ _ _ _ _ (ci_desc _ _ _ _ C)); [|apply Permutation_refl]. rewrite !open_app. rewrite !app_assoc. apply Permutation_app_tail. apply Permutation_app_comm.
Qed.
Lemma mid_full : forall o, In o (open mid ++ open X ++ open Y) -> full o.
Proof. intros o I. apply (full_all p _ _ _ C). rewrite !open_app, !in_app_iff in *. tauto. Qed.
Lemma mid_flat : forall x y, (In x X \/ In x Y) -> In y mid -> sg_b (fst x) <> sg_b (fst y) /\ sg_b (fst x) <> sg_t (fst y) /\ sg_t (fst x) <> sg_b (fst y) /\ sg_t (fst x) <> sg_t (fst y).
Proof.
  intros x y I J. pose proof (so_nodup _ _ So) as N. rewrite !map_app, !flat_app in N.
  assert (Fl : forall l (z : gbod), In z l -> In (sg_b (fst z)) (flat (map fst l)) /\ In (sg_t (fst z)) (flat (map fst l))) by (intros l z Iz; apply in_flat; auto).
  apply nodup_app in N as (N1 & N2 & N3). apply nodup_app in N2 as (N4 & N5 & N6). destruct (Fl mid y J) as [F1 F2]. destruct I as [I|I].
  - destruct (Fl X x I) as [F3 F4]. repeat split; intros E; first [apply (N3 _ F3); rewrite E; apply in_or_app; auto|apply (N3 _ F4); rewrite E; apply in_or_app; auto].
  - destruct (Fl Y x I) as [F3 F4]. repeat split; intros E; first [apply (N6 _ F1); rewrite <- E; auto; fail|apply (N6 _ F2); rewrite <- E; auto; fail].
Qed.
Lemma rest_off : forall E, ends_at p' E -> (forall c, In c E -> exists y, In y mid /\ (c = sg_b (fst y) \/ c = sg_t (fst y))) -> forall o, In o (open X ++ open Y) -> off p' o.
Proof.
  intros E HE HM o I. apply in_rest in I as (x & I & R & J). destruct (gap_act p _ So x I) as (L1 & L2 & _ & _). apply (off_pt p p' Vp' Lp Nx _ _ _ C x o I J).
  - intros Q. destruct (HM (sg_b (fst x))) as (y & Iy & K); [apply HE; auto|]. pose proof (mid_flat x y R Iy). tauto.
  - intros Q. destruct (HM (sg_t (fst x))) as (y & Iy & K); [apply HE; auto|]. pose proof (mid_flat x y R Iy). tauto.
Qed.
Lemma rest_off_m : forall y, In y mid -> sg_m (fst y) = true -> forall o, In o (open X ++ open Y) -> off (sg_h (fst y)) o.
Proof.
  intros y Iy M o I. apply in_rest in I as (x & I & R & J). apply (off_mg p _ _ _ C So y x o); auto using in_mid. intros E. pose proof (mid_flat x y R Iy) as Q. rewrite E in Q. tauto.
Qed.
End Mid.

Lemma H_end : forall c, c < n -> ez c = p' -> H (eb c) (tl p') = cy p'. Proof. intros c L <-. apply (Hz G); auto. Qed.
Lemma H_start : forall c, c < n -> ea c = p' -> H (eb c) (tl p') = cy p'. Proof. intros c L <-. apply (Ha G); auto. Qed.
Lemma ge_refl : forall x y : Qc, x = y -> (x <= y)%Qc. Proof. intros x y ->. apply Qcle_refl. Qed.
Lemma pos_lt_le : forall b, pos p' b = Lt -> (H (eb b) (tl p') <= cy p')%Qc. Proof. intros b E. apply (proj1 (pos_lt _ _)) in E. qcl. Qed.
Lemma pos_gt_le : forall b, pos p' b = Gt -> (cy p' <= H (eb b) (tl p'))%Qc. Proof. intros b E. apply (proj1 (pos_gt _ _)) in E. qcl. Qed.

(** Beginning of a part of the interior. *)
Lemma step_start : forall X Y b t cs D, cinv p (X ++ Y) cs D -> sorted p (flat (map fst (X ++ Y))) -> sorted p' (flat (map fst X ++ mkSgap b t p' false :: map fst Y)) ->
  ends_at p' [] -> starts_at p' [b; t] ->
  exists cs' N, chain_event cs (mkSweepEvent p' VStart [LStart p' (ez t) (ez b)]) = Ok cs' /\ cinv p' (X ++ (mkSgap b t p' false, N) :: Y) cs' D.
Proof.
  intros X Y b t cs D C So So' E S. destruct (gap_new _ _ _ _ _ _ _ Vq So') as (Lb & Lt_ & Ab & At & Lo & Tb & Tt).
  assert (Eb : ea b = p') by (apply S; left; auto). assert (Et : ea t = p') by (apply S; right; left; auto). pose proof (azlt G b Lb) as Zb. pose proof (azlt G t Lt_) as Zt. rewrite Eb in Zb. rewrite Et in Zt.
  assert (C' : cinv p (X ++ [] ++ Y) cs D) by exact C.
  destruct (ev_start p' (ez t) (ez b) cs (open X ++ open Y) D) as (cs' & o & R & De & E1 & E2).
  - apply (mid_desc X [] Y cs D C').
  - apply (mid_full X [] Y cs D C').
  - apply (rest_off X [] Y cs D C' So []); auto. intros c [].
  - intros Q. rewrite Q in Zt. lord.
  - intros Q. rewrite Q in Zb. lord.
  - exists cs', (One o). split; auto. apply (cinv_make G p p' Vp' Lp Nx X Y [] [(mkSgap b t p' false, One o)] cs D cs' [] [b; t] []); auto.
    + intros x [<-|[]]. split; cbn [fst snd].
      * constructor; cbn [sg_h sg_b sg_t]; rewrite ?Eb, ?Et; try apply lex_le_refl; auto; apply ge_refl; [|symmetry]; apply H_start; auto.
      * cbn [P_MonoChains.gbody]. split; auto. split; [|split; [exists []; rewrite Eb; auto|split; [exists []; rewrite Et; auto|left; split; auto]]].
        -- rewrite <- (mkO_eta o), E1, E2. apply pw_wedge; auto using (zV0 G). rewrite <- Eb at 1. rewrite <- Et. apply (segle_edges G p'); auto using Vq.
        -- intros c Lc Ec Nc. assert (I : In c [b; t]) by (apply S; auto). destruct I as [->|[->|[]]]; [contradiction|auto].
    + intros o' [].
    + apply nodup_starts. intros ->. apply (lo_irrefl _ _ Lo).
    + unfold P_ChainStep.tag. cbn [map]. rewrite Tb, Tt, Eb, Et. acct.
Qed.

(** ** The old gap and its chains *)
Lemma done_eq : forall o q a b l1 l2, pw o -> ob o = q :: a :: l1 -> ot o = q :: b :: l2 -> done o.
Proof. intros o q a b l1 l2 P E1 E2. split; auto. exists q, (a :: l1), (b :: l2). repeat split; auto. discriminate. Qed.
Lemma at_mid : forall X Y y cs D, cinv p (X ++ [y] ++ Y) cs D -> gw p y.
Proof. intros X Y y cs D C. apply (ci_gw _ _ _ _ C). rewrite !in_app_iff. right; left; left; auto. Qed.
Lemma mid_act : forall (X Y : list gbod) b t h m B, sorted p (flat (map fst (X ++ [(mkSgap b t h m, B)] ++ Y))) ->
  b < n /\ t < n /\ actb p b = true /\ actb p t = true /\ top b = false /\ top t = true.
Proof. intros X Y b t h m B S. rewrite map_app in S. cbn [map fst app] in S. destruct (gap_new p _ _ _ _ _ _ Vp S) as (A1 & A2 & A3 & A4 & _ & A5 & A6). auto 10. Qed.
Lemma next_le : forall c, c < n -> actb p c = true -> lex_le p' (ez c).
Proof. intros c L A. apply isact_iff in A as [_ A]. destruct (lex_le_dec p' (ez c)) as [Z|Z]; auto. exfalso. apply (Nx (ez c)); auto using (zV0 G). Qed.
(** The diagonal from the helper to the vertex, seen from below and from above. *)
Definition free (h : pt) (b : nat) : Prop := actb p b = true /\ (H (eb b) (tl p') <> cy p' \/ forall c, c < n -> ea c <> h).
Lemma diag_over : forall b t h m, gbase p (mkSgap b t h m) -> b < n -> free h b -> (H (eb b) (tl p') <= cy p')%Qc -> segle (ea b) (ez b) h p'.
Proof. intros b t h m [] L [A F] Q. cbn [sg_b sg_t sg_h] in *. apply (segle_above G p); auto using Vq; [apply (clr_diag G); auto using next_le; lord| |apply HVV; auto]. split; auto. split; auto. destruct F; auto. Qed.
Lemma diag_under : forall b t h m, gbase p (mkSgap b t h m) -> t < n -> free h t -> (cy p' <= H (eb t) (tl p'))%Qc -> segle h p' (ea t) (ez t).
Proof. intros b t h m [] L [A F] Q. cbn [sg_b sg_t sg_h] in *. apply (segle_below G p); auto using Vq; [apply (clr_diag G); auto using next_le; lord| |apply HVV; auto]. split; auto. split; auto. destruct F; auto. Qed.
Lemma free_lt : forall h b, actb p b = true -> pos p' b = Lt -> free h b.
Proof. intros h b A P. split; auto. left. apply (proj1 (pos_lt _ _)) in P. intros Q. rewrite Q in P. apply Qclt_not_eq in P. auto. Qed.
Lemma free_gt : forall h b, actb p b = true -> pos p' b = Gt -> free h b.
Proof. intros h b A P. split; auto. left. apply (proj1 (pos_gt _ _)) in P. intros Q. rewrite Q in P. apply Qclt_not_eq in P. auto. Qed.
Lemma free_merge : forall h b, actb p b = true -> (forall c, c < n -> ea c <> h) -> free h b.
Proof. intros h b A N. split; auto. Qed.
Lemma push_lo : forall b t h m lo_ x k l, gbase p (mkSgap b t h m) -> b < n -> actb p b = true -> (forall c, c < n -> ea c <> h) -> (H (eb b) (tl p') <= cy p')%Qc -> pw lo_ -> ob lo_ = ez b :: ea b :: l -> ot lo_ = h :: x :: k ->
  pw (sett (p' :: h :: x :: k) lo_).
Proof.
  intros b t h m lo_ x k l B L Ac Nc Q P E1 E2. apply (pw_push_t lo_ h (x :: k) p' (ez b) (ea b) l); auto; try (apply B); [|intros Z; apply (late (ln := ln) p b h); auto; apply B|apply (diag_over b t h m); auto using free_merge].
  pose proof (gb_hp _ _ B) as Z. cbn [sg_h] in Z. lord.
Qed.
Lemma push_hi : forall b t h m hi x k l, gbase p (mkSgap b t h m) -> t < n -> actb p t = true -> (forall c, c < n -> ea c <> h) -> (cy p' <= H (eb t) (tl p'))%Qc -> pw hi -> ot hi = ez t :: ea t :: l -> ob hi = h :: x :: k ->
  pw (setb (p' :: h :: x :: k) hi).
Proof.
  intros b t h m lo_ x k l B L Ac Nc Q P E1 E2. apply (pw_push_b lo_ h (x :: k) p' (ez t) (ea t) l); auto; try (apply B); [|intros Z; apply (late (ln := ln) p t h); auto; apply B|apply (diag_under b t h m); auto using free_merge].
  pose proof (gb_hp _ _ B) as Z. cbn [sg_h] in Z. lord.
Qed.
Lemma base_lt : forall b t h m, gbase p (mkSgap b t h m) -> lex_lt h p' /\ p' <> h.
Proof. intros b t h m B. pose proof (gb_hp _ _ B) as Z. cbn [sg_h] in Z. split; [lord|]. intros Q. rewrite <- Q in Z. lord. Qed.

(** End of a part of the interior. *)
Lemma step_end : forall X Y b t h m B cs D, cinv p (X ++ [(mkSgap b t h m, B)] ++ Y) cs D -> sorted p (flat (map fst (X ++ [(mkSgap b t h m, B)] ++ Y))) ->
  ends_at p' [b; t] -> starts_at p' [] ->
  exists cs' D', chain_event cs (mkSweepEvent p' VEnd (mlinks m h p' None ++ [LEnd (ea t) (ea b) p'])) = Ok cs' /\ cinv p' (X ++ Y) cs' D'.
Proof.
  intros X Y b t h m B cs D C So E S. destruct (mid_act _ _ _ _ _ _ _ So) as (Lb & Lt_ & Ab & At & Tb & Tt). destruct (at_mid _ _ _ _ _ C) as [Ba Bo]. cbn [fst snd] in Ba, Bo.
  assert (Eb : ez b = p') by (apply E; left; auto). assert (Et : ez t = p') by (apply E; right; left; auto). destruct (base_lt _ _ _ _ Ba) as [Lh Nh].
  pose proof (mid_desc _ _ _ _ _ C) as De. pose proof (mid_full _ _ _ _ _ C) as Fu.
  assert (Of : forall o, In o (open X ++ open Y) -> off p' o).
  { apply (rest_off _ _ _ _ _ C So [b; t] E). intros c [<-|[<-|[]]]; exists (mkSgap b t h m, B); cbn; auto. }
  destruct B as [o|lo_ hi]; cbn [P_MonoChains.gbody] in Bo.
  - destruct Bo as (-> & P & (l1 & E1) & (l2 & E2) & _). rewrite Eb in E1. rewrite Et in E2. destruct (ev_end_one p' [LEnd (ea t) (ea b) p'] cs o (open X ++ open Y) D (ea b :: l1) (ea t :: l2)) as (cs' & R & De'); eauto.
    exists cs', ([o] ++ D). split; [exact R|]. apply (cinv_make G p p' Vp' Lp Nx X Y [(mkSgap b t h false, One o)] [] cs D cs' [o] [] []); auto.
    + intros x [].
    + intros o' [<-|[]]. apply (done_eq o p' (ea b) (ea t) l1 l2); auto.
    + apply NoDup_nil.
  - destruct Bo as (-> & P1 & P2 & (l1 & E1) & (x2 & l2 & E2 & _) & (x3 & l3 & E3 & _) & (l4 & E4) & Nh0). pose proof E1 as F1. pose proof E4 as F4. rewrite Eb in F1. rewrite Et in F4.
    destruct (ev_end_two p' h None (ea t) (ea b) cs lo_ hi (open X ++ open Y) D (ea b :: l1) (x2 :: l2) (x3 :: l3) (ea t :: l4)) as (cs' & R & De'); auto.
    { apply (rest_off_m _ _ _ _ _ C So (mkSgap b t h true, Two lo_ hi)); [left; auto|reflexivity]. }
    exists cs', ([sett (p' :: h :: x2 :: l2) lo_; setb (p' :: h :: x3 :: l3) hi] ++ D). split; [exact R|].
    apply (cinv_make G p p' Vp' Lp Nx X Y [(mkSgap b t h true, Two lo_ hi)] [] cs D cs' [sett (p' :: h :: x2 :: l2) lo_; setb (p' :: h :: x3 :: l3) hi] [] [(h, p')]); auto.
    + intros x [].
    + intros o' [<-|[<-|[]]].
      * apply (done_eq _ p' (ea b) h l1 (x2 :: l2)); auto. apply (push_lo b t h true _ _ _ l1); auto. apply ge_refl. apply H_end; auto.
      * apply (done_eq _ p' h (ea t) (x3 :: l3) l4); auto. apply (push_hi b t h true _ _ _ l4); auto. apply ge_refl. symmetry. apply H_end; auto.
    + apply NoDup_nil.
    + acct.
Qed.

(** ** New edges *)
Lemma edge_over : forall b t, b < n -> t < n -> actb p' b = true -> actb p' t = true -> lo p' b t -> ea t = p' -> segle (ea b) (ez b) p' (ez t).
Proof. intros b t Lb Lt_ Ab At Lo E. rewrite <- E. apply (segle_edges G p'); auto using Vq. Qed.
Lemma edge_under : forall b t, b < n -> t < n -> actb p' b = true -> actb p' t = true -> lo p' b t -> ea b = p' -> segle p' (ez b) (ea t) (ez t).
Proof. intros b t Lb Lt_ Ab At Lo E. rewrite <- E. apply (segle_edges G p'); auto using Vq. Qed.
Lemma base_new : forall b t m, actb p' b = true -> actb p' t = true -> (H (eb b) (tl p') <= cy p')%Qc -> (cy p' <= H (eb t) (tl p'))%Qc -> gbase p' (mkSgap b t p' m).
Proof. intros b t m Ab At Q1 Q2. apply actb_iff in Ab as [Ab _]. apply actb_iff in At as [At _]. constructor; cbn [sg_b sg_t sg_h]; auto using lex_le_refl. Qed.
Lemma act_ez : forall c, actb p' c = true -> ez c <> p'.
Proof. intros c A E. apply actb_iff in A as [_ A]. rewrite E in A. lord. Qed.
Lemma push_top : forall b t o l k, b < n -> t < n -> actb p' b = true -> actb p' t = true -> lo p' b t -> ea t = p' -> pw o -> ob o = ez b :: ea b :: l -> ot o = p' :: k -> pw (sett (ez t :: p' :: k) o).
Proof.
  intros b t o l k Lb Lt_ Ab At Lo E P E1 E2. apply (pw_push_t o p' k (ez t) (ez b) (ea b) l); auto using (zV0 G), edge_over.
  - apply actb_iff in Ab. tauto.
  - rewrite <- E. apply (azlt G); auto.
  - intros Z. apply (act_ez b Ab). auto.
Qed.
Lemma push_bot : forall b t o l k, b < n -> t < n -> actb p' b = true -> actb p' t = true -> lo p' b t -> ea b = p' -> pw o -> ot o = ez t :: ea t :: l -> ob o = p' :: k -> pw (setb (ez b :: p' :: k) o).
Proof.
  intros b t o l k Lb Lt_ Ab At Lo E P E1 E2. apply (pw_push_b o p' k (ez b) (ez t) (ea t) l); auto using (zV0 G), edge_under.
  - apply actb_iff in At. tauto.
  - rewrite <- E. apply (azlt G); auto.
  - intros Z. apply (act_ez t At). auto.
Qed.

(** The top edge of a part of the interior is followed by another one. *)
Lemma step_top : forall X Y b t t' h m B cs D, cinv p (X ++ [(mkSgap b t h m, B)] ++ Y) cs D -> sorted p (flat (map fst (X ++ [(mkSgap b t h m, B)] ++ Y))) ->
  sorted p' (flat (map fst X ++ mkSgap b t' p' false :: map fst Y)) -> ends_at p' [t] -> starts_at p' [t'] -> pos p' b = Lt ->
  exists cs' N D', chain_event cs (mkSweepEvent p' VContinue (mlinks m h p' None ++ [LContinue (ea t) p' (ez t') Cw])) = Ok cs' /\ cinv p' (X ++ [(mkSgap b t' p' false, N)] ++ Y) cs' D'.
Proof.
  intros X Y b t t' h m B cs D C So So' E S Po. destruct (mid_act _ _ _ _ _ _ _ So) as (Lb & Lt_ & Ab & At & Tb & Tt). destruct (at_mid _ _ _ _ _ C) as [Ba Bo]. cbn [fst snd] in Ba, Bo.
  destruct (gap_new _ _ _ _ _ _ _ Vq So') as (_ & Lt' & Ab' & At' & Lo & _ & Tt').
  assert (Et : ez t = p') by (apply E; left; auto). assert (Et' : ea t' = p') by (apply S; left; auto). destruct (base_lt _ _ _ _ Ba) as [Lh Nh].
  pose proof (mid_desc _ _ _ _ _ C) as De. pose proof (mid_full _ _ _ _ _ C) as Fu.
  assert (Of : forall o, In o (open X ++ open Y) -> off p' o).
  { apply (rest_off _ _ _ _ _ C So [t] E). intros c [<-|[]]; exists (mkSgap b t h m, B); cbn; auto. }
  assert (Q1 : (H (eb b) (tl p') <= cy p')%Qc) by (apply pos_lt_le; auto). assert (Q2 : (cy p' <= H (eb t') (tl p'))%Qc) by (apply ge_refl; symmetry; apply H_start; auto). assert (Q3 : (cy p' <= H (eb t) (tl p'))%Qc) by (apply ge_refl; symmetry; apply H_end; auto).
  assert (Hd : forall l, hdb p' (ez b :: l) = false) by (intros l; apply hdb_diff; apply act_ez; auto).
  assert (W : forall o l k, pw o -> ob o = ez b :: ea b :: l -> ot o = p' :: k -> gw p' (mkSgap b t' p' false, One (sett (ez t' :: p' :: k) o))).
  { intros o l k P E1 E2. split; [apply base_new; auto|]. cbn [fst snd P_MonoChains.gbody]. split; auto. split; [apply (push_top b t' o l k); auto|]. split; [exists l; auto|]. split; [exists k; rewrite Et'; auto|].
    right. split; auto. intros c Lc Ec Nc. assert (I : In c [t']) by (apply S; auto). destruct I as [->|[]]. contradiction. }
  destruct B as [o|lo_ hi]; cbn [P_MonoChains.gbody] in Bo.
  - destruct Bo as (-> & P & (l1 & E1) & (l2 & E2) & _). rewrite Et in E2. destruct (ev_top_one p' (ea t) (ez t') Cw cs o (open X ++ open Y) D l2) as (cs' & R & De'); auto.
    { apply act_ez; auto. }
    { rewrite E1. apply Hd. }
    exists cs', (One (sett (ez t' :: p' :: ea t :: l2) o)), ([] ++ D). split; [exact R|].
    apply (cinv_make G p p' Vp' Lp Nx X Y [(mkSgap b t h false, One o)] [(mkSgap b t' p' false, One (sett (ez t' :: p' :: ea t :: l2) o))] cs D cs' [] [t'] []); auto.
    + intros x [<-|[]]. apply (W o l1); auto.
    + intros x [].
    + constructor; [intros []|apply NoDup_nil].
    + unfold P_ChainStep.tag. cbn [map]. rewrite Tt', Et'. acct.
  - destruct Bo as (-> & P1 & P2 & (l1 & E1) & (x2 & l2 & E2 & _) & (x3 & l3 & E3 & _) & (l4 & E4) & Nh0). pose proof E4 as F4. rewrite Et in F4.
    destruct (ev_top_two p' h None (ea t) (ez t') Cw cs lo_ hi (open X ++ open Y) D (x2 :: l2) (x3 :: l3) l4) as (cs' & R & De'); auto.
    { apply (rest_off_m _ _ _ _ _ C So (mkSgap b t h true, Two lo_ hi)); [left; auto|reflexivity]. }
    { apply act_ez; auto. }
    { rewrite E1. apply Hd. }
    { rewrite E1. apply hdb_diff. apply (late p); auto. apply Ba. }
    pose proof (push_lo b t h true _ _ _ l1 Ba Lb Ab Nh0 Q1 P1 E1 E2) as PL. pose proof (push_hi b t h true _ _ _ l4 Ba Lt_ At Nh0 Q3 P2 E4 E3) as PH.
    exists cs', (One (sett (ez t' :: p' :: h :: x2 :: l2) lo_)), ([mkO (bi hi) (ti hi) (p' :: h :: x3 :: l3) (p' :: ea t :: l4)] ++ D). split; [exact R|].
    apply (cinv_make G p p' Vp' Lp Nx X Y [(mkSgap b t h true, Two lo_ hi)] [(mkSgap b t' p' false, One (sett (ez t' :: p' :: h :: x2 :: l2) lo_))] cs D cs' [mkO (bi hi) (ti hi) (p' :: h :: x3 :: l3) (p' :: ea t :: l4)] [t'] [(h, p')]); auto.
    + intros x [<-|[]]. apply (W _ l1 _ PL); auto.
    + intros o' [<-|[]]. unfold setb in PH. rewrite F4 in PH. apply (done_eq _ p' h (ea t) (x3 :: l3) l4 PH); auto.
    + constructor; [intros []|apply NoDup_nil].
    + unfold P_ChainStep.tag. cbn [map]. rewrite Tt', Et'. clear E4. acct.
Qed.

(** The bottom edge of a part of the interior is followed by another one. *)
Lemma step_bot : forall X Y b b' t h m lim B cs D, cinv p (X ++ [(mkSgap b t h m, B)] ++ Y) cs D -> sorted p (flat (map fst (X ++ [(mkSgap b t h m, B)] ++ Y))) ->
  sorted p' (flat (map fst X ++ mkSgap b' t p' false :: map fst Y)) -> ends_at p' [b] -> starts_at p' [b'] -> pos p' t = Gt ->
  exists cs' N D', chain_event cs (mkSweepEvent p' VContinue (mlinks m h p' (Some lim) ++ [LContinue (ea b) p' (ez b') Ccw])) = Ok cs' /\ cinv p' (X ++ [(mkSgap b' t p' false, N)] ++ Y) cs' D'.
Proof.
  intros X Y b b' t h m lim B cs D C So So' E S Po. destruct (mid_act _ _ _ _ _ _ _ So) as (Lb & Lt_ & Ab & At & Tb & Tt). destruct (at_mid _ _ _ _ _ C) as [Ba Bo]. cbn [fst snd] in Ba, Bo.
  destruct (gap_new _ _ _ _ _ _ _ Vq So') as (Lb' & _ & Ab' & At' & Lo & Tb' & _).
  assert (Eb : ez b = p') by (apply E; left; auto). assert (Eb' : ea b' = p') by (apply S; left; auto). destruct (base_lt _ _ _ _ Ba) as [Lh Nh].
  pose proof (mid_desc _ _ _ _ _ C) as De. pose proof (mid_full _ _ _ _ _ C) as Fu.
  assert (Of : forall o, In o (open X ++ open Y) -> off p' o).
  { apply (rest_off _ _ _ _ _ C So [b] E). intros c [<-|[]]; exists (mkSgap b t h m, B); cbn; auto. }
  assert (Q1 : (cy p' <= H (eb t) (tl p'))%Qc) by (apply pos_gt_le; auto). assert (Q2 : (H (eb b') (tl p') <= cy p')%Qc) by (apply ge_refl; apply H_start; auto). assert (Q3 : (H (eb b) (tl p') <= cy p')%Qc) by (apply ge_refl; apply H_end; auto).
  assert (Hd : forall l, hdb p' (ez t :: l) = false) by (intros l; apply hdb_diff; apply act_ez; auto).
  assert (W : forall o l k, pw o -> ot o = ez t :: ea t :: l -> ob o = p' :: k -> gw p' (mkSgap b' t p' false, One (setb (ez b' :: p' :: k) o))).
  { intros o l k P E1 E2. split; [apply base_new; auto|]. cbn [fst snd P_MonoChains.gbody]. split; auto. split; [apply (push_bot b' t o l k); auto|]. split; [exists k; rewrite Eb'; auto|]. split; [exists l; auto|].
    left. split; auto. intros c Lc Ec Nc. assert (I : In c [b']) by (apply S; auto). destruct I as [->|[]]. contradiction. }
  destruct B as [o|lo_ hi]; cbn [P_MonoChains.gbody] in Bo.
  - destruct Bo as (-> & P & (l1 & E1) & (l2 & E2) & _). rewrite Eb in E1. destruct (ev_bot_one p' (ea b) (ez b') Ccw cs o (open X ++ open Y) D l1) as (cs' & R & De'); auto.
    { apply act_ez; auto. }
    { rewrite E2. apply Hd. }
    exists cs', (One (setb (ez b' :: p' :: ea b :: l1) o)), ([] ++ D). split; [exact R|].
    apply (cinv_make G p p' Vp' Lp Nx X Y [(mkSgap b t h false, One o)] [(mkSgap b' t p' false, One (setb (ez b' :: p' :: ea b :: l1) o))] cs D cs' [] [b'] []); auto.
    + intros x [<-|[]]. apply (W o l2); auto.
    + intros x [].
    + constructor; [intros []|apply NoDup_nil].
    + unfold P_ChainStep.tag. cbn [map]. rewrite Tb', Eb'. acct.
  - destruct Bo as (-> & P1 & P2 & (l1 & E1) & (x2 & l2 & E2 & _) & (x3 & l3 & E3 & _) & (l4 & E4) & Nh0). pose proof E1 as F1. rewrite Eb in F1.
    destruct (ev_bot_two p' h (Some lim) (ea b) (ez b') Ccw cs lo_ hi (open X ++ open Y) D (x2 :: l2) (x3 :: l3) l1) as (cs' & R & De'); auto.
    { apply (rest_off_m _ _ _ _ _ C So (mkSgap b t h true, Two lo_ hi)); [left; auto|reflexivity]. }
    { apply act_ez; auto. }
    { rewrite E4. apply Hd. }
    { rewrite E4. apply hdb_diff. apply (late p); auto. apply Ba. }
    pose proof (push_lo b t h true _ _ _ l1 Ba Lb Ab Nh0 Q3 P1 E1 E2) as PL. pose proof (push_hi b t h true _ _ _ l4 Ba Lt_ At Nh0 Q1 P2 E4 E3) as PH.
    exists cs', (One (setb (ez b' :: p' :: h :: x3 :: l3) hi)), ([mkO (bi lo_) (ti lo_) (p' :: ea b :: l1) (p' :: h :: x2 :: l2)] ++ D). split; [exact R|].
    apply (cinv_make G p p' Vp' Lp Nx X Y [(mkSgap b t h true, Two lo_ hi)] [(mkSgap b' t p' false, One (setb (ez b' :: p' :: h :: x3 :: l3) hi))] cs D cs' [mkO (bi lo_) (ti lo_) (p' :: ea b :: l1) (p' :: h :: x2 :: l2)] [b'] [(h, p')]); auto.
    + intros x [<-|[]]. apply (W _ l4 _ PH); auto.
    + intros o' [<-|[]]. unfold sett in PL. rewrite F1 in PL. apply (done_eq _ p' (ea b) h l1 (x2 :: l2) PL); auto.
    + constructor; [intros []|apply NoDup_nil].
    + unfold P_ChainStep.tag. cbn [map]. rewrite Tb', Eb'. clear E1. acct.
Qed.

(** A vertex inside a part of the interior where two edges begin. *)
Lemma orient_b : forall b, b < n -> pos p' b = Lt -> orient2d p' (ea b) (ez b) = CounterClockwise.
Proof.
  intros b Lb P. apply (proj1 (pos_lt _ _)) in P. assert (T : (tl (ea b) < tl (ez b))%Qc) by (apply (tlt G); auto using (aV G), (zV G), (azlt G)).
  assert (Q : cross (ea b) (ez b) p' = ((tl (ez b) - tl (ea b)) * (cy p' - H (eb b) (tl p')))%Qc) by (apply (cross_hgt e); auto).
  assert (Q' : cross p' (ea b) (ez b) = cross (ea b) (ez b) p') by (unfold cross; ring). destruct (orient2d_spec p' (ea b) (ez b)) as [Z|Z|Z]; auto; exfalso; rewrite Q', Q in Z; qc.
Qed.
Lemma orient_t : forall t c h, t < n -> c < n -> ea t = h -> ea c = h -> (Sl (eb t) < Sl (eb c))%Qc -> lex_lt h p' -> pos p' t = Gt -> orient2d p' h (ez c) <> CounterClockwise.
Proof.
  intros t c h Lt_ Lc Et Ec Sp Lh P. apply (proj1 (pos_gt _ _)) in P. assert (T : (tl (ea c) < tl (ez c))%Qc) by (apply (tlt G); auto using (aV G), (zV G), (azlt G)).
  assert (Q : cross (ea c) (ez c) p' = ((tl (ez c) - tl (ea c)) * (cy p' - H (eb c) (tl p')))%Qc) by (apply (cross_hgt e); auto).
  assert (Q' : cross p' h (ez c) = cross (ea c) (ez c) p') by (rewrite Ec; unfold cross; ring).
  assert (Th : (tl h < tl p')%Qc) by (apply (tlt G); auto using Vq; rewrite <- Et; apply (aV G); auto).
  pose proof (H_diff e (eb t) (eb c) (tl h) (tl p')) as Z. assert (E1 : H (eb t) (tl h) = cy h) by (rewrite <- Et; apply (Ha G); auto). assert (E2 : H (eb c) (tl h) = cy h) by (rewrite <- Ec; apply (Ha G); auto). rewrite E1, E2 in Z.
  assert (W : (0 < (tl p' - tl h) * (Sl (eb c) - Sl (eb t)))%Qc) by (clear Z Q Q'; qc). assert (W' : (0 < tl (ez c) - tl (ea c))%Qc) by qcl.
  assert (X : (H (eb t) (tl p') < H (eb c) (tl p'))%Qc) by (clear Q Q'; qcl). assert (Y : (cy p' - H (eb c) (tl p') < 0)%Qc) by (clear Q Q' Z; qcl). intros O. destruct (orient2d_spec p' h (ez c)) as [N|N|N]; try discriminate O. rewrite Q', Q in N. clear Q Q' Z. qc.
Qed.
Lemma step_split : forall X Y b t b' t' h m B cs D, cinv p (X ++ [(mkSgap b t h m, B)] ++ Y) cs D -> sorted p (flat (map fst (X ++ [(mkSgap b t h m, B)] ++ Y))) ->
  sorted p' (flat (map fst X ++ mkSgap b t' p' false :: mkSgap b' t p' false :: map fst Y)) -> ends_at p' [] -> starts_at p' [t'; b'] -> pos p' b = Lt -> pos p' t = Gt ->
  exists cs' N1 N2 D', chain_event cs (mkSweepEvent p' VSplit [if m then LMerge h p' (Some (ez b', ez t')) else LSplit h p' (ez b') (ez t')]) = Ok cs' /\
    cinv p' (X ++ [(mkSgap b t' p' false, N1); (mkSgap b' t p' false, N2)] ++ Y) cs' D'.
Proof.
  intros X Y b t b' t' h m B cs D C So So' E S Pb Pt. destruct (mid_act _ _ _ _ _ _ _ So) as (Lb & Lt_ & Ab & At & Tb & Tt). destruct (at_mid _ _ _ _ _ C) as [Ba Bo]. cbn [fst snd] in Ba, Bo.
  destruct (gap_new _ _ _ _ _ _ _ Vq So') as (_ & Lt' & Ab1 & At1 & Lo1 & _ & Tt').
  pose proof So' as So2. change (mkSgap b t' p' false :: mkSgap b' t p' false :: map fst Y) with ([mkSgap b t' p' false] ++ mkSgap b' t p' false :: map fst Y) in So2. rewrite app_assoc in So2. destruct (gap_new _ _ _ _ _ _ _ Vq So2) as (Lb' & _ & Ab2 & At2 & Lo2 & Tb' & _).
  assert (Et' : ea t' = p') by (apply S; left; auto). assert (Eb' : ea b' = p') by (apply S; right; left; auto). destruct (base_lt _ _ _ _ Ba) as [Lh Nh].
  assert (Sp : (Sl (eb t') < Sl (eb b'))%Qc).
  { pose proof (so_ord _ _ So') as F. rewrite flat_app in F. apply FOP_app in F as (_ & F & _). cbn in F. change (ForallOrdPairs (lo p') ([b] ++ t' :: b' :: t :: flat (map fst Y))) in F. apply FOP_app in F as (_ & F & _). assert (F3 : lo p' t' b') by (clear - F; inversion F as [|? ? F1 _]; inversion F1; auto).
    apply K_lt_iff in F3 as [F3|[_ F3]]; auto. rewrite !H_start in F3 by auto. qcl. }
  pose proof (mid_desc _ _ _ _ _ C) as De. pose proof (mid_full _ _ _ _ _ C) as Fu.
  assert (Nb : ez b <> p') by (apply act_ez; auto). assert (Nt : ez t <> p') by (apply act_ez; auto). assert (Nb' : ez b' <> p') by (apply act_ez; auto). assert (Nt' : ez t' <> p') by (apply act_ez; auto).
  assert (Of : forall o, In o (open [(mkSgap b t h m, B)] ++ open X ++ open Y) -> off p' o).
  { intros o I. apply in_app_iff in I as [I|I]; [|apply (rest_off _ _ _ _ _ C So [] E); auto; intros c []].
    apply in_open in I as (x & [<-|[]] & J). apply (off_pt p p' Vp' Lp Nx _ _ _ C (mkSgap b t h m, B)); auto. rewrite !in_app_iff. right; left; left; auto. }
  assert (Q1 : (H (eb b) (tl p') <= cy p')%Qc) by (apply pos_lt_le; auto). assert (Q2 : (cy p' <= H (eb t) (tl p'))%Qc) by (apply pos_gt_le; auto).
  assert (Q3 : (cy p' <= H (eb t') (tl p'))%Qc) by (apply ge_refl; symmetry; apply H_start; auto). assert (Q4 : (H (eb b') (tl p') <= cy p')%Qc) by (apply ge_refl; apply H_start; auto).
  assert (Nm : t' <> b') by (intros Q; rewrite Q in Sp; qcl).
  assert (W1 : forall o l k, pw o -> ob o = ez b :: ea b :: l -> ot o = p' :: k -> gw p' (mkSgap b t' p' false, One (sett (ez t' :: p' :: k) o))).
  { intros o l k P E1 E2. split; [apply base_new; auto|]. cbn [fst snd P_MonoChains.gbody]. split; auto. split; [apply (push_top b t' o l k); auto|]. split; [exists l; auto|]. split; [exists k; rewrite Et'; auto|].
    right. split; auto. intros c Lc Ec Nc. assert (I : In c [t'; b']) by (apply S; auto). destruct I as [->|[<-|[]]]; [contradiction|auto]. }
  assert (W2 : forall o l k, pw o -> ot o = ez t :: ea t :: l -> ob o = p' :: k -> gw p' (mkSgap b' t p' false, One (setb (ez b' :: p' :: k) o))).
  { intros o l k P E1 E2. split; [apply base_new; auto|]. cbn [fst snd P_MonoChains.gbody]. split; auto. split; [apply (push_bot b' t o l k); auto|]. split; [exists k; rewrite Eb'; auto|]. split; [exists l; auto|].
    left. split; auto. intros c Lc Ec Nc. assert (I : In c [t'; b']) by (apply S; auto). destruct I as [<-|[->|[]]]; [auto|contradiction]. }
  destruct B as [o|lo_ hi]; cbn [P_MonoChains.gbody] in Bo.
  - destruct Bo as (-> & P & (l1 & E1) & (l2 & E2) & Ch). assert (Vh : In h V) by (apply Ba).
    assert (Ix : In (mkSgap b t h false, One o) (X ++ [(mkSgap b t h false, One o)] ++ Y)) by (rewrite !in_app_iff; right; left; left; auto).
    assert (Ps : Permutation (chosen (sk h) (open (X ++ [(mkSgap b t h false, One o)] ++ Y))) (chosen (sk h) (o :: open X ++ open Y))).
    { assert (Z : Permutation (open (X ++ [(mkSgap b t h false, One o)] ++ Y)) (o :: open X ++ open Y)) by (rewrite !open_app; cbn [open flat_map prs snd app]; apply Permutation_sym; apply Permutation_middle). unfold chosen. apply Permutation_flat_map. exact Z. }
    destruct Ch as [[Eh U]|[Eh U]].
    + destruct (ev_split_b p' h (ez b') (ez t') (ez b) cs o (open X ++ open Y) D l1) as (cs' & o2 & R & De' & F1 & F2); auto.
      * rewrite E1, Eh. reflexivity.
      * rewrite Eh. apply orient_b; auto.
      * destruct (chosen_b G p Vp _ _ _ C So _ o b h Ix) as [Z|(o' & I' & Z)]; auto; [eauto| |].
        -- left. apply (perm_trans (Permutation_sym Ps)). exact Z.
        -- right. exists o'. split; [|apply (perm_trans (Permutation_sym Ps)); exact Z]. rewrite !open_app, !in_app_iff in I'. cbn [open flat_map prs snd app In] in *. rewrite in_app_iff. tauto.
      * assert (P2 : pw (setb (p' :: ea b :: l1) o)).
        { apply (pw_push_b (setb (ea b :: l1) o) (ea b) l1 p' (ez t) (ea t) l2); auto; [apply (pw_pop_b o (ez b)); auto| | | |]; rewrite <- ?Eh; auto; [apply Ba|intros Z; apply (late (ln := ln) p t h); auto; apply Ba|apply (diag_under b t h false); auto using free_gt]. }
        assert (P1 : pw (mkO (bi o2) (ti o2) (ob o2) [p'; h])).
        { rewrite F1. apply pw_wedge; auto using (zV0 G); [rewrite Eh; apply (azlt G); auto|]. rewrite Eh at 1. rewrite Eh. rewrite <- Eh at 2. apply (diag_over b t h false); auto using free_lt. }
        exists cs', (One o2), (One (setb (ez b' :: p' :: ea b :: l1) o)), ([] ++ D). split; [exact R|].
        apply (cinv_make G p p' Vp' Lp Nx X Y [(mkSgap b t h false, One o)] [(mkSgap b t' p' false, One o2); (mkSgap b' t p' false, One (setb (ez b' :: p' :: ea b :: l1) o))] cs D cs' [] [t'; b'] [(h, p')]); auto.
        -- rewrite <- Eh. exact De'.
        -- intros x [<-|[<-|[]]]; [|apply (W2 _ l2 _ P2); auto]. pose proof (W1 _ [] [h] P1) as Z. unfold sett in Z. cbn [bi ti ob ot] in Z. rewrite <- F2 in Z. rewrite mkO_eta in Z. apply Z; auto. rewrite F1, Eh. reflexivity.
        -- intros x [].
        -- apply nodup_starts; auto.
        -- unfold P_ChainStep.tag. cbn [map]. rewrite Tb', Eb', Tt', Et'. rewrite <- Eh in *. acct.
    + destruct (ev_split_t p' h (ez b') (ez t') (ez t) cs o (open X ++ open Y) D l2) as (cs' & o2 & R & De' & F1 & F2); auto.
      * rewrite E2, Eh. reflexivity.
      * destruct (chosen_t G p Vp _ _ _ C So _ o t h Ix) as [Z|(o' & c & l & I' & Lc & Ec & Nc & Z & El)]; auto; [eauto|intros c Lc Ec Nc; apply U; auto| |].
        -- left. apply (perm_trans (Permutation_sym Ps)). exact Z.
        -- right. exists o', (ez c), l. split; [|split; [apply (perm_trans (Permutation_sym Ps)); exact Z|split; auto]].
           ++ rewrite !open_app, !in_app_iff in I'. cbn [open flat_map prs snd app In] in *. rewrite in_app_iff. tauto.
           ++ apply (orient_t t c h); auto. apply U; auto.
      * assert (P1 : pw (sett (p' :: ea t :: l2) o)).
        { apply (pw_push_t (sett (ea t :: l2) o) (ea t) l2 p' (ez b) (ea b) l1); auto; [apply (pw_pop_t o (ez t)); auto| | | |]; rewrite <- ?Eh; auto; [apply Ba|intros Z; apply (late (ln := ln) p b h); auto; apply Ba|apply (diag_over b t h false); auto using free_lt]. }
        assert (P2 : pw (mkO (bi o2) (ti o2) [p'; h] (ot o2))).
        { rewrite F1. apply pw_wedge; auto using (zV0 G); [rewrite Eh; apply (azlt G); auto|]. rewrite Eh at 2. apply (diag_under b t h false); auto using free_gt. }
        exists cs', (One (sett (ez t' :: p' :: ea t :: l2) o)), (One o2), ([] ++ D). split; [exact R|].
        apply (cinv_make G p p' Vp' Lp Nx X Y [(mkSgap b t h false, One o)] [(mkSgap b t' p' false, One (sett (ez t' :: p' :: ea t :: l2) o)); (mkSgap b' t p' false, One o2)] cs D cs' [] [t'; b'] [(h, p')]); auto.
        -- rewrite <- Eh. apply (desc_perm _ _ _ _ _ De'); [apply perm_swap|apply Permutation_refl].
        -- intros x [<-|[<-|[]]]; [apply (W1 _ l1 _ P1); auto|]. pose proof (W2 _ [] [h] P2) as Z. unfold setb in Z. cbn [bi ti ob ot] in Z. rewrite <- F2 in Z. rewrite mkO_eta in Z. apply Z; auto. rewrite F1, Eh. reflexivity.
        -- intros x [].
        -- apply nodup_starts; auto.
        -- unfold P_ChainStep.tag. cbn [map]. rewrite Tb', Eb', Tt', Et'. rewrite <- Eh in *. acct.
  - destruct Bo as (-> & P1 & P2 & (l1 & E1) & (x2 & l2 & E2 & _) & (x3 & l3 & E3 & _) & (l4 & E4) & Nh0).
    destruct (ev_split_two p' h (ez b') (ez t') cs lo_ hi (open X ++ open Y) D (x2 :: l2) (x3 :: l3)) as (cs' & R & De'); auto.
    { apply (rest_off_m _ _ _ _ _ C So (mkSgap b t h true, Two lo_ hi)); [left; auto|reflexivity]. }
    { rewrite E1. apply hdb_diff. apply (late p); auto. apply Ba. }
    { rewrite E4. apply hdb_diff. apply (late p); auto. apply Ba. }
    pose proof (push_lo b t h true _ _ _ l1 Ba Lb Ab Nh0 Q1 P1 E1 E2) as PL. pose proof (push_hi b t h true _ _ _ l4 Ba Lt_ At Nh0 Q2 P2 E4 E3) as PH.
    exists cs', (One (sett (ez t' :: p' :: h :: x2 :: l2) lo_)), (One (setb (ez b' :: p' :: h :: x3 :: l3) hi)), ([] ++ D). split; [exact R|].
    apply (cinv_make G p p' Vp' Lp Nx X Y [(mkSgap b t h true, Two lo_ hi)] [(mkSgap b t' p' false, One (sett (ez t' :: p' :: h :: x2 :: l2) lo_)); (mkSgap b' t p' false, One (setb (ez b' :: p' :: h :: x3 :: l3) hi))] cs D cs' [] [t'; b'] [(h, p')]); auto.
    + intros x [<-|[<-|[]]]; [apply (W1 _ l1 _ PL); auto|apply (W2 _ l4 _ PH); auto].
    + intros x [].
    + apply nodup_starts; auto.
    + unfold P_ChainStep.tag. cbn [map]. rewrite Tb', Eb', Tt', Et'. acct.
Qed.

(** Two parts of the interior come together. *)
Lemma step_merge : forall X Y b1 t1 h1 m1 B1 b2 t2 h2 m2 B2 lim cs D,
  let mid := [(mkSgap b1 t1 h1 m1, B1); (mkSgap b2 t2 h2 m2, B2)] in
  cinv p (X ++ mid ++ Y) cs D -> sorted p (flat (map fst (X ++ mid ++ Y))) ->
  sorted p' (flat (map fst X ++ mkSgap b1 t2 p' true :: map fst Y)) -> ends_at p' [t1; b2] -> starts_at p' [] -> pos p' b1 = Lt -> pos p' t2 = Gt ->
  exists cs' N D', chain_event cs (mkSweepEvent p' VMerge (mlinks m1 h1 p' None ++ mlinks m2 h2 p' (Some lim))) = Ok cs' /\ cinv p' (X ++ [(mkSgap b1 t2 p' true, N)] ++ Y) cs' D'.
Proof.
  intros X Y b1 t1 h1 m1 B1 b2 t2 h2 m2 B2 lim cs D mid C So So' E S Pb Pt.
  destruct (gap_new _ _ _ _ _ _ _ Vq So') as (Lb1 & Lt2 & Ab' & At' & Lo & _ & _).
  assert (I1 : In (mkSgap b1 t1 h1 m1, B1) (X ++ mid ++ Y)) by (rewrite !in_app_iff; right; left; left; auto). assert (I2 : In (mkSgap b2 t2 h2 m2, B2) (X ++ mid ++ Y)) by (rewrite !in_app_iff; right; left; right; left; auto).
  destruct (gap_act p _ So _ I1) as (_ & Lt1 & Ab1 & At1). destruct (gap_act p _ So _ I2) as (Lb2 & _ & Ab2 & At2). destruct (gap_top G p Vp _ So _ I1) as [Tb1 Tt1]. destruct (gap_top G p Vp _ So _ I2) as [Tb2 Tt2]. cbn [fst snd sg_b sg_t] in *.
  destruct (ci_gw _ _ _ _ C _ I1) as [Ba1 Bo1]. destruct (ci_gw _ _ _ _ C _ I2) as [Ba2 Bo2]. cbn [fst snd] in Ba1, Bo1, Ba2, Bo2.
  assert (Et : ez t1 = p') by (apply E; left; auto). assert (Eb : ez b2 = p') by (apply E; right; left; auto). destruct (base_lt _ _ _ _ Ba1) as [Lh1 Nh1]. destruct (base_lt _ _ _ _ Ba2) as [Lh2 Nh2].
  pose proof (mid_desc _ _ _ _ _ C) as De. pose proof (mid_full _ _ _ _ _ C) as Fu.
  assert (Of : forall o, In o (open X ++ open Y) -> off p' o).
  { apply (rest_off _ _ _ _ _ C So [t1; b2] E). intros c [<-|[<-|[]]]; [exists (mkSgap b1 t1 h1 m1, B1)|exists (mkSgap b2 t2 h2 m2, B2)]; cbn; auto. }
  assert (Fu' : forall o, In o (open X ++ open Y) -> full o) by (intros o I; apply Fu; apply in_or_app; auto).
  assert (Ng : mkSgap b1 t1 h1 m1 <> mkSgap b2 t2 h2 m2).
  { intros Q. injection Q as -> -> _ _. pose proof (act_ez _ Ab'). contradiction. }
  assert (Om1 : m1 = true -> forall o, In o (prs B2 ++ open X ++ open Y) -> off h1 o).
  { intros M o I. apply in_app_iff in I as [I|I]; [apply (off_mg p _ _ _ C So _ _ o I1 I2); auto|apply (rest_off_m _ _ _ _ _ C So (mkSgap b1 t1 h1 m1, B1)); auto; left; auto]. }
  assert (Om2 : m2 = true -> forall o, In o (prs B1 ++ open X ++ open Y) -> off h2 o).
  { intros M o I. apply in_app_iff in I as [I|I]; [apply (off_mg p _ _ _ C So _ _ o I2 I1); auto|apply (rest_off_m _ _ _ _ _ C So (mkSgap b2 t2 h2 m2, B2)); auto; right; left; auto]. }
  assert (Q1 : (H (eb b1) (tl p') <= cy p')%Qc) by (apply pos_lt_le; auto). assert (Q2 : (cy p' <= H (eb t2) (tl p'))%Qc) by (apply pos_gt_le; auto).
  assert (Q3 : (cy p' <= H (eb t1) (tl p'))%Qc) by (apply ge_refl; symmetry; apply H_end; auto). assert (Q4 : (H (eb b2) (tl p') <= cy p')%Qc) by (apply ge_refl; apply H_end; auto).
  assert (Ns : forall c, c < n -> ea c <> p') by (intros c Lc Ec; assert (I : In c []) by (apply S; auto); destruct I).
  assert (W : forall L U l k x x' k' l', pw L -> pw U -> ob L = ez b1 :: ea b1 :: l -> ot L = p' :: x :: k -> pend true x p' -> ob U = p' :: x' :: k' -> pend false x' p' -> ot U = ez t2 :: ea t2 :: l' ->
    gw p' (mkSgap b1 t2 p' true, Two L U)).
  { intros L U l k x x' k' l' PL PU F1 F2 F3 F4 F5 F6. split; [apply base_new; auto|]. cbn [fst snd P_MonoChains.gbody]. refine (conj eq_refl (conj PL (conj PU (conj _ (conj _ (conj _ (conj _ Ns))))))); eauto. }
  assert (Nb1 : forall l, hdb p' (ez b1 :: l) = false) by (intros l; apply hdb_diff; apply act_ez; auto). assert (Nt2 : forall l, hdb p' (ez t2 :: l) = false) by (intros l; apply hdb_diff; apply act_ez; auto).
  assert (Pd1 : pend true (ea t1) p') by (left; exists t1; auto). assert (Pd2 : pend false (ea b2) p') by (left; exists b2; auto).
  assert (Nm1 : forall l, hdb h1 (ez b1 :: l) = false) by (intros l; apply hdb_diff; apply (late p); auto; apply Ba1). assert (Nm2 : forall l, hdb h2 (ez t2 :: l) = false) by (intros l; apply hdb_diff; apply (late p); auto; apply Ba2).
  destruct B1 as [o1|lo1 hi1], B2 as [o2|lo2 hi2]; cbn [P_MonoChains.gbody] in Bo1, Bo2.
  - destruct Bo1 as (-> & P1 & (l1 & E1) & (l2 & E2) & _). destruct Bo2 as (-> & P2 & (l3 & E3) & (l4 & E4) & _). pose proof E2 as F2. pose proof E3 as F3. rewrite Et in F2. rewrite Eb in F3.
    destruct (ev_merge_11 p' (open X ++ open Y) D cs Fu' Of o1 o2) as (cs' & R & De'); auto.
    { repeat split; [apply Fu; left; auto|apply Fu; left; auto|rewrite E1; apply Nb1|rewrite F2; apply hdb_same]. }
    { repeat split; [apply Fu; right; left; auto|apply Fu; right; left; auto|rewrite F3; apply hdb_same|rewrite E4; apply Nt2]. }
    exists cs', (Two o1 o2), ([] ++ D). split; [exact R|].
    apply (cinv_make G p p' Vp' Lp Nx X Y mid [(mkSgap b1 t2 p' true, Two o1 o2)] cs D cs' [] [] []); auto.
    + intros x [<-|[]]. apply (W o1 o2 l1 l2 (ea t1) (ea b2) l3 l4); auto.
    + intros x [].
    + apply NoDup_nil.
  - destruct Bo1 as (-> & P1 & (l1 & E1) & (l2 & E2) & _). destruct Bo2 as (-> & P2 & P2' & (l3 & E3) & (x5 & l5 & E5 & _) & (x6 & l6 & E6 & _) & (l4 & E4) & N2). pose proof E2 as F2. pose proof E3 as F3. rewrite Et in F2. rewrite Eb in F3.
    destruct (ev_merge_12 p' (open X ++ open Y) D cs Fu' Of o1 lo2 hi2 h2 (Some lim) (x5 :: l5) (x6 :: l6)) as (cs' & R & De'); auto.
    { apply Fu; right; left; auto. } { apply Fu; right; right; left; auto. }
    { repeat split; [apply Fu; left; auto|apply Fu; left; auto|rewrite E1; apply Nb1|rewrite F2; apply hdb_same]. }
    { rewrite F3. apply hdb_same. } { rewrite E4. apply Nt2. } { rewrite E4. apply Nm2. }
    pose proof (push_lo b2 t2 h2 true _ _ _ l3 Ba2 Lb2 Ab2 N2 Q4 P2 E3 E5) as PL. pose proof (push_hi b2 t2 h2 true _ _ _ l4 Ba2 Lt2 At2 N2 Q2 P2' E4 E6) as PH.
    exists cs', (Two o1 (setb (p' :: h2 :: x6 :: l6) hi2)), ([sett (p' :: h2 :: x5 :: l5) lo2] ++ D). split; [exact R|].
    apply (cinv_make G p p' Vp' Lp Nx X Y mid [(mkSgap b1 t2 p' true, Two o1 (setb (p' :: h2 :: x6 :: l6) hi2))] cs D cs' [sett (p' :: h2 :: x5 :: l5) lo2] [] [(h2, p')]); auto.
    + intros x [<-|[]]. apply (W o1 _ l1 l2 (ea t1) h2 (x6 :: l6) l4); auto. right; auto.
    + intros x [<-|[]]. apply (done_eq _ p' (ea b2) h2 l3 (x5 :: l5)); auto.
    + apply NoDup_nil.
    + clear E2 E3. unfold mid. acct.
  - destruct Bo1 as (-> & P1 & P1' & (l1 & E1) & (x5 & l5 & E5 & _) & (x6 & l6 & E6 & _) & (l2 & E2) & N1). destruct Bo2 as (-> & P2 & (l3 & E3) & (l4 & E4) & _). pose proof E2 as F2. pose proof E3 as F3. rewrite Et in F2. rewrite Eb in F3.
    destruct (ev_merge_21 p' (open X ++ open Y) D cs Fu' Of lo1 hi1 o2 h1 None (x5 :: l5) (x6 :: l6)) as (cs' & R & De'); auto.
    { apply Fu; left; auto. } { apply Fu; right; left; auto. }
    { repeat split; [apply Fu; right; right; left; auto|apply Fu; right; right; left; auto|rewrite F3; apply hdb_same|rewrite E4; apply Nt2]. }
    { rewrite E1. apply Nb1. } { rewrite E1. apply Nm1. } { rewrite F2. apply hdb_same. }
    pose proof (push_lo b1 t1 h1 true _ _ _ l1 Ba1 Lb1 Ab1 N1 Q1 P1 E1 E5) as PL. pose proof (push_hi b1 t1 h1 true _ _ _ l2 Ba1 Lt1 At1 N1 Q3 P1' E2 E6) as PH.
    exists cs', (Two (sett (p' :: h1 :: x5 :: l5) lo1) o2), ([setb (p' :: h1 :: x6 :: l6) hi1] ++ D). split; [exact R|].
    apply (cinv_make G p p' Vp' Lp Nx X Y mid [(mkSgap b1 t2 p' true, Two (sett (p' :: h1 :: x5 :: l5) lo1) o2)] cs D cs' [setb (p' :: h1 :: x6 :: l6) hi1] [] [(h1, p')]); auto.
    + intros x [<-|[]]. apply (W _ o2 l1 (x5 :: l5) h1 (ea b2) l3 l4); auto. right; auto.
    + intros x [<-|[]]. apply (done_eq _ p' h1 (ea t1) (x6 :: l6) l2); auto.
    + apply NoDup_nil.
    + clear E2 E3. unfold mid. acct.
  - destruct Bo1 as (-> & P1 & P1' & (l1 & E1) & (x5 & l5 & E5 & _) & (x6 & l6 & E6 & _) & (l2 & E2) & N1). destruct Bo2 as (-> & P2 & P2' & (l3 & E3) & (x7 & l7 & E7 & _) & (x8 & l8 & E8 & _) & (l4 & E4) & N2). pose proof E2 as F2. pose proof E3 as F3. rewrite Et in F2. rewrite Eb in F3.
    destruct (ev_merge_22 p' (open X ++ open Y) D cs Fu' Of lo1 hi1 h1 None (x5 :: l5) (x6 :: l6) lo2 hi2 h2 (Some lim) (x7 :: l7) (x8 :: l8)) as (cs' & R & De'); auto.
    { apply Fu; left; auto. } { apply Fu; right; left; auto. } { apply Fu; right; right; left; auto. } { apply Fu; right; right; right; left; auto. }
    { intros o I. apply Om2; [reflexivity|exact I]. } { intros o I. apply Om2; [reflexivity|right; right; exact I]. }
    { intros Q. destruct (Om1 eq_refl lo2) as [_ Z]; [left; auto|]. rewrite E7, <- Q, hdb_same in Z. discriminate. }
    { rewrite E1. apply Nb1. } { rewrite E1. apply Nm1. } { rewrite F2. apply hdb_same. } { rewrite F3. apply hdb_same. } { rewrite E4. apply Nt2. } { rewrite E4. apply Nm2. }
    pose proof (push_lo b1 t1 h1 true _ _ _ l1 Ba1 Lb1 Ab1 N1 Q1 P1 E1 E5) as PL1. pose proof (push_hi b1 t1 h1 true _ _ _ l2 Ba1 Lt1 At1 N1 Q3 P1' E2 E6) as PH1.
    pose proof (push_lo b2 t2 h2 true _ _ _ l3 Ba2 Lb2 Ab2 N2 Q4 P2 E3 E7) as PL2. pose proof (push_hi b2 t2 h2 true _ _ _ l4 Ba2 Lt2 At2 N2 Q2 P2' E4 E8) as PH2.
    exists cs', (Two (sett (p' :: h1 :: x5 :: l5) lo1) (setb (p' :: h2 :: x8 :: l8) hi2)), ([setb (p' :: h1 :: x6 :: l6) hi1; sett (p' :: h2 :: x7 :: l7) lo2] ++ D). split; [exact R|].
    apply (cinv_make G p p' Vp' Lp Nx X Y mid [(mkSgap b1 t2 p' true, Two (sett (p' :: h1 :: x5 :: l5) lo1) (setb (p' :: h2 :: x8 :: l8) hi2))] cs D cs' [setb (p' :: h1 :: x6 :: l6) hi1; sett (p' :: h2 :: x7 :: l7) lo2] [] [(h1, p'); (h2, p')]); auto.
    + intros x [<-|[]]. apply (W _ _ l1 (x5 :: l5) h1 h2 (x8 :: l8) l4); auto; right; auto.
    + intros x [<-|[<-|[]]]; [apply (done_eq _ p' h1 (ea t1) (x6 :: l6) l2); auto|apply (done_eq _ p' (ea b2) h2 l3 (x7 :: l7)); auto].
    + apply NoDup_nil.
    + clear E2 E3. unfold mid. acct.
Qed.

(** * One event *)
Theorem chain_step : forall gs ty links gs' gbs cs D, sstep p' gs ty links gs' -> gs = map fst gbs -> cinv p gbs cs D -> sorted p (flat gs) -> sorted p' (flat gs') ->
  exists cs' gbs' D', chain_event cs (mkSweepEvent p' ty links) = Ok cs' /\ gs' = map fst gbs' /\ cinv p' gbs' cs' D'.
Proof.
  intros gs ty links gs' gbs cs D St Eg C So So'. destruct St.
  - symmetry in Eg. apply map_split in Eg as (X' & Y' & -> & <- & <-). rewrite <- map_app in So. destruct (step_start X' Y' b t cs D C So So') as (cs' & N & R & C'); auto.
    exists cs', (X' ++ (mkSgap b t p' false, N) :: Y'), D. split; auto. split; [rewrite map_app; reflexivity|auto].
  - symmetry in Eg. apply map_split1 in Eg as (X' & [g B] & Y' & -> & <- & Q & <-). cbn [fst] in Q. subst g.
    assert (So2 : sorted p (flat (map fst (X' ++ [(mkSgap b t h m, B)] ++ Y')))) by (rewrite map_app; exact So).
    destruct (step_end X' Y' b t h m B cs D C So2) as (cs' & D' & R & C'); auto. exists cs', (X' ++ Y'), D'. split; auto. split; [rewrite map_app; reflexivity|auto].
  - symmetry in Eg. apply map_split1 in Eg as (X' & [g B] & Y' & -> & <- & Q & <-). cbn [fst] in Q. subst g.
    assert (So2 : sorted p (flat (map fst (X' ++ [(mkSgap b t h m, B)] ++ Y')))) by (rewrite map_app; exact So).
    destruct (step_top X' Y' b t t' h m B cs D C So2 So') as (cs' & N & D' & R & C'); auto. exists cs', (X' ++ [(mkSgap b t' p' false, N)] ++ Y'), D'. split; auto. split; [rewrite map_app; reflexivity|auto].
  - symmetry in Eg. apply map_split1 in Eg as (X' & [g B] & Y' & -> & <- & Q & <-). cbn [fst] in Q. subst g.
    assert (So2 : sorted p (flat (map fst (X' ++ [(mkSgap b t h m, B)] ++ Y')))) by (rewrite map_app; exact So).
    destruct (step_bot X' Y' b b' t h m lim B cs D C So2 So') as (cs' & N & D' & R & C'); auto. exists cs', (X' ++ [(mkSgap b' t p' false, N)] ++ Y'), D'. split; auto. split; [rewrite map_app; reflexivity|auto].
  - symmetry in Eg. apply map_split1 in Eg as (X' & [g B] & Y' & -> & <- & Q & <-). cbn [fst] in Q. subst g.
    assert (So2 : sorted p (flat (map fst (X' ++ [(mkSgap b t h m, B)] ++ Y')))) by (rewrite map_app; exact So).
    destruct (step_split X' Y' b t b' t' h m B cs D C So2 So') as (cs' & N1 & N2 & D' & R & C'); auto. exists cs', (X' ++ [(mkSgap b t' p' false, N1); (mkSgap b' t p' false, N2)] ++ Y'), D'. split; auto. split; [rewrite map_app; reflexivity|auto].
  - symmetry in Eg. apply map_split1 in Eg as (X' & [g B] & Y' & -> & <- & Q & Q2). cbn [fst] in Q. subst g. destruct Y' as [|[g B'] Y']; [discriminate|]. cbn [map fst] in Q2. injection Q2 as -> <-.
    assert (So2 : sorted p (flat (map fst (X' ++ [(mkSgap b1 t1 h1 m1, B); (mkSgap b2 t2 h2 m2, B')] ++ Y')))) by (rewrite map_app; exact So).
    destruct (step_merge X' Y' b1 t1 h1 m1 B b2 t2 h2 m2 B' lim cs D C So2 So') as (cs' & N & D' & R & C'); auto. exists cs', (X' ++ [(mkSgap b1 t2 p' true, N)] ++ Y'), D'. split; auto. split; [rewrite map_app; reflexivity|auto].
Qed.
End Steps.
