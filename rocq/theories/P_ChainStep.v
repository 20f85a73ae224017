(** Monotone decomposition: every event of the sweep keeps the invariant of the chains. *)
Require Import List String Bool Arith Lia Permutation Sorted.
From Verif Require Import Base Scalar M_Events M_Geo M_LineOrPoint M_Slab M_Active M_MonoPoly M_Rings M_Op M_MonoSweep M_Chains.
From Verif Require Import S_Geo P_Geo P_LineOrPoint P_Tilt P_Chain P_Bundle P_Order P_Inv P_Slab P_BTree.
From Verif Require Import P_OpLab P_OpStep P_OpPlane P_MonoGeo P_MonoSweep P_MonoStep P_ChainDesc P_ChainEvent P_MonoChains.
Import Datatypes.
Import ListNotations.
Local Open Scope nat_scope.

Lemma one_or_two : forall (P : nat -> Prop) a L, NoDup L -> In a L -> (forall j, In j L -> j = a \/ P j) -> (forall j j', In j L -> In j' L -> P j -> P j' -> j = j') ->
  Permutation L [a] \/ exists b, In b L /\ P b /\ Permutation L [a; b].
Proof.
  intros P a L N I A U. apply in_split in I as (L1 & L2 & ->). assert (Q : Permutation (L1 ++ a :: L2) (a :: L1 ++ L2)) by (apply Permutation_sym; apply Permutation_middle).
  assert (N' := Permutation_NoDup Q N). inversion N' as [|? ? N1 N2]; subst. assert (A' : forall j, In j (L1 ++ L2) -> P j).
  { intros j J. destruct (A j) as [->|]; auto; [apply (Permutation_in _ (Permutation_sym Q)); right; auto|contradiction]. }
  assert (U' : forall j j', In j (L1 ++ L2) -> In j' (L1 ++ L2) -> j = j').
  { intros j j' J J'. apply U; auto; apply (Permutation_in _ (Permutation_sym Q)); right; auto. }
  destruct (L1 ++ L2) as [|b [|c l]] eqn:E; auto.
  - right. exists b. split; [apply (Permutation_in _ (Permutation_sym Q)); right; left; auto|]. split; [apply A'; left; auto|auto].
  - exfalso. assert (b = c) by (apply U'; cbn; auto). subst. inversion N2 as [|? ? N3 _]; subst. apply N3. left; auto.
Qed.
Lemma nodup_app : forall {X} (l l' : list X), NoDup (l ++ l') <-> NoDup l /\ NoDup l' /\ (forall x, In x l -> In x l' -> False).
Proof.
  intros X l l'. induction l as [|a l IH]; cbn [app]; [split; [intros N; repeat split; auto; constructor|tauto]|]. split.
  - intros N. inversion N as [|? ? N1 N2]; subst. apply IH in N2 as (A & B & C). rewrite in_app_iff in N1. repeat split; [constructor; tauto|auto|]. intros x [<-|I] J; [tauto|apply (C x); auto].
  - intros (A & B & C). inversion A as [|? ? A1 A2]; subst. constructor; [|apply IH; repeat split; auto; intros x I; apply C; right; auto]. intros I. apply in_app_iff in I as [I|I]; [contradiction|apply (C a); auto; left; auto].
Qed.
Lemma merges_app : forall a b, merges (a ++ b) = merges a ++ merges b.
Proof. intros. unfold merges. rewrite filter_app, map_app. reflexivity. Qed.

Section Step.
Context {ln : nat -> line} {n : nat} {e : Qc} {V V' : list pt} {top : nat -> bool}.
Context (G : mono_geo ln n e V V' top).
Notation tl := (tilt e).
Notation H := (P_Order.H e).
Notation K := (P_Order.K e).
Notation Sl := (P_Order.S e).
Notation ea := (ea ln).
Notation ez := (ez ln).
Notation eb := (eb ln).
Notation actb := (actb ln).
Notation inc := (inc ln).
Notation lo := (@lo ln e).
Notation sorted := (@sorted ln n e).
Notation pos := (@pos ln e).
Notation sstep := (@sstep ln n e).
Notation ends_at := (@ends_at ln n).
Notation starts_at := (@starts_at ln n).
Notation HVV := (mg_incl _ _ _ _ _ _ G).
Notation pw := (@pw e V V').
Notation segle := (@segle e V').
Notation gbase := (@gbase ln e V).
Notation gbody := (@gbody ln n e V V' top).
Notation gw := (@gw ln n e V V' top).
Notation done := (@done e V V').
Notation started := (@started ln n top).
Notation cinv := (@cinv ln n e V V' top).
Notation pend := (@pend ln n top).
Definition tag (c : nat) : tge := ((ea c, ez c), top c).

Variables p p' : pt.
Hypothesis Vp : In p V'.
Hypothesis Vp' : In p' V.
Hypothesis Lp : lex_lt p p'.
Hypothesis Nx : forall v, In v V -> lex_lt p v -> lex_lt v p' -> False.
Lemma Vp0 : In p' V'. Proof. apply HVV. exact Vp'. Qed.

Lemma started_next : forall M, starts_at p' M -> NoDup M -> Permutation (started p') (map tag M ++ started p).
Proof.
  intros M S N. unfold P_MonoChains.started. change (fun c => (ea c, ez c, top c)) with tag. rewrite <- map_app. apply Permutation_map. apply NoDup_Permutation.
  - apply NoDup_filter. apply seq_NoDup.
  - apply nodup_app; split; [exact N|split; [apply NoDup_filter; apply seq_NoDup|]]. intros c I J. apply S in I as [_ I]. apply filter_In in J as [_ J]. apply pleb_iff in J. rewrite I in J. lord.
  - intros c. rewrite in_app_iff, !filter_In, in_seq, !pleb_iff. unfold P_MonoSweep.starts_at in S. rewrite (S c). split.
    + intros [L A]. destruct (pt_dec (ea c) p') as [E|E]; [left; split; [lia|auto]|]. right. split; auto. destruct (lex_le_dec (ea c) p) as [Q|Q]; auto. exfalso. apply (Nx (ea c)); auto; [apply (aV0 G); lia|apply lex_le_neq; auto].
    + intros [[L E]|[L A]]; [split; [lia|rewrite E; apply lex_le_refl]|split; auto; lord].
Qed.
Lemma nodup_starts : forall b t : nat, b <> t -> NoDup [b; t].
Proof. intros b t N. constructor; [intros [E|[]]; congruence|constructor; [intros []|constructor]]. Qed.

(** ** Putting the invariant together *)
Lemma cinv_make : forall X Y old new cs D cs' ND M dn,
  cinv p (X ++ old ++ Y) cs D -> desc cs' (open new ++ open X ++ open Y) (ND ++ D) ->
  (forall x, In x new -> gw p' x) -> (forall o, In o ND -> done o) ->
  (merges (map fst new) = [] \/ merges (map fst new) = [p']) ->
  starts_at p' M -> NoDup M ->
  Permutation (flat_map tedges (open new ++ ND)) (map tag M ++ twice dn ++ flat_map tedges (open old)) ->
  cinv p' (X ++ new ++ Y) cs' (ND ++ D).
Proof.
  intros X Y old new cs D cs' ND M dn [C1 C2 C3 C4 (d & C5)] De W Dn Mg S N P. constructor.
  - apply (desc_perm _ _ _ _ _ De); [|apply Permutation_refl]. rewrite !open_app. rewrite !app_assoc. apply Permutation_app_tail. apply Permutation_app_comm.
  - intros x I. apply in_app_iff in I as [I|I]; [|apply in_app_iff in I as [I|I]; auto]; apply (gw_mono p); try (apply lex_lt_le; exact Lp); apply C2; rewrite !in_app_iff; auto.
  - rewrite !map_app, !merges_app in *. assert (N' : NoDup (merges (map fst X) ++ merges (map fst Y))).
    { apply nodup_app in C3 as (N1 & N2 & N3). apply nodup_app in N2 as (N4 & N5 & N6). apply nodup_app; repeat split; auto. intros x I J. apply (N3 x I). apply in_or_app; auto. }
    destruct Mg as [->| ->]; [exact N'|]. cbn [app]. apply (Permutation_NoDup (l := p' :: merges (map fst X) ++ merges (map fst Y))); [apply Permutation_middle|]. constructor; auto.
    intros I. assert (Z : exists x, In x (X ++ old ++ Y) /\ sg_h (fst x) = p').
    { apply in_app_iff in I as [I|I]; unfold merges in I; apply in_map_iff in I as (g & E & I); apply filter_In in I as [I _]; apply in_map_iff in I as (x & Ex & I); exists x; rewrite !in_app_iff, Ex; auto. }
    destruct Z as (x & Ix & Ex). destruct (C2 x Ix) as [B _]. pose proof (gb_hp _ _ B) as Q. rewrite Ex in Q. lord.
  - intros o I. apply in_app_iff in I as [I|I]; auto.
  - exists (dn ++ d). pose proof (started_next M S N) as Q. apply cnt_perm. intros x. pose proof (proj1 (cnt_perm _ _) P x) as P1. pose proof (proj1 (cnt_perm _ _) C5 x) as P2. pose proof (proj1 (cnt_perm _ _) Q x) as P3.
    unfold twice in *. rewrite ?open_app, ?flat_map_app, ?cnt_app in *. lia.
Qed.

(** ** Which chains stand at a vertex *)
Definition fstp (B : body) : opair := match B with One o => o | Two l _ => l end.
Definition sndp (B : body) : opair := match B with One o => o | Two _ u => u end.
Definition bedge (x : gbod) (o : opair) (c : nat) : Prop := (c = sg_b (fst x) /\ o = fstp (snd x)) \/ (sg_m (fst x) = true /\ ez c = sg_h (fst x) /\ o = sndp (snd x)).
Definition tedge (x : gbod) (o : opair) (c : nat) : Prop := (c = sg_t (fst x) /\ o = sndp (snd x)) \/ (sg_m (fst x) = true /\ ez c = sg_h (fst x) /\ o = fstp (snd x)).
Lemma stand_b : forall h x o, gw p x -> In o (prs (snd x)) -> sdb h (ob o) = true -> (exists c, c < n /\ ea c = h) -> sg_b (fst x) < n -> top (sg_b (fst x)) = false ->
  exists c l, c < n /\ ea c = h /\ top c = false /\ bedge x o c /\ ob o = ez c :: l.
Proof.
  intros h [[b t m mg] B] o [_ W] I S (c0 & L0 & E0) Lb Tb. cbn [fst snd sg_b sg_t gbody] in *. destruct B as [o'|l u].
  - destruct I as [<-|[]]. destruct W as (_ & _ & (l1 & E1) & _). rewrite E1 in S. cbn [sdb] in S. apply peqb_iff in S. exists b, (ea b :: l1). repeat split; auto. left; auto.
  - destruct W as (M & _ & _ & (l1 & E1) & _ & (x' & k & E2 & Pd) & _). destruct I as [<-|[<-|[]]].
    + rewrite E1 in S. cbn [sdb] in S. apply peqb_iff in S. exists b, (ea b :: l1). repeat split; auto. left; auto.
    + rewrite E2 in S. cbn [sdb] in S. apply peqb_iff in S. destruct Pd as [(c & Lc & A & Z & T)|F]; [|exfalso; apply (F c0 L0); congruence].
      exists c, (x' :: k). rewrite E2, Z. repeat split; auto; [congruence|]. right. auto.
Qed.
Lemma stand_t : forall h x o, gw p x -> In o (prs (snd x)) -> sdb h (ot o) = true -> (exists c, c < n /\ ea c = h) -> sg_t (fst x) < n -> top (sg_t (fst x)) = true ->
  exists c, c < n /\ ea c = h /\ top c = true /\ tedge x o c.
Proof.
  intros h [[b t m mg] B] o [_ W] I S (c0 & L0 & E0) Lb Tb. cbn [fst snd sg_b sg_t gbody] in *. destruct B as [o'|l u].
  - destruct I as [<-|[]]. destruct W as (_ & _ & _ & (l1 & E1) & _). rewrite E1 in S. cbn [sdb] in S. apply peqb_iff in S. exists t. repeat split; auto. left; auto.
  - destruct W as (M & _ & _ & _ & (x' & k & E2 & Pd) & _ & (l1 & E1) & _). destruct I as [<-|[<-|[]]].
    + rewrite E2 in S. cbn [sdb] in S. apply peqb_iff in S. destruct Pd as [(c & Lc & A & Z & T)|F]; [|exfalso; apply (F c0 L0); congruence].
      exists c. repeat split; auto; [congruence|]. right. auto.
    + rewrite E1 in S. cbn [sdb] in S. apply peqb_iff in S. exists t. repeat split; auto. left; auto.
Qed.

Section Ctx.
Variables (gbs : list gbod) (cs : list mchain) (D : list opair).
Hypothesis C : cinv p gbs cs D.
Hypothesis So : sorted p (flat (map fst gbs)).
Lemma in_flat : forall x, In x gbs -> In (sg_b (fst x)) (flat (map fst gbs)) /\ In (sg_t (fst x)) (flat (map fst gbs)).
Proof. intros x I. split; apply in_flat_map; exists (fst x); (split; [apply in_map; auto|cbn; auto]). Qed.
Lemma gap_act : forall x, In x gbs -> sg_b (fst x) < n /\ sg_t (fst x) < n /\ actb p (sg_b (fst x)) = true /\ actb p (sg_t (fst x)) = true.
Proof. intros x I. destruct (in_flat x I) as [A B]. repeat split; first [apply (so_lt _ _ _ So); auto|apply (so_actb _ _ _ So); auto]. Qed.
Lemma gap_top : forall x, In x gbs -> top (sg_b (fst x)) = false /\ top (sg_t (fst x)) = true.
Proof. intros x I. apply (gap_labels (map fst gbs)); [apply (alt_sorted G p); auto|apply in_map; auto]. Qed.
Lemma gap_late : forall x, In x gbs -> lex_lt p (ez (sg_b (fst x))) /\ lex_lt p (ez (sg_t (fst x))).
Proof. intros x I. destruct (gap_act x I) as (_ & _ & A & B). apply actb_iff in A, B. tauto. Qed.
Lemma gap_inj_b : forall x y, In x gbs -> In y gbs -> sg_b (fst x) = sg_b (fst y) -> fst x = fst y.
Proof.
  intros x y I J E. destruct (flat_map_b (map fst gbs) (so_nodup _ _ So)) as (N1 & _ & _). apply (map_inj sg_b (map fst gbs)); auto using in_map.
Qed.
Lemma nodup_fst : NoDup (map fst gbs).
Proof. destruct (flat_map_b (map fst gbs) (so_nodup _ _ So)) as (N1 & _ & _). apply NoDup_map_inv in N1. exact N1. Qed.
Lemma gap_inj : forall x y, In x gbs -> In y gbs -> sg_b (fst x) = sg_b (fst y) -> x = y.
Proof. intros x y I J E. apply (map_inj fst gbs); auto using nodup_fst, gap_inj_b. Qed.
Lemma gap_inj_t : forall x y, In x gbs -> In y gbs -> sg_t (fst x) = sg_t (fst y) -> x = y.
Proof.
  intros x y I J E. destruct (flat_map_b (map fst gbs) (so_nodup _ _ So)) as (_ & N1 & _). apply (map_inj fst gbs); auto using nodup_fst. apply (map_inj sg_t (map fst gbs)); auto using in_map.
Qed.
Lemma bedge_inj : forall x y o o' c, In x gbs -> In y gbs -> bedge x o c -> bedge y o' c -> o = o'.
Proof.
  intros x y o o' c I J [[E1 Q1]|(M1 & E1 & Q1)] [[E2 Q2]|(M2 & E2 & Q2)].
  - assert (x = y) as -> by (apply gap_inj; congruence). congruence.
  - exfalso. destruct (gap_late x I) as [Z _]. pose proof (gb_hp _ _ (proj1 (ci_gw _ _ _ _ C y J))) as Z'. rewrite <- E1 in Z. rewrite E2 in Z. lord.
  - exfalso. destruct (gap_late y J) as [Z _]. pose proof (gb_hp _ _ (proj1 (ci_gw _ _ _ _ C x I))) as Z'. rewrite <- E2 in Z. rewrite E1 in Z. lord.
  - assert (x = y) as -> by (apply (merges_inj gbs); auto; [apply (ci_m _ _ _ _ C)|congruence]). congruence.
Qed.
Lemma tedge_inj : forall x y o o' c, In x gbs -> In y gbs -> tedge x o c -> tedge y o' c -> o = o'.
Proof.
  intros x y o o' c I J [[E1 Q1]|(M1 & E1 & Q1)] [[E2 Q2]|(M2 & E2 & Q2)].
  - assert (x = y) as -> by (apply gap_inj_t; congruence). congruence.
  - exfalso. destruct (gap_late x I) as [_ Z]. pose proof (gb_hp _ _ (proj1 (ci_gw _ _ _ _ C y J))) as Z'. rewrite <- E1 in Z. rewrite E2 in Z. lord.
  - exfalso. destruct (gap_late y J) as [_ Z]. pose proof (gb_hp _ _ (proj1 (ci_gw _ _ _ _ C x I))) as Z'. rewrite <- E2 in Z. rewrite E1 in Z. lord.
  - assert (x = y) as -> by (apply (merges_inj gbs); auto; [apply (ci_m _ _ _ _ C)|congruence]). congruence.
Qed.
Lemma full_all : forall o, In o (open gbs) -> full o.
Proof. intros o I. apply in_open in I as (x & I & J). exact (gw_full p x o (ci_gw _ _ _ _ C x I) J). Qed.
Lemma off_pt : forall x o, In x gbs -> In o (prs (snd x)) -> ez (sg_b (fst x)) <> p' -> ez (sg_t (fst x)) <> p' -> off p' o.
Proof.
  intros x o I J N1 N2. apply (gw_heads p x o p' (ci_gw _ _ _ _ C x I)); auto. intros _ E. pose proof (gb_hp _ _ (proj1 (ci_gw _ _ _ _ C x I))) as Z. rewrite E in Z. lord.
Qed.
Lemma off_mg : forall x y o, In x gbs -> In y gbs -> sg_m (fst x) = true -> fst x <> fst y -> In o (prs (snd y)) -> off (sg_h (fst x)) o.
Proof.
  intros x y o I J M N K. pose proof (gb_hp _ _ (proj1 (ci_gw _ _ _ _ C x I))) as Z. destruct (gap_late y J) as [Z1 Z2]. apply (gw_heads p y o _ (ci_gw _ _ _ _ C y J)); auto.
  - intros E. rewrite E in Z1. lord.
  - intros E. rewrite E in Z2. lord.
  - intros M' E. apply N. f_equal. apply (merges_inj gbs); auto. apply (ci_m _ _ _ _ C).
Qed.
Lemma late : forall c h, actb p c = true -> lex_le h p -> ez c <> h.
Proof. intros c h A L E. apply actb_iff in A as [_ A]. rewrite E in A. lord. Qed.
Lemma two_starts : forall h b c c', b < n -> c < n -> c' < n -> ea b = h -> ea c = h -> ea c' = h -> c <> b -> c' <> b -> c = c'.
Proof.
  intros h b c c' Lb Lc Lc' Eb Ec Ec' N N'. assert (Vh : In h V) by (rewrite <- Eb; apply (aV0 G); auto). destruct (mg_deg _ _ _ _ _ _ G h Vh) as (c1 & c2 & _ & _ & _ & _ & _ & U).
  destruct (U b Lb (or_introl Eb)), (U c Lc (or_introl Ec)), (U c' Lc' (or_introl Ec')); congruence.
Qed.
(** Splitting at the helper: the helper is the first point of the last edge of the
    bottom chain, or of the top chain. *)
Lemma chosen_b : forall x o b h, In x gbs -> snd x = One o -> b = sg_b (fst x) -> ea b = h -> (exists l, ob o = ez b :: ea b :: l) -> (forall c, c < n -> ea c = h -> c <> b -> top c = true) ->
  Permutation (chosen (sk h) (open gbs)) [bi o] \/ (exists o', In o' (open gbs) /\ Permutation (chosen (sk h) (open gbs)) [bi o; ti o']).
Proof.
  intros x o b h Ix Ex Eb Eh (lb & El) U. destruct (gap_act x Ix) as (Lb & _ & Ab & _). rewrite <- Eb in *. assert (Io : In o (open gbs)) by (apply in_open; exists x; rewrite Ex; cbn; auto).
  assert (Ec : exists c, c < n /\ ea c = h) by eauto. assert (Bx : bedge x o b) by (left; rewrite Ex; auto).
  assert (A : forall j, In j (chosen (sk h) (open gbs)) -> j = bi o \/ exists o' y c, In y gbs /\ In o' (prs (snd y)) /\ j = ti o' /\ c < n /\ ea c = h /\ c <> b /\ tedge y o' c).
  { intros j J. apply in_chosen in J as (o' & Io' & [[-> S]|[-> S]]); apply in_open in Io' as (y & Iy & Jy); unfold sk in S; cbn [bch tch c_done c_coords negb andb] in S; destruct (gap_act y Iy) as (L1 & L2 & _ & _); destruct (gap_top y Iy) as [T1 T2]; pose proof (ci_gw _ _ _ _ C y Iy) as Wy.
    - destruct (stand_b h y o' Wy Jy S Ec L1 T1) as (c & l & Lc & Ac & Tc & Bc & _). left. destruct (Nat.eq_dec c b) as [->|Nc]; [|rewrite (U c Lc Ac Nc) in Tc; discriminate]. f_equal. apply (bedge_inj y x _ _ b); auto.
    - destruct (stand_t h y o' Wy Jy S Ec L2 T2) as (c & Lc & Ac & Tc & Bc). right. exists o', y, c. repeat split; auto. intros ->. destruct (gap_top x Ix) as [T0 _]. rewrite <- Eb in T0. congruence. }
  destruct (one_or_two (fun j => exists o' y c, In y gbs /\ In o' (prs (snd y)) /\ j = ti o' /\ c < n /\ ea c = h /\ c <> b /\ tedge y o' c) (bi o) (chosen (sk h) (open gbs))) as [Q|(j & _ & (o' & y & c & Iy & Jy & -> & _) & Q)]; auto.
  - apply chosen_nodup. pose proof (desc_nodup _ _ _ (ci_desc _ _ _ _ C)) as N. rewrite ids_app in N. apply nodup_app in N. tauto.
  - apply in_chosen. exists o. split; auto. left. split; auto. unfold sk. cbn [bch c_done c_coords negb andb]. rewrite El. cbn [sdb]. apply peqb_iff. exact Eh.
  - intros j j' _ _ (o1 & y1 & c1 & I1 & J1 & -> & L1 & E1 & N1 & B1) (o2 & y2 & c2 & I2 & J2 & -> & L2 & E2 & N2 & B2). f_equal. assert (c1 = c2) as -> by (apply (two_starts h b); auto). apply (tedge_inj y1 y2 _ _ c2); auto.
  - right. exists o'. split; auto. apply in_open. eauto.
Qed.
Lemma chosen_t : forall x o t h, In x gbs -> snd x = One o -> t = sg_t (fst x) -> ea t = h -> (exists l, ot o = ez t :: ea t :: l) -> (forall c, c < n -> ea c = h -> c <> t -> top c = false) ->
  Permutation (chosen (sk h) (open gbs)) [ti o] \/ (exists o' c l, In o' (open gbs) /\ c < n /\ ea c = h /\ c <> t /\ Permutation (chosen (sk h) (open gbs)) [ti o; bi o'] /\ ob o' = ez c :: l).
Proof.
  intros x o b h Ix Ex Eb Eh (lb & El) U. destruct (gap_act x Ix) as (_ & Lb & _ & Ab). rewrite <- Eb in *. assert (Io : In o (open gbs)) by (apply in_open; exists x; rewrite Ex; cbn; auto).
  assert (Ec : exists c, c < n /\ ea c = h) by eauto. assert (Bx : tedge x o b) by (left; rewrite Ex; auto).
  set (P := fun j => exists o' y c, In y gbs /\ In o' (prs (snd y)) /\ j = bi o' /\ c < n /\ ea c = h /\ c <> b /\ bedge y o' c /\ exists l, ob o' = ez c :: l).
  assert (A : forall j, In j (chosen (sk h) (open gbs)) -> j = ti o \/ P j).
  { intros j J. apply in_chosen in J as (o' & Io' & [[-> S]|[-> S]]); apply in_open in Io' as (y & Iy & Jy); unfold sk in S; cbn [bch tch c_done c_coords negb andb] in S; destruct (gap_act y Iy) as (L1 & L2 & _ & _); destruct (gap_top y Iy) as [T1 T2]; pose proof (ci_gw _ _ _ _ C y Iy) as Wy.
    - destruct (stand_b h y o' Wy Jy S Ec L1 T1) as (c & l & Lc & Ac & Tc & Bc & El'). right. exists o', y, c. repeat split; eauto. intros ->. destruct (gap_top x Ix) as [_ T0]. rewrite <- Eb in T0. congruence.
    - destruct (stand_t h y o' Wy Jy S Ec L2 T2) as (c & Lc & Ac & Tc & Bc). left. destruct (Nat.eq_dec c b) as [->|Nc]; [|rewrite (U c Lc Ac Nc) in Tc; discriminate]. f_equal. apply (tedge_inj y x _ _ b); auto. }
  destruct (one_or_two P (ti o) (chosen (sk h) (open gbs))) as [Q|(j & _ & (o' & y & c & Iy & Jy & -> & Lc & Ac & Nc & _ & l & El') & Q)]; auto.
  - apply chosen_nodup. pose proof (desc_nodup _ _ _ (ci_desc _ _ _ _ C)) as N. rewrite ids_app in N. apply nodup_app in N. tauto.
  - apply in_chosen. exists o. split; auto. right. split; auto. unfold sk. cbn [tch c_done c_coords negb andb]. rewrite El. cbn [sdb]. apply peqb_iff. exact Eh.
  - intros j j' _ _ (o1 & y1 & c1 & I1 & J1 & -> & L1 & E1 & N1 & B1 & _) (o2 & y2 & c2 & I2 & J2 & -> & L2 & E2 & N2 & B2 & _). f_equal. assert (c1 = c2) as -> by (apply (two_starts h b); auto). apply (bedge_inj y1 y2 _ _ c2); auto.
  - right. exists o', c, l. repeat split; auto. apply in_open. eauto.
Qed.
End Ctx.
End Step.
