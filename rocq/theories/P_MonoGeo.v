(** Monotone decomposition: the vertical order of edges that meet only at their
    ends, and how it changes from vertex to vertex. *)
Require Import List String Bool Arith Lia Permutation Sorted.
From Verif Require Import Base Scalar M_Events M_Geo M_LineOrPoint M_MonoPoly M_Rings M_Op.
From Verif Require Import S_Geo P_Geo P_LineOrPoint P_Tilt P_Chain P_Bundle P_Tile P_Order P_Inv.
From Verif Require Import S_Mono P_Mono S_Rings P_Rings S_Op P_OpLab P_OpPoint P_OpStep P_OpRun P_OpPlane P_OpSide P_OpPoly P_Boundary P_OpCount P_OpTotal P_LamRun P_LamGeo.
Import Datatypes.
Import ListNotations.
Local Open Scope nat_scope.

(** * Sorted lists *)
Lemma FOP_sub : forall {X} (R : X -> X -> Prop) A B C, ForallOrdPairs R (A ++ B ++ C) -> ForallOrdPairs R (A ++ C).
Proof.
  intros X R A B C F. apply FOP_app in F as (F1 & F2 & F3). apply FOP_app in F2 as (F4 & F5 & F6). apply FOP_app. repeat split; auto.
  intros a c Ia Ic. apply F3; auto. apply in_or_app; auto.
Qed.
Lemma FOP_nodup : forall {X} (R : X -> X -> Prop) l, (forall a, ~ R a a) -> ForallOrdPairs R l -> NoDup l.
Proof.
  intros X R l I F. induction F as [|a l Fa F IH]; constructor; auto. intros J. rewrite Forall_forall in Fa. apply (I a). apply Fa; auto.
Qed.
(** A sorted list splits into what is below, at and above something. *)
Lemma split3 : forall {X} (R : X -> X -> Prop) (f : X -> comparison) l, ForallOrdPairs R l ->
  (forall a b, In a l -> In b l -> R a b -> f a = Gt -> f b = Gt) -> (forall a b, In a l -> In b l -> R a b -> f b = Lt -> f a = Lt) ->
  exists A M B, l = A ++ M ++ B /\ (forall a, In a A -> f a = Lt) /\ (forall a, In a M -> f a = Eq) /\ (forall a, In a B -> f a = Gt).
Proof.
  intros X R f l F. induction F as [|x l Fx F IH]; intros H1 H2; [exists [], [], []; repeat split; intros a []|].
  destruct IH as (A & M & B & -> & P1 & P2 & P3); [intros a b I J; apply H1; right; auto|intros a b I J; apply H2; right; auto|].
  rewrite Forall_forall in Fx. destruct (f x) eqn:E.
  - assert (A = []) as ->.
    { destruct A as [|a A]; auto. exfalso. assert (Z : f x = Lt) by (apply (H2 x a); [left; auto|right; left; auto|apply Fx; left; auto|apply P1; left; auto]). congruence. }
    exists [], (x :: M), B. repeat split; auto. intros a [<-|I]; auto.
  - exists (x :: A), M, B. repeat split; auto. intros a [<-|I]; auto.
  - assert (A = []) as ->.
    { destruct A as [|a A]; auto. exfalso. assert (Z : f a = Gt) by (apply (H1 x a); [left; auto|right; left; auto|apply Fx; left; auto|auto]). rewrite P1 in Z by (left; auto). discriminate. }
    assert (M = []) as ->.
    { destruct M as [|a M]; auto. exfalso. assert (Z : f a = Gt) by (apply (H1 x a); [left; auto|right; left; auto|apply Fx; left; auto|auto]). rewrite P2 in Z by (left; auto). discriminate. }
    exists [], [], (x :: B). split; [reflexivity|]. split; [intros a []|]. split; [intros a []|]. intros a [<-|I]; auto.
Qed.

(** Edge [c] is one of the two edges at vertex [v]. *)
Definition inc (ln : nat -> line) (v : pt) (c : nat) : Prop := ea ln c = v \/ ez ln c = v.
(** The edges of a polygon: they meet only at vertices, two edges at each vertex; [top]
    tells the edges that have the interior below them.  [V'] is any set of points for
    which the tilt [e] agrees with the order of the sweep. *)
Record mono_geo (ln : nat -> line) (n : nat) (e : Qc) (V V' : list pt) (top : nat -> bool) : Prop := {
  mg_tilt : tilts e (fun p => In p V');
  mg_incl : incl V V';
  mg_ends : forall c a z, c < n -> geo ln c = Line a z -> In a V /\ In z V;
  mg_meet : forall c c' a z a' z' r, c < n -> c' < n -> geo ln c = Line a z -> geo ln c' = Line a' z' ->
    on_seg a z r -> on_seg a' z' r -> (forall r', on_seg a z r' -> on_seg a' z' r' -> r' = r) -> In r V;
  mg_line : forall c, c < n -> exists a z, geo ln c = Line a z;
  mg_over : no_overlap ln n;
  mg_thr : forall v c, c < n -> In v V -> thr ln v c -> v = ea ln c \/ v = ez ln c;
  mg_deg : forall v, In v V -> exists c1 c2, c1 < n /\ c2 < n /\ c1 <> c2 /\ inc ln v c1 /\ inc ln v c2 /\ forall c, c < n -> inc ln v c -> c = c1 \/ c = c2;
  mg_closed : forall b (g : pt -> bool), par (fun _ => true) n b (fun c => xorb (g (ea ln c)) (g (ez ln c))) = false;
  mg_top : forall c, c < n -> top c = negb (side ln n e (fun _ => true) c) }.

Section Mono.
Context {ln : nat -> line} {n : nat} {e : Qc} {V V' : list pt} {top : nat -> bool}.
Context (G : mono_geo ln n e V V' top).
Notation tl := (tilt e).
Notation H := (P_Order.H e).
Notation K := (P_Order.K e).
Notation Sl := (P_Order.S e).
Notation ea := (ea ln).
Notation ez := (ez ln).
Notation eb := (eb ln).
Notation thr := (thr ln).
Notation actb := (actb ln).
Notation inc := (inc ln).
Notation HT' := (mg_tilt _ _ _ _ _ _ G).
Notation HVV := (mg_incl _ _ _ _ _ _ G).
Notation HV1 := (mg_ends _ _ _ _ _ _ G).
Notation HV2 := (mg_meet _ _ _ _ _ _ G).
Notation HL := (mg_line _ _ _ _ _ _ G).
Notation NO := (mg_over _ _ _ _ _ _ G).
Notation Ends := (mg_thr _ _ _ _ _ _ G).
Notation HB := (mg_closed _ _ _ _ _ _ G).
Notation Top := (mg_top _ _ _ _ _ _ G).
Definition lo (p : pt) (c c' : nat) : Prop := K (tl p) (eb c) (eb c') = Lt.

Lemma aV : forall c, c < n -> In (ea c) V'. Proof. intros c L. apply HVV. apply (eV ln n V HV1 HL c L). Qed.
Lemma zV : forall c, c < n -> In (ez c) V'. Proof. intros c L. apply HVV. apply (eV ln n V HV1 HL c L). Qed.
Lemma aV0 : forall c, c < n -> In (ea c) V. Proof. intros c L. apply (eV ln n V HV1 HL c L). Qed.
Lemma zV0 : forall c, c < n -> In (ez c) V. Proof. intros c L. apply (eV ln n V HV1 HL c L). Qed.
Lemma azlt : forall c, c < n -> lex_lt (ea c) (ez c). Proof. exact (e_lt ln n HL). Qed.
Lemma ebG : forall c, c < n -> good V' (eb c). Proof. exact (eb_good ln n V V' HVV HV1 HL). Qed.
Lemma tlt : forall a b, In a V' -> In b V' -> lex_lt a b -> (tl a < tl b)%Qc. Proof. intros a b A B. apply HT'; auto. Qed.
Lemma tle : forall a b, In a V' -> In b V' -> lex_le a b -> (tl a <= tl b)%Qc. Proof. intros a b A B. apply (tilts_le e _ _ _ HT'); auto. Qed.
Lemma tlt' : forall a b, In a V' -> In b V' -> (tl a < tl b)%Qc -> lex_lt a b. Proof. intros a b A B. apply HT'; auto. Qed.
Lemma tle' : forall a b, In a V' -> In b V' -> (tl a <= tl b)%Qc -> lex_le a b. Proof. intros a b A B. apply (tilts_le e _ _ _ HT'); auto. Qed.
Lemma lo_irrefl : forall p c, ~ lo p c c.
Proof. intros p c E. apply K_lt_iff in E as [E|[_ E]]; qcl. Qed.
Lemma lo_trans : forall p a b c, lo p a b -> lo p b c -> lo p a c.
Proof. intros p a b c. apply K_trans. Qed.
Lemma Ha : forall c, c < n -> H (eb c) (tl (ea c)) = cy (ea c).
Proof. intros c L. apply (onb_H e V' HT' (eb c)); [apply ebG; auto|apply on_seg_start]. Qed.
Lemma Hz : forall c, c < n -> H (eb c) (tl (ez c)) = cy (ez c).
Proof. intros c L. apply (onb_H e V' HT' (eb c)); [apply ebG; auto|apply on_seg_end]. Qed.

(** Two edges have the same height only at a common end. *)
Lemma touch : forall c c' l, c < n -> c' < n -> c <> c' ->
  (tl (ea c) <= l)%Qc -> (l <= tl (ez c))%Qc -> (tl (ea c') <= l)%Qc -> (l <= tl (ez c'))%Qc -> H (eb c) l = H (eb c') l ->
  exists v, l = tl v /\ In v V /\ (v = ea c \/ v = ez c) /\ (v = ea c' \/ v = ez c').
Proof.
  intros c c' l L L' N A1 A2 B1 B2 E. destruct (meet_at e V' HT' (eb c) (eb c') l) as (r & O & O' & Tr & _); auto using ebG.
  assert (Vr : In r V).
  { apply (HV2 c c' (ea c) (ez c) (ea c') (ez c') r); auto using (geo_eq ln n HL). intros r' R R'. apply (NO c c'); auto. }
  exists r. split; [congruence|]. split; [exact Vr|]. split; [apply (Ends r c L Vr O)|apply (Ends r c' L' Vr O')].
Qed.

(** At a point where both edges are present they are comparable, and the order is the
    one the program computes. *)
Lemma not_eq : forall p c c', c < n -> c' < n -> c <> c' -> actb p c = true -> actb p c' = true -> K (tl p) (eb c) (eb c') <> Eq.
Proof. exact (no_same ln n e V V' HT' HVV HV1 HL NO). Qed.
Lemma same_K : forall p r c c', c < n -> c' < n -> c <> c' -> In p V' -> In r V' -> lex_le r p -> actb p c = true -> actb p c' = true -> actb r c = true -> actb r c' = true ->
  K (tl r) (eb c) (eb c') = K (tl p) (eb c) (eb c').
Proof.
  intros p r c c' L L' N Vp Vr Le A A' B B'. destruct (pt_dec r p) as [->|Ne]; auto. apply actb_iff in A as [A1 A2]. apply actb_iff in A' as [A1' A2']. apply actb_iff in B as [B1 B2]. apply actb_iff in B' as [B1' B2'].
  apply (persist ln n e V V' HT' HVV HV1 HV2 HL r p c' c); auto; try (apply lex_lt_le; auto); [apply lex_le_neq; auto|].
  intros v Vv L1 L2 T T'. destruct (Ends v c L Vv T') as [-> | ->]; lord.
Qed.
Lemma cmp_act : forall p c c', c < n -> c' < n -> c <> c' -> In p V' -> actb p c = true -> actb p c' = true ->
  cmp_line_line (ea c) (ez c) (ea c') (ez c') = Some (K (tl p) (eb c) (eb c')).
Proof.
  intros p c c' L L' N Vp A A'. pose proof (cmp_K (C := nat) e V' HT' (eb c) (eb c') (ebG c L) (ebG c' L')) as E. cbn [lop_partial_cmp b_geom eb b_p b_q] in E. rewrite E. f_equal.
  unfold later, lmax. cbn [P_OpLab.eb b_p]. pose proof A as Z. pose proof A' as Z'. apply actb_iff in Z as [A1 A2]. apply actb_iff in Z' as [A1' A2'].
  pose proof (azlt c L). pose proof (azlt c' L'). destruct (pltb_spec (ea c') (ea c)) as [Lt_|Ge_].
  - apply same_K; auto using aV; apply actb_iff; split; try lord; apply lex_le_refl.
  - apply same_K; auto using aV; apply actb_iff; split; try lord; try apply lex_le_refl.
Qed.
Lemma cmp_self : forall c, c < n -> cmp_line_line (ea c) (ez c) (ea c) (ez c) = Some Eq.
Proof.
  intros c L. pose proof (cmp_K (C := nat) e V' HT' (eb c) (eb c) (ebG c L) (ebG c L)) as E. cbn [lop_partial_cmp b_geom eb b_p b_q] in E. rewrite E. f_equal.
  apply K_eq_iff. auto.
Qed.
Lemma lo_gt : forall p c c', lo p c c' -> K (tl p) (eb c') (eb c) = Gt.
Proof. intros p c c' E. apply K_gt_iff. exact E. Qed.
Lemma lo_total : forall p c c', c < n -> c' < n -> c <> c' -> actb p c = true -> actb p c' = true -> lo p c c' \/ lo p c' c.
Proof.
  intros p c c' L L' N A A'. unfold lo. destruct (K (tl p) (eb c) (eb c')) eqn:E; auto.
  - exfalso. apply (not_eq p c c'); auto.
  - right. apply K_gt_iff. exact E.
Qed.
(** The order holds on the whole common range. *)
Lemma lo_le : forall p c c' l, c < n -> c' < n -> c <> c' -> In p V' -> actb p c = true -> actb p c' = true -> lo p c c' ->
  (tl (ea c) <= l)%Qc -> (l <= tl (ez c))%Qc -> (tl (ea c') <= l)%Qc -> (l <= tl (ez c'))%Qc -> (H (eb c) l <= H (eb c') l)%Qc.
Proof.
  intros p c c' l L L' N Vp A A' Lo A1 A2 B1 B2. apply actb_iff in A as [X1 X2]. apply actb_iff in A' as [Y1 Y2].
  pose proof (tle _ _ (aV c L) Vp X1) as T1. pose proof (tlt _ _ Vp (zV c L) X2) as T2. pose proof (tle _ _ (aV c' L') Vp Y1) as T3. pose proof (tlt _ _ Vp (zV c' L') Y2) as T4.
  destruct (Qclt_le_dec (H (eb c') l) (H (eb c) l)) as [W|W]; auto. exfalso.
  assert (Nt : forall m, (tl (ea c) < m)%Qc -> (m < tl (ez c))%Qc -> (tl (ea c') <= m)%Qc -> (m <= tl (ez c'))%Qc -> H (eb c) m = H (eb c') m -> False).
  { intros m M1 M2 M3 M4 E. destruct (touch c c' m) as (v & -> & _ & [-> | ->] & _); auto; qcl. }
  destruct (Qclt_le_dec (tl p) l) as [Q|Q].
  - destruct (kcmp_change e (ea c) (ez c) (ea c') (ez c') (tl p) l) as (m & M1 & M2 & M3); [qcl|exact Lo| |].
    + intros E. assert (E' : K l (eb c) (eb c') = Lt) by exact E. apply K_lt_iff in E' as [E'|[E' _]]; qcl.
    + assert (M4 : H (eb c) m = H (eb c') m) by exact M3. destruct (Qc_eq_dec m l) as [->|Nm]; [qcl|]. apply Qc_neq_lt in Nm as [Nm|Nm]; [|qcl].
      apply (Nt m); auto; qcl.
  - destruct (kcmp_change e (ea c') (ez c') (ea c) (ez c) l (tl p)) as (m & M1 & M2 & M3); [qcl| | |].
    + assert (E' : K l (eb c') (eb c) = Lt) by (apply K_lt_iff; auto). exact E'.
    + intros E. assert (E' : K (tl p) (eb c') (eb c) = Lt) by exact E. apply K_gt_iff in E'. unfold lo in Lo. congruence.
    + assert (M4 : H (eb c) m = H (eb c') m) by (symmetry; exact M3). apply (Nt m); auto; qcl.
Qed.

(** * The edges present at a point, from bottom to top *)
Record sorted (p : pt) (l : list nat) : Prop := {
  so_ord : ForallOrdPairs (lo p) l;
  so_act : forall c, In c l <-> c < n /\ actb p c = true }.
Lemma so_nodup : forall p l, sorted p l -> NoDup l.
Proof. intros p l S. apply (FOP_nodup (lo p)); [apply lo_irrefl|apply S]. Qed.
Lemma so_lt : forall p l c, sorted p l -> In c l -> c < n. Proof. intros p l c S I. apply S in I. tauto. Qed.
Lemma so_actb : forall p l c, sorted p l -> In c l -> actb p c = true. Proof. intros p l c S I. apply S in I. tauto. Qed.

(** * From a vertex to the next one *)
Section Next.
Variables p p' : pt.
Hypothesis Vp : In p V'.
Hypothesis Vp' : In p' V.
Hypothesis Lp : lex_lt p p'.
Hypothesis Nx : forall v, In v V -> lex_lt p v -> lex_lt v p' -> False.

Lemma Vp'' : In p' V'. Proof. apply HVV. exact Vp'. Qed.
Lemma next_act : forall c, c < n -> actb p' c = true <-> (ea c = p' \/ (actb p c = true /\ ez c <> p')).
Proof.
  intros c L. pose proof (azlt c L) as Z. rewrite !actb_iff. split.
  - intros [A1 A2]. destruct (pt_dec (ea c) p') as [E|N]; auto. right. split; [split; [|lord]|intros E; rewrite E in A2; lord].
    destruct (lex_le_dec (ea c) p) as [Q|Q]; auto. exfalso. apply (Nx (ea c)); auto using aV0. apply lex_le_neq; auto.
  - intros [E|[[A1 A2] N]]; [rewrite <- E in *; split; [apply lex_le_refl|auto]|]. split; [lord|].
    destruct (lex_le_dec (ez c) p') as [Q|Q]; auto. exfalso. apply (Nx (ez c)); auto using zV0. apply lex_le_neq; auto.
Qed.
Lemma before_act : forall c, c < n -> ez c = p' -> actb p c = true.
Proof.
  intros c L E. pose proof (azlt c L) as Z. apply actb_iff. rewrite E in *. split; auto. destruct (lex_le_dec (ea c) p) as [Q|Q]; auto. exfalso. apply (Nx (ea c)); auto using aV0.
Qed.
Lemma off : forall c, c < n -> actb p c = true -> ez c <> p' -> H (eb c) (tl p') <> cy p'.
Proof.
  intros c L A N E. assert (A' : actb p' c = true) by (apply next_act; auto). apply actb_iff in A as [A1 A2]. apply actb_iff in A' as [B1 B2].
  assert (T : thr p' c) by (apply (thr_iff ln n e V V' HT' HVV HV1 HL); auto using Vp''; apply lex_lt_le; auto).
  destruct (Ends p' c L Vp' T) as [Q|Q]; [rewrite Q in *; lord|congruence].
Qed.
Definition pos (c : nat) : comparison := Qccompare (H (eb c) (tl p')) (cy p').
Lemma pos_lt : forall c, pos c = Lt <-> (H (eb c) (tl p') < cy p')%Qc. Proof. intros c. unfold pos. symmetry. apply Qclt_alt. Qed.
Lemma pos_gt : forall c, pos c = Gt <-> (cy p' < H (eb c) (tl p'))%Qc. Proof. intros c. unfold pos. symmetry. apply Qcgt_alt. Qed.
Lemma pos_eq : forall c, pos c = Eq <-> H (eb c) (tl p') = cy p'. Proof. intros c. unfold pos. symmetry. apply Qceq_alt. Qed.
Lemma lo_next : forall c c', c < n -> c' < n -> c <> c' -> actb p c = true -> actb p c' = true -> lo p c c' -> (H (eb c) (tl p') <= H (eb c') (tl p'))%Qc.
Proof.
  intros c c' L L' N A A' Lo. assert (R : forall x, x < n -> actb p x = true -> (tl (ea x) <= tl p')%Qc /\ (tl p' <= tl (ez x))%Qc).
  { intros x Lx Ax. apply actb_iff in Ax as Ay. destruct Ay as [B1 B2]. split; [apply tle; auto using aV, Vp''; lord|]. apply tle; auto using zV, Vp''.
    destruct (pt_dec (ez x) p') as [->|Q]; [apply lex_le_refl|]. assert (B : actb p' x = true) by (apply next_act; auto). apply actb_iff in B as [_ B]. apply lex_lt_le; auto. }
  destruct (R c L A) as [R1 R2]. destruct (R c' L' A') as [R3 R4]. apply (lo_le p); auto.
Qed.

(** The edges below, the ones that end here, and the ones above. *)
Theorem step_lists : forall l, sorted p l -> exists X M Y, l = X ++ M ++ Y /\
  (forall c, In c M <-> c < n /\ ez c = p') /\
  (forall c, In c X -> pos c = Lt /\ actb p' c = true) /\ (forall c, In c Y -> pos c = Gt /\ actb p' c = true) /\
  (forall M', ForallOrdPairs (lo p') M' -> (forall c, In c M' <-> c < n /\ ea c = p') -> sorted p' (X ++ M' ++ Y)).
Proof.
  intros l S. destruct (split3 (lo p) pos l) as (X & M & Y & -> & PX & PM & PY).
  - apply S.
  - intros a b Ia Ib Lo Q. apply pos_gt in Q. apply pos_gt. destruct (Nat.eq_dec a b) as [->|N]; auto. eapply Qclt_le_trans; [exact Q|]. exact (lo_next a b (so_lt _ _ _ S Ia) (so_lt _ _ _ S Ib) N (so_actb _ _ _ S Ia) (so_actb _ _ _ S Ib) Lo).
  - intros a b Ia Ib Lo Q. apply pos_lt in Q. apply pos_lt. destruct (Nat.eq_dec a b) as [->|N]; auto. eapply Qcle_lt_trans; [|exact Q]. exact (lo_next a b (so_lt _ _ _ S Ia) (so_lt _ _ _ S Ib) N (so_actb _ _ _ S Ia) (so_actb _ _ _ S Ib) Lo).
  - assert (EM : forall c, In c M <-> c < n /\ ez c = p').
    { intros c. split.
      - intros I. assert (Il : In c (X ++ M ++ Y)) by (apply in_or_app; right; apply in_or_app; auto). split; [apply (so_lt _ _ _ S Il)|].
        destruct (pt_dec (ez c) p') as [Q|Q]; auto. exfalso. apply (off c (so_lt _ _ _ S Il) (so_actb _ _ _ S Il) Q). apply pos_eq. auto.
      - intros [L Z]. assert (Il : In c (X ++ M ++ Y)) by (apply S; split; auto; apply before_act; auto).
        assert (Q : pos c = Eq) by (apply pos_eq; rewrite <- Z; apply Hz; auto).
        apply in_app_or in Il as [I|I]; [rewrite (PX _ I) in Q; discriminate|]. apply in_app_or in I as [I|I]; auto. rewrite (PY _ I) in Q. discriminate. }
    assert (Act : forall c, In c (X ++ M ++ Y) -> ~ In c M -> actb p' c = true).
    { intros c I N. apply next_act; [apply (so_lt _ _ _ S I)|]. right. split; [apply (so_actb _ _ _ S I)|]. intros E. apply N. apply EM. split; auto. apply (so_lt _ _ _ S I). }
    assert (NX : forall c, In c X -> ~ In c M) by (intros c I J; apply PX in I; apply PM in J; congruence).
    assert (NY : forall c, In c Y -> ~ In c M) by (intros c I J; apply PY in I; apply PM in J; congruence).
    assert (IX : forall c, In c X -> In c (X ++ M ++ Y)) by (intros; apply in_or_app; auto).
    assert (IY : forall c, In c Y -> In c (X ++ M ++ Y)) by (intros; apply in_or_app; right; apply in_or_app; auto).
    exists X, M, Y. split; auto. split; auto. split; [intros c I; auto|]. split; [intros c I; auto|].
    intros M' F EM'. constructor.
    + assert (Per : forall a b, In a (X ++ Y) -> In b (X ++ Y) -> lo p a b -> lo p' a b).
      { intros a b Ia Ib Lo. assert (Ja : In a (X ++ M ++ Y) /\ ~ In a M) by (apply in_app_or in Ia as [I|I]; auto). assert (Jb : In b (X ++ M ++ Y) /\ ~ In b M) by (apply in_app_or in Ib as [I|I]; auto).
        destruct Ja as [Ja Na]. destruct Jb as [Jb Nb]. destruct (Nat.eq_dec a b) as [->|N]; [exfalso; apply (lo_irrefl p b Lo)|].
        unfold lo. rewrite <- (same_K p' p a b); auto using (so_lt p _ a S Ja), (so_lt p _ b S Jb), Vp'', (so_actb p _ a S Ja), (so_actb p _ b S Jb). apply lex_lt_le; auto. }
      assert (FXY : ForallOrdPairs (lo p') (X ++ Y)) by (apply (FOP_impl (lo p)); [exact Per|apply (FOP_sub (lo p) X M Y); apply S]).
      apply FOP_app in FXY as (F1 & F2 & F3). apply FOP_app. split; auto. split.
      * apply FOP_app. split; auto. split; auto. intros a b Ia Ib. apply EM' in Ia as [La Ea]. apply PY in Ib. apply pos_gt in Ib. apply K_lt_iff. left. assert (Q : H (eb a) (tl p') = cy p') by (rewrite <- Ea; apply Ha; auto). rewrite Q. exact Ib.
      * intros a b Ia Ib. apply in_app_or in Ib as [Ib|Ib]; auto. apply EM' in Ib as [Lb Eb]. apply PX in Ia. apply pos_lt in Ia. apply K_lt_iff. left. assert (Q : H (eb b) (tl p') = cy p') by (rewrite <- Eb; apply Ha; auto). rewrite Q. exact Ia.
    + intros c. rewrite !in_app_iff. split.
      * intros [I|[I|I]]; [split; [apply (so_lt p _ c S)|]; auto|apply EM' in I as [L E]; split; auto; apply next_act; auto|split; [apply (so_lt p _ c S)|]; auto].
      * intros [L A]. apply next_act in A as [A|[A N]]; auto; [right; left; apply EM'; auto|].
        assert (I : In c (X ++ M ++ Y)) by (apply S; auto). rewrite !in_app_iff in I. destruct I as [I|[I|I]]; auto. apply EM in I as [_ I]. contradiction.
Qed.
End Next.

(** * Interior sides alternate *)
Fixpoint alt (b : bool) (l : list nat) : Prop := match l with [] => True | c :: l' => top c = b /\ alt (negb b) l' end.
Lemma odd_perm : forall l l', Permutation l l' -> odd l = odd l'.
Proof.
  intros l l' P. induction P; cbn [odd fold_right]; auto.
  - unfold odd in IHP. rewrite IHP. reflexivity.
  - fold (odd l). destruct x, y, (odd l); reflexivity.
  - congruence.
Qed.
Lemma odd_mem : forall (f : nat -> bool) l, NoDup l -> (forall c, In c l -> c < n) -> (forall c, c < n -> f c = true -> In c l) ->
  par (fun _ => true) n true f = odd (map f l).
Proof.
  intros f l N B F. unfold par. cbn [Bool.eqb].
  transitivity (odd (map f (seq 0 n))); [apply odd_ext; intros; reflexivity|]. rewrite <- (odd_filter f f (seq 0 n)), <- (odd_filter f f l) by auto.
  assert (P : Permutation (filter f (seq 0 n)) (filter f l)).
  { apply NoDup_Permutation; try (apply NoDup_filter; auto; apply seq_NoDup). intros c. rewrite !filter_In, in_seq. split; intros [I E]; split; auto; [apply F; auto; lia|]. apply B in I. lia. }
  apply odd_perm. apply Permutation_map. exact P.
Qed.
Lemma odd_true : forall {X} (f : X -> bool) l, (forall x, In x l -> f x = true) -> odd (map f l) = Nat.odd (List.length l).
Proof.
  intros X f l. induction l as [|x l IH]; intros F; [reflexivity|]. cbn [map odd fold_right List.length]. rewrite (F x) by (left; auto). fold (odd (map f l)). rewrite IH by (intros; apply F; right; auto).
  rewrite Nat.odd_succ, <- Nat.negb_odd. destruct (Nat.odd (List.length l)); reflexivity.
Qed.
Lemma alt_pos : forall b l, (forall X c Y, l = X ++ c :: Y -> top c = xorb b (Nat.odd (List.length X))) -> alt b l.
Proof.
  intros b l. revert b. induction l as [|c l IH]; intros b F; [exact I|]. split; [rewrite (F [] c l eq_refl); apply xorb_false_r|].
  apply IH. intros X d Y ->. rewrite (F (c :: X) d Y eq_refl). cbn [List.length]. rewrite Nat.odd_succ, <- Nat.negb_odd. destruct b, (Nat.odd (List.length X)); reflexivity.
Qed.
Lemma alt_at : forall b X c Y, alt b (X ++ c :: Y) -> top c = xorb b (Nat.odd (List.length X)).
Proof.
  intros b X. revert b. induction X as [|x X IH]; intros b c Y A; [destruct A as [-> _]; symmetry; apply xorb_false_r|].
  destruct A as [_ A]. rewrite (IH _ _ _ A). cbn [List.length]. rewrite Nat.odd_succ, <- Nat.negb_odd. destruct b, (Nat.odd (List.length X)); reflexivity.
Qed.
Lemma upto_sorted : forall p X c Y, sorted p (X ++ c :: Y) -> par (fun _ => true) n true (upto ln e p c) = negb (Nat.odd (List.length X)).
Proof.
  intros p X c Y S. rewrite (odd_mem _ (X ++ c :: Y)); [|apply (so_nodup p); auto|intros; eapply so_lt; eauto|].
  - rewrite map_app, odd_app. cbn [map odd fold_right]. fold (odd (map (upto ln e p c) Y)).
    pose proof (so_ord _ _ S) as F. apply FOP_app in F as (F1 & F2 & F3). inversion F2 as [|? ? F4 F5]; subst. rewrite Forall_forall in F4.
    rewrite (odd_true _ X), (odd_none _ Y).
    + assert (Z : upto ln e p c c = true) by (unfold upto; rewrite (so_actb _ _ c S) by (apply in_or_app; right; left; auto); unfold lek; rewrite (proj2 (K_eq_iff _ _ _ _)); auto).
      rewrite Z. destruct (Nat.odd (List.length X)); reflexivity.
    + intros y I. unfold upto, lek. rewrite (lo_gt p c y) by auto. apply andb_false_r.
    + intros x I. unfold upto, lek. rewrite (so_actb _ _ x S) by (apply in_or_app; auto). pose proof (F3 x c I (or_introl eq_refl)) as Q. unfold lo in Q. rewrite Q. reflexivity.
  - intros d L U. unfold upto in U. apply andb_prop in U as [U _]. apply S. auto.
Qed.
Theorem alt_sorted : forall p l, In p V' -> sorted p l -> alt false l /\ Nat.even (List.length l) = true.
Proof.
  intros p l Vp S. split.
  - apply alt_pos. intros X c Y ->. assert (L : c < n) by (apply (so_lt _ _ c S); apply in_or_app; right; left; auto).
    rewrite Top by auto. rewrite <- (side_at ln n e V V' HT' HVV HV1 HV2 HL Ends (fun _ => true) HB p c); auto; [|apply (so_actb _ _ c S); apply in_or_app; right; left; auto].
    rewrite (upto_sorted p X c Y S). rewrite negb_involutive. symmetry. apply xorb_false_l.
  - rewrite <- Nat.negb_odd. apply negb_true_iff. etransitivity; [|exact (HB true (fun v => pleb v p))]. rewrite <- (odd_true (actb p) l) by (intros; eapply so_actb; eauto).
    rewrite <- odd_mem; [|apply (so_nodup p); auto|intros; eapply so_lt; eauto|intros c L A; apply S; auto].
    unfold par. apply odd_ext. intros c I. apply in_seq in I. assert (L : c < n) by lia. f_equal. pose proof (azlt c L). unfold P_OpLab.actb.
    destruct (pleb_spec (ea c) p) as [A|A], (pltb_spec p (ez c)) as [B|B], (pleb_spec (ez c) p) as [C|C]; try reflexivity; exfalso; try lord.
Qed.
End Mono.
