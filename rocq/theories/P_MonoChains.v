(** Monotone decomposition: the invariant of the chains. *)
Require Import List String Bool Arith Lia Permutation Sorted.
From Verif Require Import Base Scalar M_Events M_Geo M_LineOrPoint M_Slab M_Active M_MonoPoly M_Rings M_Op M_MonoSweep M_Chains.
From Verif Require Import S_Geo P_Geo P_LineOrPoint P_Tilt P_Chain P_Bundle P_Order P_Inv P_Slab P_BTree.
From Verif Require Import P_OpLab P_OpStep P_OpPlane P_MonoGeo P_MonoSweep P_MonoStep P_ChainDesc P_ChainEvent.
Import Datatypes.
Import ListNotations.
Local Open Scope nat_scope.

(** Chains are kept from right to left. *)
Fixpoint redges (l : list pt) : list (pt * pt) :=
  match l with z :: (a :: _) as l' => (a, z) :: redges l' | _ => [] end.
Definition dec (l : list pt) : Prop := StronglySorted (fun a b => lex_lt b a) l.
Lemma redges_cons : forall z a l, redges (z :: a :: l) = (a, z) :: redges (a :: l). Proof. reflexivity. Qed.
Lemma redges_le : forall l z u v, dec (z :: l) -> In (u, v) (redges (z :: l)) -> lex_le v z /\ lex_lt u v /\ In u (z :: l) /\ In v (z :: l).
Proof.
  induction l as [|a l IH]; intros z u v S I; [destruct I|]. rewrite redges_cons in I. inversion S as [|? ? S' F]; subst. inversion F as [|? ? Fa _]; subst. destruct I as [I|I].
  - injection I as -> ->. split; [apply lex_le_refl|]. split; [exact Fa|]. cbn [In]; auto.
  - destruct (IH a u v S' I) as (A & B & C & D). split; [lord|]. split; [exact B|]. cbn [In] in *; tauto.
Qed.
Lemma dec_cons : forall z a l, dec (a :: l) -> lex_lt a z -> dec (z :: a :: l).
Proof.
  intros z a l S L. constructor; auto. constructor; auto. inversion S as [|? ? S' F]; subst. apply (Forall_impl (fun b => lex_lt b z)) in F; auto. intros b Lb. lord.
Qed.
Lemma dec_head_le : forall z l w, dec (z :: l) -> In w (z :: l) -> lex_le w z.
Proof. intros z l w S [<-|I]; [apply lex_le_refl|]. inversion S as [|? ? _ F]; subst. rewrite Forall_forall in F. apply lex_lt_le. auto. Qed.
Lemma dec_tail : forall z l, dec (z :: l) -> dec l. Proof. intros z l S. inversion S; auto. Qed.

(** Counting, to compare lists up to order. *)
Definition tge : Type := ((pt * pt) * bool)%type.
Definition tge_dec : forall x y : tge, {x = y} + {x <> y}.
Proof.
  intros [[a b] c] [[a' b'] c']. destruct (pt_dec a a') as [->|N]; [|right; congruence]. destruct (pt_dec b b') as [->|N]; [|right; congruence]. destruct (bool_dec c c') as [->|N]; [left; auto|right; congruence].
Qed.
Definition one (x a : tge) : nat := if tge_dec a x then 1 else 0.
Definition cnt (x : tge) (l : list tge) : nat := count_occ tge_dec l x.
Lemma cnt_cons : forall x a l, cnt x (a :: l) = one x a + cnt x l.
Proof. intros x a l. unfold cnt, one. cbn [count_occ]. destruct (tge_dec a x); reflexivity. Qed.
Lemma cnt_app : forall x l l', cnt x (l ++ l') = cnt x l + cnt x l'.
Proof. intros. apply count_occ_app. Qed.
Lemma cnt_perm : forall l l', Permutation l l' <-> forall x, cnt x l = cnt x l'.
Proof. intros. apply (Permutation_count_occ tge_dec). Qed.
Lemma cnt_nil : forall x, cnt x [] = 0. Proof. reflexivity. Qed.
Ltac count := apply cnt_perm; intros ?x; rewrite ?flat_map_app, ?map_app; cbn [flat_map map app]; repeat (rewrite ?cnt_app, ?cnt_cons, ?cnt_nil, ?app_nil_r); lia.

(** The edges of a pair, with the label of the chain. *)
Definition tagged (b : bool) (l : list pt) : list tge := map (fun x => (x, b)) (redges l).
Definition tedges (o : opair) : list tge := tagged false (ob o) ++ tagged true (ot o).
Definition twice (d : list (pt * pt)) : list tge := flat_map (fun x => [(x, true); (x, false)]) d.
Lemma tagged_cons : forall b z a l, tagged b (z :: a :: l) = ((a, z), b) :: tagged b (a :: l). Proof. reflexivity. Qed.

Inductive body : Type := One (o : opair) | Two (lo hi : opair).
Definition prs (B : body) : list opair := match B with One o => [o] | Two lo hi => [lo; hi] end.
Notation gbod := (sgap * body)%type.
Definition open (gbs : list gbod) : list opair := flat_map (fun x => prs (snd x)) gbs.
Lemma open_app : forall a b, open (a ++ b) = open a ++ open b. Proof. intros. apply flat_map_app. Qed.
Lemma in_open : forall o gbs, In o (open gbs) <-> exists x, In x gbs /\ In o (prs (snd x)).
Proof. intros. apply in_flat_map. Qed.

Lemma map_split : forall {X Y} (f : X -> Y) l A B, map f l = A ++ B -> exists l1 l2, l = l1 ++ l2 /\ map f l1 = A /\ map f l2 = B.
Proof. intros X Y f l A B E. apply map_eq_app. exact E. Qed.
Lemma map_split1 : forall {X Y} (f : X -> Y) l A y B, map f l = A ++ y :: B -> exists l1 x l2, l = l1 ++ x :: l2 /\ map f l1 = A /\ f x = y /\ map f l2 = B.
Proof.
  intros X Y f l A y B E. destruct (map_split f l A (y :: B) E) as (l1 & [|x l2] & -> & E1 & E2); [discriminate|]. cbn in E2. injection E2 as E2 E3. exists l1, x, l2. auto.
Qed.

(** Values along a line between two given ones. *)
Lemma affine_between : forall d0 d1 s x0 x1 x : Qc, (x0 <= x)%Qc -> (x <= x1)%Qc -> (d1 = d0 + (x1 - x0) * s)%Qc -> (0 <= d0)%Qc -> (0 <= d1)%Qc -> (0 <= d0 + (x - x0) * s)%Qc.
Proof.
  intros d0 d1 s x0 x1 x A B E P Q. destruct (Qclt_le_dec s 0) as [S|S].
  - assert (Z : (0 <= (x - x1) * s)%Qc) by (clear E; qc). assert (W : (d0 + (x - x0) * s = d1 + (x - x1) * s)%Qc) by (rewrite E; ring). rewrite W. qcl.
  - assert (Z : (0 <= (x - x0) * s)%Qc) by (clear E; qc). qcl.
Qed.

Section Chains.
Context {ln : nat -> line} {n : nat} {e : Qc} {V V' : list pt} {top : nat -> bool}.
Context (G : mono_geo ln n e V V' top).
Notation tl := (tilt e).
Notation H := (P_Order.H e).
Notation K := (P_Order.K e).
Notation Sl := (P_Order.S e).
Notation ea := (ea ln).
Notation ez := (ez ln).
Notation eb := (eb ln).
Notation actb := (actb ln).
Notation inc := (inc ln).
Notation lo := (@lo ln e).
Notation sorted := (@sorted ln n e).
Notation pos := (@pos ln e).
Notation sstep := (@sstep ln n e).
Notation ends_at := (@ends_at ln n).
Notation starts_at := (@starts_at ln n).
Notation HVV := (mg_incl _ _ _ _ _ _ G).

(** On the whole common range the first segment is not above the second, and the two do
    not lie along each other. *)
Definition skew (u v u' v' : pt) : Prop := lex_le v' u \/ lex_le v u' \/ cross u v u' <> 0%Qc \/ cross u v v' <> 0%Qc \/ cross u' v' u <> 0%Qc \/ cross u' v' v <> 0%Qc.
(** An end of one segment that lies on the other is an end of the other. *)
Definition clr (u v u' v' : pt) : Prop := (on_seg u v u' -> u' = u \/ u' = v) /\ (on_seg u v v' -> v' = u \/ v' = v) /\ (on_seg u' v' u -> u = u' \/ u = v') /\ (on_seg u' v' v -> v = u' \/ v = v').
Definition segle (u v u' v' : pt) : Prop := (skew u v u' v' /\ clr u v u' v') /\ forall r, In r V' -> isact u v r = true -> isact u' v' r = true -> (hgt e u v (tl r) <= hgt e u' v' (tl r))%Qc.
Definition wb (b t : list pt) : Prop := forall u v u' v', In (u, v) (redges b) -> In (u', v') (redges t) -> segle u v u' v'.
Record pw (o : opair) : Prop := {
  pw_b : dec (ob o);
  pw_t : dec (ot o);
  pw_V : forall v, In v (ob o) \/ In v (ot o) -> In v V;
  pw_root : exists r l1 l2, ob o = l1 ++ [r] /\ ot o = l2 ++ [r];
  pw_ap : forall v, In v (ob o) -> In v (ot o) -> (exists l, ob o = l ++ [v]) \/ (exists l l', ob o = v :: l /\ ot o = v :: l');
  pw_wb : wb (ob o) (ot o) }.
Lemma clr_far : forall u v u' v', lex_lt u v -> lex_lt u' v' -> lex_le v' u \/ lex_le v u' -> clr u v u' v'.
Proof.
  intros u v u' v' Lu Lu' L. unfold clr. rewrite !on_seg_iff by auto. refine (conj _ (conj _ (conj _ _))); intros (_ & A & B); destruct L as [L|L].
  all: first [exfalso; lord|left; apply lex_le_antisym; lord|right; apply lex_le_antisym; lord].
Qed.
Lemma segle_far : forall u v u' v', lex_lt u v -> lex_lt u' v' -> lex_le v' u \/ lex_le v u' -> segle u v u' v'.
Proof. intros u v u' v' Lu Lu' L. split; [split; [unfold skew; tauto|apply clr_far; auto]|]. intros r Vr A A'. apply isact_iff in A as [A1 A2]. apply isact_iff in A' as [B1 B2]. exfalso. destruct L; lord. Qed.
Lemma pw_push_b : forall o u l v z a l', pw o -> ob o = u :: l -> ot o = z :: a :: l' -> lex_le a u -> lex_lt u v -> In v V -> u <> z -> segle u v a z -> pw (setb (v :: u :: l) o).
Proof.
  intros o u l v z a l' [Pb Pt PV (r & l1 & l2 & R1 & R2) Pa Pw] E E' La Lv Vv Nz Sg. rewrite E in *. constructor; cbn [setb ob ot].
  - apply dec_cons; auto.
  - auto.
  - intros w [[<-|I]|I]; auto.
  - exists r, (v :: l1), l2. rewrite R1. auto.
  - intros w [<-|I] J.
    + rewrite E' in J, Pt. destruct J as [<-|J]; [right; exists (u :: l), (a :: l'); auto|]. exfalso. apply dec_tail in Pt. pose proof (dec_head_le _ _ _ Pt J). lord.
    + destruct (Pa w I J) as [(k & K)|(k & k' & K & K')]; [left; exists (v :: k); rewrite K; auto|]. exfalso. apply Nz. congruence.
  - intros x y x' y' I J. rewrite redges_cons in I. destruct I as [I|I]; [|apply Pw; auto]. injection I as <- <-. rewrite E' in J, Pt. rewrite redges_cons in J. destruct J as [J|J]; [injection J as <- <-; exact Sg|].
    apply dec_tail in Pt. apply redges_le in J as (J & Lj & _); auto. apply segle_far; auto. left. lord.
Qed.
Lemma pw_push_t : forall o u l v z a l', pw o -> ot o = u :: l -> ob o = z :: a :: l' -> lex_le a u -> lex_lt u v -> In v V -> u <> z -> segle a z u v -> pw (sett (v :: u :: l) o).
Proof.
  intros o u l v z a l' [Pb Pt PV (r & l1 & l2 & R1 & R2) Pa Pw] E E' La Lv Vv Nz Sg. rewrite E in *. constructor; cbn [sett ob ot].
  - auto.
  - apply dec_cons; auto.
  - intros w [I|[<-|I]]; auto.
  - exists r, l1, (v :: l2). rewrite R2. auto.
  - intros w J [<-|I].
    + rewrite E' in J, Pb. destruct J as [<-|J]; [right; exists (a :: l'), (u :: l); auto|]. exfalso. apply dec_tail in Pb. pose proof (dec_head_le _ _ _ Pb J). lord.
    + destruct (Pa w J I) as [(k & K)|(k & k' & K & K')]; [left; exists k; auto|]. exfalso. apply Nz. congruence.
  - intros x y x' y' I J. rewrite redges_cons in J. destruct J as [J|J]; [|apply Pw; auto]. injection J as <- <-. rewrite E' in I, Pb. rewrite redges_cons in I. destruct I as [I|I]; [injection I as <- <-; exact Sg|].
    apply dec_tail in Pb. apply redges_le in I as (I & Li & _); auto. apply segle_far; auto. right. lord.
Qed.
Lemma pw_pop_b : forall o z a l, pw o -> ob o = z :: a :: l -> pw (setb (a :: l) o).
Proof.
  intros o z a l [Pb Pt PV (r & l1 & l2 & R1 & R2) Pa Pw] E. rewrite E in *. constructor; cbn [setb ob ot]; auto.
  - apply (dec_tail z). auto.
  - intros v [I|I]; apply PV; [left; right; auto|auto].
  - destruct l1 as [|y l1]; [discriminate R1|]. injection R1 as <- R1. exists r, l1, l2. auto.
  - intros w I J. destruct (Pa w (or_intror I) J) as [([|y k] & K)|(k & k' & K & _)]; [discriminate K|injection K as _ K; left; exists k; exact K|]. exfalso. injection K as <- _. inversion Pb as [|? ? _ F]; subst. rewrite Forall_forall in F. specialize (F _ I). lord.
  - intros x y x' y' I J. apply Pw; auto. rewrite redges_cons. right; auto.
Qed.
Lemma pw_pop_t : forall o z a l, pw o -> ot o = z :: a :: l -> pw (sett (a :: l) o).
Proof.
  intros o z a l [Pb Pt PV (r & l1 & l2 & R1 & R2) Pa Pw] E. rewrite E in *. constructor; cbn [sett ob ot]; auto.
  - apply (dec_tail z). auto.
  - intros v [I|I]; apply PV; [auto|right; right; auto].
  - destruct l2 as [|y l2]; [discriminate R2|]. injection R2 as <- R2. exists r, l1, l2. auto.
  - intros w I J. destruct (Pa w I (or_intror J)) as [(k & K)|(k & k' & _ & K)]; [left; exists k; exact K|]. exfalso. injection K as <- _. inversion Pt as [|? ? _ F]; subst. rewrite Forall_forall in F. specialize (F _ J). lord.
  - intros x y x' y' I J. apply Pw; auto. rewrite redges_cons. right; auto.
Qed.
(** A pair that begins at [h] with one bottom edge or one top edge. *)
Lemma pw_wedge : forall i j h zb zt, In h V -> In zb V -> In zt V -> lex_lt h zb -> lex_lt h zt -> segle h zb h zt -> pw (mkO i j [zb; h] [zt; h]).
Proof.
  intros i j h zb zt Vh Vb Vt Lb Lt_ Sg. constructor; cbn [ob ot].
  - apply dec_cons; auto. constructor; constructor.
  - apply dec_cons; auto. constructor; constructor.
  - intros v [[<-|[<-|[]]]|[<-|[<-|[]]]]; auto.
  - exists h, [zb], [zt]. auto.
  - intros v [<-|[<-|[]]] [J|[J|[]]]; [right; exists [h], [h]; rewrite J; auto|left; exists []; exfalso; rewrite J in Lb; lord|left; exists [zb]; auto|left; exists [zb]; auto].
  - intros x y x' y' [I|[]] [J|[]]. injection I as <- <-. injection J as <- <-. exact Sg.
Qed.

(** ** Edges and diagonals *)
Lemma skew_edges : forall p b t, b < n -> t < n -> actb p b = true -> actb p t = true -> b <> t -> skew (ea b) (ez b) (ea t) (ez t).
Proof.
  intros p b t Lb Lt_ Ab At N. apply isact_iff in Ab as [A1 A2]. apply isact_iff in At as [B1 B2]. pose proof (azlt G b Lb) as Zb. pose proof (azlt G t Lt_) as Zt. unfold skew.
  destruct (Qc_eq_dec (cross (ea b) (ez b) (ea t)) 0) as [C1|C1]; [|tauto]. destruct (Qc_eq_dec (cross (ea b) (ez b) (ez t)) 0) as [C2|C2]; [|tauto].
  destruct (Qc_eq_dec (cross (ea t) (ez t) (ea b)) 0) as [C3|C3]; [|tauto]. destruct (Qc_eq_dec (cross (ea t) (ez t) (ez b)) 0) as [C4|C4]; [|tauto]. exfalso.
  assert (F : exists u, thr ln u b /\ thr ln u t /\ lex_le u p).
  { destruct (lex_total (ea b) (ea t)) as [[L|L]|L]; [exists (ea t)|exists (ea t)|exists (ea b)]; unfold thr; rewrite !on_seg_iff by auto; repeat split; auto; try (unfold cross; ring); try apply lex_le_refl; try (rewrite L; apply lex_le_refl); try (rewrite <- L; auto); lord. }
  assert (F' : exists u, thr ln u b /\ thr ln u t /\ lex_lt p u).
  { destruct (lex_total (ez b) (ez t)) as [[L|L]|L]; [exists (ez b)|exists (ez b)|exists (ez t)]; unfold thr; rewrite !on_seg_iff by auto; repeat split; auto; try (unfold cross; ring); try apply lex_le_refl; try (rewrite L; apply lex_le_refl); try (rewrite L; auto); lord. }
  destruct F as (u & U1 & U2 & U3). destruct F' as (w & W1 & W2 & W3). assert (Q : u = w) by (apply (mg_over _ _ _ _ _ _ G b t u w); auto). subst w. lord.
Qed.
Lemma vertex_on : forall c v, c < n -> In v V -> on_seg (ea c) (ez c) v -> v = ea c \/ v = ez c.
Proof. intros c v L Vv O. apply (mg_thr _ _ _ _ _ _ G); auto. Qed.
Lemma clr_edges : forall b t, b < n -> t < n -> clr (ea b) (ez b) (ea t) (ez t).
Proof. intros b t Lb Lt_. refine (conj _ (conj _ (conj _ _))); intros O; apply vertex_on; auto using (aV0 G), (zV0 G). Qed.
Lemma clr_diag : forall b h q, b < n -> In h V -> In q V -> lex_lt h q -> lex_le (ea b) h -> lex_le q (ez b) -> clr (ea b) (ez b) h q.
Proof.
  intros b h q L Vh Vq Lh La Lz. split; [intros O; apply vertex_on; auto|]. split; [intros O; apply vertex_on; auto|]. rewrite !on_seg_iff by auto. split; intros (_ & A & B); [left|right]; apply lex_le_antisym; auto.
Qed.
Lemma clr_sym : forall u v u' v', clr u v u' v' -> clr u' v' u v.
Proof. unfold clr. tauto. Qed.
Lemma segle_edges : forall p b t, In p V' -> b < n -> t < n -> actb p b = true -> actb p t = true -> lo p b t -> segle (ea b) (ez b) (ea t) (ez t).
Proof.
  intros p b t Vp Lb Lt_ Ab At Lo. assert (N : b <> t) by (intros ->; apply (lo_irrefl p t Lo)). split; [split; [apply (skew_edges p b t); auto|apply clr_edges; auto]|].
  intros r Vr A A'. apply isact_iff in A as [A1 A2]. apply isact_iff in A' as [B1 B2].
  apply (lo_le G p b t (tl r)); auto; apply (tle G); auto using (aV G), (zV G); lord.
Qed.
Definition Hd (u v : pt) (l : Qc) : Qc := hgt e u v l.
Lemma diag_range : forall h q r, In h V' -> In q V' -> In r V' -> isact h q r = true -> (tl h <= tl r)%Qc /\ (tl r <= tl q)%Qc /\ (tl h < tl q)%Qc.
Proof.
  intros h q r Vh Vq Vr A. apply isact_iff in A as [A1 A2]. split; [apply (tle G); auto|]. split; [apply (tle G); auto; lord|apply (tlt G); auto; lord].
Qed.
(** A diagonal from [h] to [q] beside edge [b]: one of its ends is off the edge. *)
Definition beside (p : pt) (b : nat) (h q : pt) : Prop := actb p b = true /\ lex_le h p /\ (H (eb b) (tl q) <> cy q \/ In h V /\ lex_le (ea b) h /\ forall c, c < n -> ea c <> h).
Lemma beside_off : forall p b h q, b < n -> beside p b h q -> cross (ea b) (ez b) h <> 0%Qc \/ cross (ea b) (ez b) q <> 0%Qc.
Proof.
  intros p b h q L (A & Lh & [D|(Vh & Lb & N)]); apply isact_iff in A as [A1 A2]; pose proof (azlt G b L) as Z.
  - right. rewrite (cross_hgt e) by (apply (tlt G); auto using (aV G), (zV G)). intros Q. apply Qcmult_integral in Q as [Q|Q].
    + pose proof (tlt G _ _ (aV G b L) (zV G b L) Z) as Z'. qcl.
    + apply D. change (P_Order.H e (eb b) (tl q)) with (hgt e (ea b) (ez b) (tl q)). qcl.
  - left. intros Q. destruct (mg_thr _ _ _ _ _ _ G h b L Vh) as [E|E].
    + unfold thr. rewrite on_seg_iff by auto. repeat split; auto. lord.
    + apply (N b L). auto.
    + rewrite <- E in A2. lord.
Qed.
Lemma segle_above : forall p b h q, b < n -> clr (ea b) (ez b) h q -> beside p b h q -> In h V' -> In q V' -> (H (eb b) (tl h) <= cy h)%Qc -> (H (eb b) (tl q) <= cy q)%Qc -> segle (ea b) (ez b) h q.
Proof.
  intros p b h q L Cl Be Vh Vq H1 H2. split; [split; [destruct (beside_off p b h q L Be); unfold skew; tauto|auto using clr_sym]|]. intros r Vr _ A. destruct (diag_range h q r Vh Vq Vr A) as (T1 & T2 & T3).
  pose proof (H_diff e (eb b) (mkB h q [] : P_Bundle.bundle nat) (tl h) (tl r)) as D1. pose proof (H_diff e (eb b) (mkB h q [] : P_Bundle.bundle nat) (tl h) (tl q)) as D2.
  assert (E1 : H (mkB h q [] : P_Bundle.bundle nat) (tl h) = cy h) by apply hgt_start. assert (E2 : H (mkB h q [] : P_Bundle.bundle nat) (tl q) = cy q) by (apply hgt_end; auto). rewrite E1 in D1, D2. rewrite E2 in D2.
  pose proof (affine_between (cy h - H (eb b) (tl h)) (cy q - H (eb b) (tl q)) (Sl (mkB h q [] : P_Bundle.bundle nat) - Sl (eb b)) (tl h) (tl q) (tl r) T1 T2 D2) as Z. rewrite <- D1 in Z.
  change (H (eb b) (tl r) <= H (mkB h q [] : P_Bundle.bundle nat) (tl r))%Qc. assert (Z' : (0 <= H (mkB h q [] : P_Bundle.bundle nat) (tl r) - H (eb b) (tl r))%Qc) by (apply Z; qcl). qcl.
Qed.
Lemma segle_below : forall p t h q, t < n -> clr (ea t) (ez t) h q -> beside p t h q -> In h V' -> In q V' -> (cy h <= H (eb t) (tl h))%Qc -> (cy q <= H (eb t) (tl q))%Qc -> segle h q (ea t) (ez t).
Proof.
  intros p b h q L Cl Be Vh Vq H1 H2. split; [split; [destruct (beside_off p b h q L Be); unfold skew; tauto|auto using clr_sym]|]. intros r Vr A _. destruct (diag_range h q r Vh Vq Vr A) as (T1 & T2 & T3).
  pose proof (H_diff e (mkB h q [] : P_Bundle.bundle nat) (eb b) (tl h) (tl r)) as D1. pose proof (H_diff e (mkB h q [] : P_Bundle.bundle nat) (eb b) (tl h) (tl q)) as D2.
  assert (E1 : H (mkB h q [] : P_Bundle.bundle nat) (tl h) = cy h) by apply hgt_start. assert (E2 : H (mkB h q [] : P_Bundle.bundle nat) (tl q) = cy q) by (apply hgt_end; auto). rewrite E1 in D1, D2. rewrite E2 in D2.
  pose proof (affine_between (H (eb b) (tl h) - cy h) (H (eb b) (tl q) - cy q) (Sl (eb b) - Sl (mkB h q [] : P_Bundle.bundle nat)) (tl h) (tl q) (tl r) T1 T2 D2) as Z. rewrite <- D1 in Z.
  change (H (mkB h q [] : P_Bundle.bundle nat) (tl r) <= H (eb b) (tl r))%Qc. assert (Z' : (0 <= H (eb b) (tl r) - H (mkB h q [] : P_Bundle.bundle nat) (tl r))%Qc) by (apply Z; qcl). qcl.
Qed.

(** * The invariant *)
Definition pend (lab : bool) (x m : pt) : Prop := (exists c, c < n /\ ea c = x /\ ez c = m /\ top c = lab) \/ (forall c, c < n -> ea c <> x).
Record gbase (p : pt) (g : sgap) : Prop := {
  gb_hp : lex_le (sg_h g) p;
  gb_hV : In (sg_h g) V;
  gb_hb : lex_le (ea (sg_b g)) (sg_h g);
  gb_ht : lex_le (ea (sg_t g)) (sg_h g);
  gb_lo : (H (eb (sg_b g)) (tl (sg_h g)) <= cy (sg_h g))%Qc;
  gb_hi : (cy (sg_h g) <= H (eb (sg_t g)) (tl (sg_h g)))%Qc }.
Definition gbody (g : sgap) (B : body) : Prop :=
  let '(mkSgap b t h m) := g in
  match B with
  | One o => m = false /\ pw o /\ (exists l, ob o = ez b :: ea b :: l) /\ (exists l, ot o = ez t :: ea t :: l) /\
      ((h = ea b /\ forall c, c < n -> ea c = h -> c <> b -> top c = true) \/
       (h = ea t /\ forall c, c < n -> ea c = h -> c <> t -> top c = false /\ (Sl (eb t) < Sl (eb c))%Qc))
  | Two l u => m = true /\ pw l /\ pw u /\ (exists x, ob l = ez b :: ea b :: x) /\ (exists x k, ot l = h :: x :: k /\ pend true x h) /\
      (exists x k, ob u = h :: x :: k /\ pend false x h) /\ (exists x, ot u = ez t :: ea t :: x) /\ (forall c, c < n -> ea c <> h)
  end.
Definition gw (p : pt) (x : gbod) : Prop := gbase p (fst x) /\ gbody (fst x) (snd x).
Definition merges (gs : list sgap) : list pt := map sg_h (filter sg_m gs).
Definition started (p : pt) : list tge := map (fun c => ((ea c, ez c), top c)) (filter (fun c => pleb (ea c) p) (seq 0 n)).
Definition done (o : opair) : Prop := pw o /\ exists q l1 l2, ob o = q :: l1 /\ ot o = q :: l2 /\ l1 <> [].
Record cinv (p : pt) (gbs : list gbod) (cs : list mchain) (D : list opair) : Prop := {
  ci_desc : desc cs (open gbs) D;
  ci_gw : forall x, In x gbs -> gw p x;
  ci_m : NoDup (merges (map fst gbs));
  ci_done : forall o, In o D -> done o;
  ci_edges : exists d, Permutation (flat_map tedges (open gbs ++ D)) (started p ++ twice d) }.

Lemma gbase_mono : forall p p' g, lex_le p p' -> gbase p g -> gbase p' g.
Proof. intros p p' g L []. constructor; auto. lord. Qed.
Lemma gw_mono : forall p p' x, lex_le p p' -> gw p x -> gw p' x.
Proof. intros p p' x L [A B]. split; [apply (gbase_mono p); auto|auto]. Qed.
Lemma gw_full : forall p x o, gw p x -> In o (prs (snd x)) -> full o.
Proof.
  intros p [[b t h m] B] o [_ W] I. cbn [snd fst gbody] in *. destruct B as [o'|l u].
  - destruct I as [<-|[]]. destruct W as (_ & _ & (l1 & E1) & (l2 & E2) & _). split; [rewrite E1|rewrite E2]; cbn; lia.
  - destruct W as (_ & _ & _ & (l1 & E1) & (x2 & l2 & E2 & _) & (x3 & l3 & E3 & _) & (l4 & E4) & _). destruct I as [<-|[<-|[]]]; split; rewrite ?E1, ?E2, ?E3, ?E4; cbn; lia.
Qed.
(** The heads of the chains. *)
Lemma gw_heads : forall p x o q, gw p x -> In o (prs (snd x)) -> ez (sg_b (fst x)) <> q -> ez (sg_t (fst x)) <> q -> (sg_m (fst x) = true -> sg_h (fst x) <> q) -> off q o.
Proof.
  intros p [[b t h m] B] o q [_ W] I N1 N2 N3. cbn [snd fst gbody sg_b sg_t sg_h sg_m] in *. destruct B as [o'|l u].
  - destruct I as [<-|[]]. destruct W as (_ & _ & (l1 & E1) & (l2 & E2) & _). split; [rewrite E1|rewrite E2]; apply hdb_diff; auto.
  - destruct W as (M & _ & _ & (l1 & E1) & (x2 & l2 & E2 & _) & (x3 & l3 & E3 & _) & (l4 & E4) & _). destruct I as [<-|[<-|[]]]; split; rewrite ?E1, ?E2, ?E3, ?E4; apply hdb_diff; auto.
Qed.
Lemma flat_map_b : forall gs, NoDup (flat gs) -> NoDup (map sg_b gs) /\ NoDup (map sg_t gs) /\ forall g g', In g gs -> In g' gs -> sg_b g <> sg_t g'.
Proof.
  induction gs as [|g gs IH]; intros N; [repeat split; try constructor; intros g g' []|]. cbn [flat flat_map app] in N. fold (flat gs) in N. inversion N as [|? ? N1 N2]; subst. inversion N2 as [|? ? N3 N4]; subst. destruct (IH N4) as (A & B & C).
  assert (Ib : forall g', In g' gs -> In (sg_b g') (flat gs)) by (intros g' I; apply in_flat_map; exists g'; cbn; auto). assert (It : forall g', In g' gs -> In (sg_t g') (flat gs)) by (intros g' I; apply in_flat_map; exists g'; cbn; auto).
  cbn [In] in N1. cbn [map]. split; [|split].
  - constructor; auto. intros I. apply in_map_iff in I as (g' & E & I). apply N1. right. rewrite <- E. auto.
  - constructor; auto. intros I. apply in_map_iff in I as (g' & E & I). apply N3. rewrite <- E. auto.
  - intros g1 g2 [<-|I1] [<-|I2]; auto.
    + intros E. apply N1. right. rewrite E. auto.
    + intros E. apply N3. rewrite <- E. auto.
Qed.
Lemma map_inj : forall {X Y} (f : X -> Y) l x y, NoDup (map f l) -> In x l -> In y l -> f x = f y -> x = y.
Proof.
  intros X Y f l x y. induction l as [|z l IH]; intros N I J E; [destruct I|]. cbn in N. inversion N as [|? ? N1 N2]; subst. destruct I as [<-|I], J as [<-|J]; auto.
  - exfalso. apply N1. rewrite E. apply in_map. auto.
  - exfalso. apply N1. rewrite <- E. apply in_map. auto.
Qed.
Lemma merges_inj : forall (gbs : list gbod) x y, NoDup (merges (map fst gbs)) -> In x gbs -> In y gbs -> sg_m (fst x) = true -> sg_m (fst y) = true -> sg_h (fst x) = sg_h (fst y) -> x = y.
Proof.
  intros gbs x y N I J Mx My E. assert (Q : merges (map fst gbs) = map (fun x => sg_h (fst x)) (filter (fun x => sg_m (fst x)) gbs)).
  { unfold merges. clear. induction gbs as [|z l IH]; auto. cbn. destruct (sg_m (fst z)); cbn; rewrite IH; auto. }
  rewrite Q in N. apply (map_inj _ _ _ _ N); auto; apply filter_In; auto.
Qed.
End Chains.
