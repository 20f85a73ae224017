(** The boundary that the boolean sweep emits: as many pieces leave a vertex as
    arrive there, and a ray crosses an odd number of pieces exactly from points
    of the result. *)
Require Import List String Bool Arith Lia Permutation ZArith.
From Verif Require Import Base Scalar M_Events M_Geo M_LineOrPoint M_Sweep M_Rings M_Op.
From Verif Require Import S_Geo P_Geo P_LineOrPoint P_Tilt P_Bundle P_Tile P_Order P_Inv P_Run P_Master S_Boundary P_Boundary.
From Verif Require Import M_MonoPoly S_Mono S_Rings P_Rings S_Op Props_Op1 P_OpLab P_OpPoint P_OpStep P_OpRun P_OpPlane P_OpPoly P_OpSide P_OpBoundary P_OpCount.
Import Datatypes.
Import ListNotations.
Local Open Scope nat_scope.

Lemma inner : forall x y, lex_lt x y -> exists m, strictly_inside x y m.
Proof.
  intros x y L. set (m := mkC ((cx x + cx y) / (1 + 1))%Qc ((cy x + cy y) / (1 + 1))%Qc). exists m.
  assert (H1 : (cx m + cx m = cx x + cx y)%Qc) by (unfold m; cbn [cx cy]; field; discriminate).
  assert (H2 : (cy m + cy m = cy x + cy y)%Qc) by (unfold m; cbn [cx cy]; field; discriminate). clearbody m.
  apply lt_inside; unfold lex_lt, cross in *.
  - destruct L as [L|[L L']]; [left; clear - L H1; qcl|right; split; [apply Qcle_antisym; clear - L H1; qcl|clear - L' H2; qcl]].
  - destruct L as [L|[L L']]; [left; clear - L H1; qcl|right; split; [apply Qcle_antisym; clear - L H1; qcl|clear - L' H2; qcl]].
  - assert (X : (cx m = cx x + cx y - cx m)%Qc) by (clear - H1; qcl). assert (Y : (cy m = cy x + cy y - cy m)%Qc) by (clear - H2; qcl). clear - H1 H2. qc.
Qed.
Lemma inners : forall log : list crossing, exists M, forall k x y, In k log -> cr_line k = Line x y -> lex_lt x y -> exists m, In m M /\ strictly_inside x y m.
Proof.
  induction log as [|k log (M & HM)]; [exists []; intros k x y []|].
  assert (X : exists m, forall x y, cr_line k = Line x y -> lex_lt x y -> strictly_inside x y m).
  { destruct (cr_line k) as [r|x y]; [exists r; intros; discriminate|]. destruct (pltb_spec x y) as [L|L].
    - destruct (inner x y L) as (m & S). exists m. intros x' y' Q _. injection Q as <- <-. exact S.
    - exists x. intros x' y' Q L'. injection Q as <- <-. exfalso. lord. }
  destruct X as (m & S). exists (m :: M). intros k' x y [<-|I] Q L; [exists m; split; [left; auto|auto]|].
  destruct (HM k' x y I Q L) as (m' & I' & S'). exists m'. split; [right; auto|auto].
Qed.
Lemma pred_of : forall (l : list pt) p s, lex_lt s p -> exists p0, (p0 = s \/ In p0 l) /\ lex_lt p0 p /\ forall v, In v l -> lex_lt p0 v -> lex_lt v p -> False.
Proof.
  induction l as [|x l IH]; intros p s L; [exists s; split; [auto|]; split; [auto|intros v []]|].
  destruct (IH p s L) as (p0 & I & L0 & B). destruct (pltb_spec p0 x) as [P1|P1]; [destruct (pltb_spec x p) as [P2|P2]|].
  - exists x. split; [right; left; auto|]. split; [auto|]. intros v [<-|J] V1 V2; [lord|]. apply (B v J); lord.
  - exists p0. split; [destruct I; [left; auto|right; right; auto]|]. split; [auto|]. intros v [<-|J] V1 V2; [lord|]. apply (B v J); auto.
  - exists p0. split; [destruct I; [left; auto|right; right; auto]|]. split; [auto|]. intros v [<-|J] V1 V2; [lord|]. apply (B v J); auto.
Qed.

Section Main.
Variables (tie : nat -> nat) (presort : list crossing -> list crossing) (ty : op_type) (A B : list polygon) (fuel : nat) (es : list edge).
Hypothesis CA : all_closed A.
Hypothesis CB : all_closed B.
Hypothesis F : Forall2 (recorded ty) (map (pair true) (proper_edges A) ++ map (pair false) (proper_edges B)) es.
Let E := P_OpPoly.E A B.
Hypothesis Pre : (forall l, presort l = l) \/ ((forall l, Permutation (presort l) l) /\ apart E).
Let n := List.length es.
Let ln := edge_line es.
Let V := cands ln n.
Hypothesis Fu : bound n V < fuel.
Notation fs := (ofs es).
Notation geo := (geo ln).

Lemma E_proper : forall a b, In (a, b) E -> a <> b.
Proof.
  intros a b I. destruct (c_edge ty A B es F a b I) as (c & L & [[_ Lx]|[_ Lx]]); intros ->; lord.
Qed.
Theorem emits_counted : exists out, op_run tie presort ghost fuel (mkOp ty es) [] = Ok out /\ boundary E (in_result ty A B) out /\
  (forall q, total (sel (fun u v => above u v q)) out = zb (in_result ty A B q)) /\
  forall p, total (sel (fun u v => peqb u p)) out = total (sel (fun u v => peqb v p)) out.
Proof.
  destruct (emits_boundary tie presort ty A B fuel es CA CB F Pre Fu) as (out & R & Bd). exists out. split; [exact R|]. split; [exact Bd|]. fold E in Bd.
  destruct (below_all V) as (m0 & M0). assert (N0 : ~ In m0 V) by (intros I; apply M0 in I; eapply lex_irrefl; eauto).
  destruct (at_m tie presort ty A B fuel es CA CB F Pre Fu m0 N0) as (_ & _ & log & out' & _ & _ & _ & _ & Fi & _).
  destruct (inners log) as (M & HM).
  assert (HV1 : forall c a z, c < n -> geo c = Line a z -> In a V /\ In z V) by (intros c a z L G; apply (cands1 ln n c a z L G)).
  assert (HV2 : forall c c' a z a' z' r, c < n -> c' < n -> geo c = Line a z -> geo c' = Line a' z' ->
    on_seg a z r -> on_seg a' z' r -> (forall r', on_seg a z r' -> on_seg a' z' r' -> r' = r) -> In r V) by (intros c c' a z a' z' r; apply (cands2 ln n)).
  assert (HL : forall c, c < n -> exists a z, geo c = Line a z) by (intros c L; destruct (geoline ty A B es F c L) as (a & z & G & _); eauto).
  assert (InR : forall q, val n ty fs (fun c => above (ea ln c) (ez ln c) q) = in_result ty A B q) by (intros q; apply (lab_above ty A B es CA CB F q)).
  assert (Ec : forall c, c < n -> In (ea ln c, ez ln c) E \/ In (ez ln c, ea ln c) E).
  { intros c L. destruct (geoline ty A B es F c L) as (a & z & G & _ & I). unfold ea, ez. fold ln in G. rewrite G. exact I. }
  assert (cE : forall a b, In (a, b) E -> exists c, c < n /\ forall r, on_seg a b r <-> thr ln r c).
  { intros a b I. destruct (c_edge ty A B es F a b I) as (c & L & [[G _]|[G _]]); exists c; (split; [exact L|]); intros r; unfold thr, ea, ez; fold ln in G; rewrite G; cbn; split; auto using on_seg_sym. }
  assert (Mid : forall c x y, In (x, y) (ended c log) -> exists m, In m M /\ strictly_inside x y m).
  { intros c x y I. apply ended_in in I as (k & Ik & Ck & Lf & G). apply (HM k x y Ik G).
    destruct (log_line ty A B es F log k Fi Ik Lf) as (x' & y' & _ & _ & G' & L & _). rewrite G in G'. injection G' as <- <-. exact L. }
  assert (Set_ : forall q, exists e s0 V', tilts e (fun p => In p V') /\ incl V V' /\ In q V' /\ In s0 V' /\ (forall v, In v V -> lex_lt s0 v) /\ incl M V').
  { intros q. destruct (tilt_list (m0 :: q :: V ++ M)) as (e & P & T). specialize (T e P (Qcle_refl e)). exists e, m0, (m0 :: q :: V ++ M).
    split; [exact T|]. split; [intros v I; right; right; apply in_or_app; auto|]. split; [right; left; auto|]. split; [left; auto|]. split; [auto|intros v I; right; right; apply in_or_app; auto]. }
  split.
  - intros q. destruct (Set_ q) as (e & s0 & V' & T & HVV & Vq & Vs & Bs & MV).
    apply (count_below ln n e V V' T HVV HV1 HV2 HL ty fs (balance ty A B es CA CB F) E out (in_result ty A B) log); auto.
    + apply E_proper.
    + apply (V_notplain ty A B es F).
    + apply (notV_plain ty A B es F).
    + intros c x y I. destruct (Mid c x y I) as (m & I' & S). exists m. auto.
  - intros p. destruct (in_dec pt_dec p V) as [Ip|Np].
    + destruct (Set_ p) as (e & s0 & V' & T & HVV & Vq & Vs & Bs & MV). destruct (pred_of V p s0 (Bs p Ip)) as (p0 & I0 & L0 & B0).
      apply (vertex_balance ln n e V V' T HVV HV1 HV2 HL ty fs (balance ty A B es CA CB F) E out (in_result ty A B) log) with (p0 := p0); auto.
      * apply E_proper.
      * apply (V_notplain ty A B es F).
      * apply (notV_plain ty A B es F).
      * intros c x y I. destruct (Mid c x y I) as (m & I' & S). exists m. auto.
      * destruct I0 as [->|I0]; auto.
    + rewrite !total_none; auto.
      * intros [[r|u v] w] I; [reflexivity|]. unfold sel. cbn [fst snd]. destruct (peqb v p) eqn:Q; auto. apply peqb_iff in Q. subst v. exfalso. apply Np.
        destruct (bd_piece _ _ _ Bd _ _ I) as (x' & y' & Q & P). injection Q as <- <-. destruct P as (_ & _ & _ & Ny & _). destruct (in_dec pt_dec p V); auto. exfalso. apply Ny. apply (notV_plain ty A B es F). auto.
      * intros [[r|u v] w] I; [reflexivity|]. unfold sel. cbn [fst snd]. destruct (peqb u p) eqn:Q; auto. apply peqb_iff in Q. subst u. exfalso. apply Np.
        destruct (bd_piece _ _ _ Bd _ _ I) as (x' & y' & Q & P). injection Q as <- <-. destruct P as (_ & _ & Nx & _). destruct (in_dec pt_dec p V); auto. exfalso. apply Nx. apply (notV_plain ty A B es F). auto.
Qed.
End Main.

(** * From sums to counts *)
Lemma Zodd_zb : forall b, Z.odd (zb b) = b. Proof. intros []; reflexivity. Qed.
Lemma total_odd : forall f l, (forall g w, In (g, w) l -> exists x y, g = Line x y) -> Z.odd (total (sel f) l) = odd (map (fun pr => f (lop_first (fst pr)) (lop_second (fst pr))) l).
Proof.
  intros f l. induction l as [|[g w] l IH]; intros N; [reflexivity|]. destruct (N g w) as (x & y & ->); [left; auto|].
  unfold total in *. cbn [map fold_right]. rewrite Z.odd_add, IH by (intros g' w' I; eapply N; right; eauto). unfold odd at 2. cbn [fold_right]. f_equal.
  unfold sel. cbn [fst snd lop_first lop_second]. destruct (f x y), w; reflexivity.
Qed.
Lemma total_cons : forall f x l, total f (x :: l) = (f x + total f l)%Z. Proof. reflexivity. Qed.
Lemma sel_line : forall f x y w, sel f (Line x y, w) = if f x y then sgn w else 0%Z. Proof. reflexivity. Qed.
Lemma turns_total : forall p l, (forall g w, In (g, w) l -> exists x y, g = Line x y) ->
  (Z.of_nat (count_occ bool_dec (turns p l) true) - Z.of_nat (count_occ bool_dec (turns p l) false) = total (sel (fun u v => peqb u p)) l - total (sel (fun u v => peqb v p)) l)%Z.
Proof.
  intros p l. induction l as [|[g w] l IH]; intros N; [reflexivity|]. destruct (N g w) as (x & y & ->); [left; auto|].
  specialize (IH (fun g' w' I => N g' w' (or_intror I))). unfold turns in *. cbn [flat_map]. rewrite !count_occ_app, !total_cons, !sel_line.
  assert (Q : forall a b, pt_eqb a b = peqb a b) by (intros a b; apply Bool.eq_iff_eq_true; rewrite pt_eqb_iff, peqb_iff; tauto).
  match goal with |- context [flat_map ?f l] => set (T := flat_map f l) in * end. clearbody T.
  unfold directed. cbn [fst snd lop_first lop_second]. destruct w; cbn [fst snd]; rewrite !Q; destruct (peqb x p), (peqb y p); cbn [app count_occ sgn];
  repeat match goal with |- context [bool_dec ?a ?b] => destruct (bool_dec a b); try congruence end; lia.
Qed.
