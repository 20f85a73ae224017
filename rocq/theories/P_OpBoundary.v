(** The boolean sweep emits the boundary of the result. *)
Require Import List String Bool Arith Lia Permutation.
From Verif Require Import Base Scalar M_Events M_Geo M_LineOrPoint M_Splay M_Slab M_Active M_Sweep M_Crossings M_Rings M_Op.
From Verif Require Import S_Geo P_Geo P_LineOrPoint P_Tilt P_Bundle P_Tile P_Order P_Inv P_Run P_Master S_Boundary P_Boundary.
From Verif Require Import M_MonoPoly S_Mono S_Rings P_Rings S_Op Props_Op1 P_OpLab P_OpPoint P_OpStep P_OpRun P_OpPlane P_OpPoly P_OpSide.
Import Datatypes.
Import ListNotations.
Local Open Scope nat_scope.

(** * The sink *)
Section Sink.
Variables (tie : nat -> nat) (presort : list crossing -> list crossing).
Context {ar : arith} {A : Type}.
Variable add : A -> lop -> winding -> res A.
Definition feed (s : A) (l : list (lop * winding)) : res A := fold_res (fun s p => add s (fst p) (snd p)) s l.
Lemma feed_app : forall l l' s, feed s (l ++ l') = (let* s' := feed s l in feed s' l').
Proof. intros. apply fold_res_app'. Qed.
Lemma ends_sim : forall ty es l next em r, process_ends ghost ty es l next em = Ok r ->
  exists new, fst r = em ++ new /\ forall s, process_ends add ty es l next s = (let* s' := feed s new in Ok (s', snd r)).
Proof.
  intros ty es l. induction l as [|c l IH]; intros next em r Q; cbn [process_ends] in *.
  - injection Q as <-. exists []. rewrite app_nil_r. split; auto.
  - destruct (cr_left c); [injection Q as <-; exists []; rewrite app_nil_r; split; auto|].
    destruct (edge_at es (cr_cross c)) as [ed| |]; cbn [bind] in *; try discriminate.
    destruct (has_overlap c l) as [[]| |]; cbn [bind] in *; try discriminate.
    + apply IH in Q. exact Q.
    + destruct (xorb _ _); cbn [bind ghost] in *.
      * apply IH in Q as (new & E & S). eexists (_ :: new). split; [rewrite E, <- app_assoc; reflexivity|]. intros s. cbn [feed fold_res fst snd].
        destruct (add s _ _) as [s'| |]; cbn [bind]; auto.
      * apply IH in Q. exact Q.
Qed.
Lemma point_sim : forall ty it es em it' es' em', op_point presort ghost ty it es em = Ok (it', es', em') ->
  exists new, em' = em ++ new /\ forall s, op_point presort add ty it es s = (let* s' := feed s new in Ok (it', es', s')).
Proof.
  intros ty it es em it' es' em' Q. unfold op_point in *. destruct (sort_crossings _ _) as [l| |]; cbn [bind] in *; try discriminate.
  destruct (process_ends ghost ty es l None em) as [[e1 st]| |] eqn:P; cbn [bind] in *; try discriminate.
  apply ends_sim in P as (new & E & S). cbn [fst snd] in *. exists new. subst e1.
  assert (G : em' = em ++ new /\ forall s1, (match st with
     | [] => Ok (set_out l it, es, s1)
     | bot :: _ => let* _ := check (cr_left bot) "op.rs:128 debug_assert" in let* (it2, prev) := prev_active (set_out l it) bot in
        let* r := match prev with Some sg => let* e := edge_at es (sg_cross sg) in Ok (get_region e (sg_geom sg)) | None => Ok (region_infinity ty) end in
        let* es' := process_starts es st [] r in Ok (it2, es', s1) end : res (sweep * list edge * A)) = Ok (it', es', s1)).
  { destruct st as [|bot st]; [injection Q as -> -> ->; auto|]. destruct (check _ _) as [u| |]; cbn [bind] in *; try discriminate.
    destruct (prev_active _ _) as [[it2 prev]| |]; cbn [bind] in *; try discriminate.
    destruct prev as [sg|]; cbn [bind] in *.
    - destruct (edge_at es (sg_cross sg)) as [ed| |]; cbn [bind] in *; try discriminate.
      destruct (process_starts es (bot :: st) [] _) as [es2| |]; cbn [bind] in *; try discriminate. injection Q as -> -> ->. auto.
    - destruct (process_starts es (bot :: st) [] _) as [es2| |]; cbn [bind] in *; try discriminate. injection Q as -> -> ->. auto. }
  destruct G as [-> G]. split; [reflexivity|]. intros s. rewrite S. destruct (feed s new) as [s1| |]; cbn [bind]; auto.
Qed.
Lemma loop_sim : forall fuel k ln ty it es em out, op_loop tie presort ghost k fuel ln ty it es em = Ok out ->
  exists new, out = em ++ new /\ forall s, op_loop tie presort add k fuel ln ty it es s = feed s new.
Proof.
  intros fuel k. induction k as [|k IH]; intros ln ty it es em out Q; cbn [op_loop] in *; [discriminate|].
  destruct (ci_next ln tie fuel it) as [[it' o]| |]; cbn [bind] in *; try discriminate. destruct o as [p|].
  - destruct (op_point presort ghost ty it' es em) as [[[it2 es2] em2]| |] eqn:P; cbn [bind] in *; try discriminate.
    apply point_sim in P as (n1 & -> & S1). apply IH in Q as (n2 & -> & S2). exists (n1 ++ n2). rewrite app_assoc. split; [reflexivity|].
    intros s. rewrite S1, feed_app. destruct (feed s n1) as [s1| |]; cbn [bind]; auto.
  - injection Q as <-. exists []. rewrite app_nil_r. split; auto.
Qed.
Lemma run_sim : forall fuel o out, op_run tie presort ghost fuel o [] = Ok out -> forall s, op_run tie presort add fuel o s = feed s out.
Proof.
  intros fuel o out Q s. unfold op_run in *. destruct (ci_from_iter _ _) as [it| |]; cbn [bind] in *; try discriminate.
  apply loop_sim in Q as (new & -> & S). apply S.
Qed.
End Sink.

Lemma below_all : forall l : list pt, exists s, forall v, In v l -> lex_lt s v.
Proof.
  induction l as [|v l (s & S)]; [exists (mkC 0 0)%Qc; intros v []|].
  exists (if pltb s v then s else mkC (cx v - 1)%Qc 0%Qc).
  assert (L : lex_lt (mkC (cx v - 1)%Qc 0%Qc) v) by (left; cbn [cx]; qcl). destruct (pltb_spec s v) as [P|P].
  - intros v' [<-|I]; auto.
  - intros v' [<-|I]; auto. apply S in I. lord.
Qed.
(** Parts of an edge have its direction. *)
Lemma cross_part : forall a z x y q, lex_lt a z -> on_seg a z x -> on_seg a z y -> lex_lt x y ->
  (0 < cross x y q <-> 0 < cross a z q)%Qc /\ (cross x y q < 0 <-> cross a z q < 0)%Qc.
Proof.
  intros a z x y q L (s & _ & _ & Ax & Ay) (t & _ & _ & Bx & By) Lxy.
  assert (T : (s < t)%Qc).
  { unfold lex_lt in *. rewrite Ax, Ay, Bx, By in Lxy. clear Ax Ay Bx By. destruct (Qclt_le_dec s t) as [Q|Q]; auto. exfalso. destruct L as [L|[L L']].
    - assert (P : (0 < cx z - cx a)%Qc) by (clear - L; qcl). set (u := (cx z - cx a)%Qc) in *. set (v := (cy z - cy a)%Qc) in *. clearbody u v. destruct Lxy as [W|[W W']].
      + clear - P Q W. qc.
      + assert (K : (s * u = t * u)%Qc) by (clear - W; qcl). apply Qc_mul_cancel in K; [|intros Z; rewrite Z in P; clear - P; qcl]. subst t. clear - W'. qcl.
    - assert (P : (0 < cy z - cy a)%Qc) by (clear - L'; qcl). rewrite L in Lxy. replace (cx z - cx z)%Qc with 0%Qc in Lxy by ring.
      set (v := (cy z - cy a)%Qc) in *. clearbody v. destruct Lxy as [W|[W W']]; [clear - W; qcl|clear - P Q W'; qc]. }
  assert (K : cross x y q = ((t - s) * cross a z q)%Qc) by (unfold cross; rewrite Ax, Ay, Bx, By; ring).
  assert (P : (0 < t - s)%Qc) by (clear - T; qcl). rewrite K. split; [apply pos_mul; auto|].
  replace ((t - s) * cross a z q)%Qc with (- ((t - s) * - cross a z q))%Qc by ring. rewrite neg_mul by auto. split; intros Q; clear - Q; qcl.
Qed.

(** No two edges run along each other. *)
Definition apart (E : list (pt * pt)) : Prop := forall i j a b a' b' r r', i <> j -> nth_error E i = Some (a, b) -> nth_error E j = Some (a', b') ->
  on_seg a b r -> on_seg a' b' r -> on_seg a b r' -> on_seg a' b' r' -> r = r'.

Section Main.
Variables (tie : nat -> nat) (presort : list crossing -> list crossing) (ty : op_type) (A B : list polygon) (fuel : nat) (es : list edge).
Hypothesis CA : all_closed A.
Hypothesis CB : all_closed B.
Hypothesis F : Forall2 (recorded ty) (map (pair true) (proper_edges A) ++ map (pair false) (proper_edges B)) es.
Let E := E A B.
Hypothesis Pre : (forall l, presort l = l) \/ ((forall l, Permutation (presort l) l) /\ apart E).
Let n := List.length es.
Let ln := edge_line es.
Let V := cands ln n.
Let o := mkOp ty es.
Hypothesis Fu : bound n V < fuel.
Context {ar : arith} {fa : faithful ar ln n}.
Notation fs := (ofs es).
Notation geo := (geo ln).

Lemma len_E : n = List.length E.
Proof. unfold n, E, P_OpPoly.E. rewrite <- (Forall2_length _ _ _ F), !app_length, !map_length. reflexivity. Qed.
Lemma geoline : forall c, c < n -> exists a z, geo c = Line a z /\ lex_lt a z /\ (In (a, z) E \/ In (z, a) E).
Proof. intros c L. destruct (edge_c ty A B es F c L) as (ed & a & z & _ & G & _ & Lz & I). exists a, z. auto. Qed.
Lemma eaz : forall c a z, geo c = Line a z -> ea ln c = a /\ ez ln c = z.
Proof. intros c a z G. unfold ea, ez. rewrite G. auto. Qed.
Lemma overlap_free : apart E -> no_overlap ln n.
Proof.
  intros Ap c c' r r' L L' N T T' R R'.
  assert (G : forall k, k < n -> exists a b, nth_error E k = Some (a, b) /\ (geo k = Line a b \/ geo k = Line b a)).
  { intros k Lk. assert (X : forall l l', Forall2 (recorded ty) l l' -> forall k ed, nth_error l' k = Some ed -> exists fe, nth_error l k = Some fe /\ recorded ty fe ed).
    { clear. intros l l' F'. induction F' as [|x y l l' R F' IH]; intros [|k] ed Q; try discriminate; [injection Q as <-; exists x; auto|apply IH; auto]. }
    destruct (nth_error es k) as [ed|] eqn:Q; [|apply nth_error_None in Q; unfold n in Lk; lia].
    destruct (X _ _ F k ed Q) as ([f e] & Q' & (x & y & Gx & _ & D) & _). cbn [snd] in D.
    assert (Qe : nth_error E k = Some e).
    { assert (M : E = map snd (map (pair true) (proper_edges A) ++ map (pair false) (proper_edges B))).
      { rewrite map_app, !map_map. cbn [snd]. rewrite !map_id. reflexivity. }
      rewrite M. apply (map_nth_error snd) in Q'. exact Q'. }
    pose proof (geo_es ty A B es F k ed Q) as GE. change (geo k = e_geom ed) in GE. rewrite GE, Gx. destruct D as [-> | ->]; eexists _, _; eauto. }
  destruct (G c L) as (a & b & Q1 & D1). destruct (G c' L') as (a' & b' & Q2 & D2).
  assert (O : forall k a b r, geo k = Line a b \/ geo k = Line b a -> thr ln r k -> on_seg a b r).
  { intros k x y p D Tk. unfold thr in Tk. destruct D as [D|D]; apply eaz in D; destruct D as [W1 W2]; rewrite W1, W2 in Tk; [auto|apply on_seg_sym; auto]. }
  apply (Ap c c' a b a' b' r r' N Q1 Q2); eauto.
Qed.
Lemma notV_plain : forall m, ~ In m V -> plain E m.
Proof.
  intros m N. split.
  - intros a b I. destruct (c_edge ty A B es F a b I) as (c & L & [[G _]|[G _]]); destruct (cands1 ln n _ _ _ L G); split; intros Q; apply N; rewrite Q; auto.
  - intros a b a' b' I I' O O'.
    assert (G : forall a b, In (a, b) E -> exists c x y, c < n /\ geo c = Line x y /\ lex_lt x y /\ forall r, on_seg a b r <-> on_seg x y r).
    { intros u v J. destruct (c_edge ty A B es F u v J) as (c & L & [[G Lx]|[G Lx]]); exists c; eexists _, _; (split; [exact L|]); (split; [exact G|]); (split; [auto|]); intros r; split; auto using on_seg_sym. }
    destruct (G a b I) as (c & x & y & L & Gc & Lx & Q). destruct (G a' b' I') as (c' & x' & y' & L' & Gc' & Lx' & Q').
    pose proof (intersect_line_exact (Line x y) (Line x' y') Lx Lx') as X. destruct (intersect_line _ _) as [oo| |]; [|discriminate X|destruct X].
    destruct X as [_ X]. apply Q in O. apply Q' in O'. destruct oo as [[p|p q]|]; simpl in X.
    + exfalso. apply N. apply (cands2 ln n c c' x y x' y' m); auto. intros r' R R'. transitivity p; [apply X; auto|symmetry; apply X; auto].
    + destruct X as [Lpq X]. pose proof (proj1 (X p) (on_seg_start _ _)) as [P1 P2]. pose proof (proj1 (X q) (on_seg_end _ _)) as [Q1 Q2].
      destruct (pt_dec p m) as [Z|Z]; [exists q; subst p; split; [intros Z; subst; apply (lex_irrefl _ Lpq)|]|exists p; split; [auto|]]; split; try (apply Q; auto); apply Q'; auto.
    + exfalso. apply (X m). auto.
Qed.
Lemma V_notplain : forall m, In m V -> ~ plain E m.
Proof.
  intros m I [P1 P2]. destruct (cands3 ln n m I) as [(c & L & G)|[(c & a & z & L & G & D)|(c & c' & a & z & a' & z' & L & L' & G & G' & O & O' & U)]].
  - destruct (geoline c L) as (a & z & G' & _). congruence.
  - destruct (geoline c L) as (a' & z' & G' & Lz & I'). rewrite G in G'. injection G' as <- <-. destruct I' as [I'|I']; apply P1 in I' as [X Y]; destruct D; auto.
  - destruct (geoline c L) as (x & y & G2 & _ & I1). rewrite G in G2. injection G2 as <- <-. destruct (geoline c' L') as (x & y & G2 & _ & I2). rewrite G' in G2. injection G2 as <- <-.
    assert (X : exists r, r <> m /\ on_seg a z r /\ on_seg a' z' r).
    { destruct I1 as [I1|I1], I2 as [I2|I2]; destruct (P2 _ _ _ _ I1 I2) as (r & N & R & R'); auto using on_seg_sym; exists r; auto using on_seg_sym. }
    destruct X as (r & N & R & R'). apply N. apply U; auto.
Qed.
Lemma seen_c : forall m q, visible E m q -> forall r, on_seg m q r -> r <> m -> forall c, c < n -> ~ thr ln r c.
Proof.
  intros m q Vi r O N c L T. destruct (geoline c L) as (a & z & G & _ & I). unfold thr in T. destruct (eaz c a z G) as [Q1 Q2]. rewrite Q1, Q2 in T.
  destruct I as [I|I]; apply (Vi r O N _ _ I); auto using on_seg_sym.
Qed.

(** The run, looked at from [m]. *)
Lemma at_m : forall m, ~ In m V -> exists e V' log em, tilts e (fun p => In p V') /\ incl V V' /\ In m V' /\
  op_run tie presort ghost fuel o [] = Ok em /\ final ln n V log /\ emits ln n e ty fs m log em.
Proof.
  intros m N. destruct (below_all (m :: V)) as (s0 & S). destruct (tilt_list (s0 :: m :: V)) as (e & P & T). specialize (T e P (Qcle_refl e)).
  assert (Pre' : (forall l, presort l = l) \/ ((forall l, Permutation (presort l) l) /\ no_overlap ln n)).
  { destruct Pre as [Q|[Q R]]; [left; auto|right; split; auto using overlap_free]. }
  destruct (run_at ln tie presort n e V (s0 :: m :: V) T) with (ar := ar) (ty := ty) (fs := fs) (m := m) (s0 := s0) (es := es) (fuel := fuel)
    as (sw & log & em & Q1 & Q2 & Q3 & Q4); auto.
  - intros v I. right; right; auto.
  - intros c a z L G. apply (cands1 ln n c a z L G).
  - intros c c' a z a' z' r. apply (cands2 ln n).
  - apply (cands3 ln n).
  - intros c L. destruct (geoline c L) as (a & z & G & _). eauto.
  - apply (balance ty A B es CA CB F).
  - right; left; auto.
  - left; auto.
  - intros Q. apply (lex_irrefl m). rewrite <- Q at 1. apply S. left; auto.
  - intros v I. apply S. right; auto.
  - apply (es_wfe ty A B es F).
  - apply S. left; auto.
  - exists e, (s0 :: m :: V), log, em. split; [exact T|]. split; [intros v I; right; right; auto|]. split; [right; left; auto|].
    split; [|auto]. unfold op_run, o. cbn [op_edges op_ty]. fold n ln. rewrite Q1. cbn [bind]. exact Q2.
Qed.

Lemma ended_in : forall c x y log, In (x, y) (ended c log) <-> exists k, In k log /\ cr_cross k = c /\ cr_left k = false /\ cr_line k = Line x y.
Proof.
  intros c x y log. unfold ended. rewrite in_flat_map. split.
  - intros (k & I & J). exists k. destruct (Nat.eqb_spec (cr_cross k) c) as [Q|Q]; [|destruct J]. destruct (cr_left k) eqn:Lf; [destruct J|]. cbn [andb negb] in J.
    destruct (cr_line k) as [p|p q]; [destruct J|]. destruct J as [J|[]]. injection J as -> ->. auto.
  - intros (k & I & Q & Lf & G). exists k. split; [auto|]. rewrite Q, Nat.eqb_refl, Lf, G. cbn. auto.
Qed.
Lemma log_line : forall log k, final ln n V log -> In k log -> cr_left k = false -> exists x y a z, cr_line k = Line x y /\ lex_lt x y /\ In x V /\ In y V /\
  geo (cr_cross k) = Line a z /\ lex_lt a z /\ on_seg a z x /\ on_seg a z y /\ cr_cross k < n /\ forall m, strictly_inside x y m -> ~ In m V.
Proof.
  intros log k Fi I Lf. destruct (fi_log _ _ _ _ Fi k I) as (L & M & _). destruct (geoline _ L) as (a & z & G & Lz & _). destruct (cr_line k) as [p|p q] eqn:Q.
  - destruct M as (M & _). congruence.
  - destruct M as (a' & z' & G' & Lpq & Ip & Iq & Op & Oq). rewrite G in G'. injection G' as <- <-. exists p, q, a, z. repeat split; auto.
    intros m S J. destruct (inside_lt p q m Lpq S) as [L1 L2]. apply (fi_fine _ _ _ _ Fi (cr_cross k) p q m); auto; [|apply S]. apply ended_in. exists k. auto.
Qed.

Theorem emits_boundary : exists out, op_run tie presort ghost fuel o [] = Ok out /\ boundary E (in_result ty A B) out.
Proof.
  destruct (below_all V) as (m0 & M0). assert (N0 : ~ In m0 V) by (intros I; apply M0 in I; eapply lex_irrefl; eauto).
  destruct (at_m m0 N0) as (e0 & V0 & log0 & out & T0 & HVV0 & Vm0 & R0 & Fi0 & Em0). exists out. split; [exact R0|].
  assert (Any : forall m, ~ In m V -> exists e V' log, tilts e (fun p => In p V') /\ incl V V' /\ In m V' /\ final ln n V log /\ emits ln n e ty fs m log out).
  { intros m N. destruct (at_m m N) as (e & V' & log & em & T & HVV & Vm & R & Fi & Em). rewrite R in R0. injection R0 as ->. exists e, V', log. auto. }
  clear T0 HVV0 Vm0 R0.
  assert (HV1 : forall c a z, c < n -> geo c = Line a z -> In a V /\ In z V) by (intros c a z L G; apply (cands1 ln n c a z L G)).
  assert (HV2 : forall c c' a z a' z' r, c < n -> c' < n -> geo c = Line a z -> geo c' = Line a' z' ->
    on_seg a z r -> on_seg a' z' r -> (forall r', on_seg a z r' -> on_seg a' z' r' -> r' = r) -> In r V) by (intros c c' a z a' z' r; apply (cands2 ln n)).
  assert (HL : forall c, c < n -> exists a z, geo c = Line a z) by (intros c L; destruct (geoline c L) as (a & z & G & _); eauto).
  assert (Pc : forall x y w, In (Line x y, w) out -> lex_lt x y /\ In x V /\ In y V /\ (exists a z, lex_lt a z /\ (In (a, z) E \/ In (z, a) E) /\ on_seg a z x /\ on_seg a z y) /\ forall m, strictly_inside x y m -> ~ In m V).
  { intros x y w I. destruct (em_sound _ _ _ _ _ _ _ _ Em0 _ _ I) as (k & Ik & Lf & Q & _).
    destruct (log_line log0 k Fi0 Ik Lf) as (x' & y' & a & z & Q' & L & Ix & Iy & G & Lz & Ox & Oy & Lc & Fine). rewrite Q in Q'. injection Q' as <- <-.
    destruct (geoline _ Lc) as (a' & z' & G' & _ & IE). rewrite G in G'. injection G' as <- <-. repeat split; auto. exists a, z. auto. }
  assert (Lb : forall x y w m e V' log, In (Line x y, w) out -> strictly_inside x y m -> tilts e (fun p => In p V') -> incl V V' -> In m V' -> final ln n V log -> emits ln n e ty fs m log out ->
    xorb (Pm ln n e ty fs m) (Nm_ ln n e ty fs m) = true /\ w = wind ln n e ty fs m /\ exists c, c < n /\ thr ln m c /\ on_seg (ea ln c) (ez ln c) x /\ on_seg (ea ln c) (ez ln c) y).
  { intros x y w m e V' log I S T HVV Vm Fi Em. destruct (em_sound _ _ _ _ _ _ _ _ Em _ _ I) as (k & Ik & Lf & Q & W).
    destruct (log_line log k Fi Ik Lf) as (x' & y' & a & z & Q' & L & Ix & Iy & G & Lz & Ox & Oy & Lc & Fine). rewrite Q in Q'. injection Q' as <- <-.
    destruct (inside_lt x y m L S) as [L1 L2]. destruct W as [W1 W2]; [exists x, y; split; [auto|]; split; [apply S|auto]|]. split; [auto|]. split; [auto|].
    exists (cr_cross k). destruct (eaz _ _ _ G) as [Qa Qz]. unfold thr. rewrite Qa, Qz. repeat split; auto. apply (inner_on x y); auto. apply S. }
  assert (InR : forall q, is_ty (lab ty fs n (fun c => above (ea ln c) (ez ln c) q)) ty = in_result ty A B q) by (intros q; apply (lab_above ty A B es CA CB F q)).
  constructor.
  - intros g w I. destruct (em_sound _ _ _ _ _ _ _ _ Em0 _ _ I) as (k & Ik & Lf & Q & _).
    destruct (log_line log0 k Fi0 Ik Lf) as (x & y & a & z & Q' & _). rewrite Q in Q'. rewrite Q' in I. exists x, y. split; [auto|].
    destruct (Pc x y w I) as (L & Ix & Iy & (a' & z' & Lz & IE & Ox & Oy) & Fine). split; [auto|]. split.
    + destruct IE as [IE|IE]; [exists a', z'|exists z', a']; auto using on_seg_sym.
    + split; [apply V_notplain; auto|]. split; [apply V_notplain; auto|]. intros m S. apply notV_plain. auto.
  - exact (em_NoDup _ _ _ _ _ _ _ _ Em0).
  - intros x y w m q I S Vi U. destruct (Pc x y w I) as (L & _ & _ & _ & Fine). pose proof (Fine m S) as N. destruct (Any m N) as (e & V' & log & T & HVV & Vm & Fi & Em).
    destruct (Lb x y w m e V' log I S T HVV Vm Fi Em) as (X & Wd & c & Lc & Th & Ox & Oy).
    destruct (cross_part (ea ln c) (ez ln c) x y q (e_lt ln n HL c Lc) Ox Oy L) as [P1 _]. apply P1 in U.
    pose proof (up_label ln n e V V' T HVV HV1 HV2 HL ty fs (balance ty A B es CA CB F) m Vm N q c Lc Th (seen_c m q Vi) U) as Z. rewrite InR in Z.
    unfold wind in Wd. rewrite Z in X. subst w. destruct (in_result ty A B q), (Nm_ ln n e ty fs m); cbn in *; split; intros; congruence.
  - intros x y w m q I S Vi U. destruct (Pc x y w I) as (L & _ & _ & _ & Fine). pose proof (Fine m S) as N. destruct (Any m N) as (e & V' & log & T & HVV & Vm & Fi & Em).
    destruct (Lb x y w m e V' log I S T HVV Vm Fi Em) as (X & Wd & c & Lc & Th & Ox & Oy).
    destruct (cross_part (ea ln c) (ez ln c) x y q (e_lt ln n HL c Lc) Ox Oy L) as [_ P1]. apply P1 in U.
    pose proof (down_label ln n e V V' T HVV HV1 HV2 HL ty fs (balance ty A B es CA CB F) m Vm N q c Lc Th (seen_c m q Vi) U) as Z. rewrite InR in Z.
    unfold wind in Wd. rewrite Z in *. subst w. destruct (in_result ty A B q); cbn in *; split; intros; congruence.
  - intros a b m q q' I O Pl Vi Vi' U D Df.
    assert (N : ~ In m V) by (intros J; apply (V_notplain m J); auto). destruct (Any m N) as (e & V' & log & T & HVV & Vm & Fi & Em).
    assert (G : exists c x y, c < n /\ geo c = Line x y /\ lex_lt x y /\ on_seg x y m /\
      exists q1 q2, visible E m q1 /\ visible E m q2 /\ (0 < cross x y q1)%Qc /\ (cross x y q2 < 0)%Qc /\ in_result ty A B q1 <> in_result ty A B q2).
    { destruct (c_edge ty A B es F a b I) as (c & L & [[G Lx]|[G Lx]]); exists c; eexists _, _; (split; [exact L|]); (split; [exact G|]); (split; [auto|]); (split; [auto using on_seg_sym|]).
      - exists q, q'. auto.
      - exists q', q. assert (Cs : forall p, cross b a p = (- cross a b p)%Qc) by (intros p; unfold cross; ring). rewrite !Cs. repeat split; auto; [clear - D|clear - U]; qcl. }
    destruct G as (c & x & y & L & G & Lx & Om & q1 & q2 & V1 & V2 & U1 & D2 & Df').
    destruct (eaz c x y G) as [Qa Qz]. assert (Th : thr ln m c) by (unfold thr; rewrite Qa, Qz; auto).
    rewrite <- Qa, <- Qz in U1, D2.
    pose proof (up_label ln n e V V' T HVV HV1 HV2 HL ty fs (balance ty A B es CA CB F) m Vm N q1 c L Th (seen_c m q1 V1) U1) as Z1. rewrite InR in Z1.
    pose proof (down_label ln n e V V' T HVV HV1 HV2 HL ty fs (balance ty A B es CA CB F) m Vm N q2 c L Th (seen_c m q2 V2) D2) as Z2. rewrite InR in Z2.
    destruct (HV1 c x y L G) as [Vx Vy]. destruct (on_seg_between _ _ _ Lx Om) as [B1 B2].
    assert (L1 : lex_lt x m) by (apply lex_le_neq; auto; intros Q; apply N; rewrite <- Q; auto). assert (L2 : lex_lt m y) by (apply lex_le_neq; auto; intros Q; apply N; rewrite Q; auto).
    destruct (tile_cover_l V x y (ended c log) m (fi_tile _ _ _ _ Fi c x y L G) B1 L2) as (u & v & J & U3 & U4).
    destruct (tile_piece V x y (ended c log) u v (fi_tile _ _ _ _ Fi c x y L G) J) as (Luv & Iu & Iv & Ou & Ov & _).
    assert (Lu : lex_lt u m) by (apply lex_le_neq; auto; intros Q; apply N; rewrite <- Q; auto).
    assert (S : strictly_inside u v m).
    { apply lt_inside; auto. apply (seg_collinear x y); auto. }
    apply ended_in in J as (k & Ik & Ck & Lf & Gk). exists u, v, (wind ln n e ty fs m). split; [|exact S]. rewrite <- Gk.
    apply (em_complete _ _ _ _ _ _ _ _ Em k Ik Lf); [exists u, v; split; [auto|]; split; [apply S|auto]|].
    rewrite Z1, Z2. destruct (in_result ty A B q1), (in_result ty A B q2); auto; congruence.
Qed.
End Main.
