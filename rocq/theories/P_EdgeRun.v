(** The edges of the monotone decomposition of an arbitrary polygon: the whole run. *)
Require Import List String Bool Arith Lia Permutation Sorted.
From Verif Require Import Base Scalar M_Events M_Geo M_LineOrPoint M_Slab M_Active M_MonoPoly M_Rings M_Op M_MonoSweep M_Chains.
From Verif Require Import S_Geo P_Geo P_Slab P_Rings S_Mono S_Rings S_Op Props_Op1 P_OpStep P_OpBoundary P_MonoSweep P_MonoChains P_MonoRun S_Chains P_MonoCount P_Mono Props_Mono P_MonoTotal P_ChainDesc P_EdgeSweep P_EdgeChains.
Import Datatypes.
Import ListNotations.
Local Open Scope nat_scope.
Notation redges := P_MonoChains.redges.
Notation edges_rev := P_MonoCount.edges_rev.

Lemma st_perm : forall (Q Q' : seg3 -> Prop) L L' X X' cs, Permutation L L' -> Permutation X X' -> (forall t, Q t -> Q' t) -> st Q L X cs -> st Q' L' X' cs.
Proof.
  intros Q Q' L L' X X' cs PL PX Im (Pr & Lg & (B & PB & bB & oB) & Ee). split; auto. split; auto. split; [exists B; split; [rewrite PB, PL; reflexivity|split; auto]|]. apply (eqv_perm _ _ _ Ee PX).
Qed.
Lemma part : forall {X} (f g h : X -> bool) l, (forall x, In x l -> f x = g x || h x) -> (forall x, In x l -> g x && h x = false) -> Permutation (filter f l) (filter g l ++ filter h l).
Proof.
  intros X f g h. induction l as [|x l IH]; intros H1 H2; [reflexivity|]. cbn [filter]. rewrite (H1 x (or_introl eq_refl)). pose proof (H2 x (or_introl eq_refl)) as D.
  assert (IH' : Permutation (filter f l) (filter g l ++ filter h l)) by (apply IH; intros y I; [apply H1|apply H2]; right; auto).
  destruct (g x), (h x); cbn [orb andb] in *; try discriminate D; rewrite IH'; [reflexivity|apply Permutation_middle|reflexivity].
Qed.

Section Run.
Variable E : list seg3.
Hypothesis EL : forall t, In t E -> lex_lt (ta t) (tz t).
Hypothesis EB : Permutation (map (fun t => fst (dir t)) E) (map (fun t => snd (dir t)) E).
Variable pick : list nat -> nat -> nat -> nat.
Notation jinv := (jinv E).
Definition begun (p : pt) (t : seg3) : bool := negb (pltb p (ta t)).
Definition live (p : pt) (t : seg3) : bool := begun p t && pltb p (tz t).
Definition inv (p : pt) (cs : list mchain) : Prop := st (okP p) (filter (live p) E) (map dir (filter (begun p) E)) cs.

Section Step.
Variables p p' : pt.
Hypothesis Lt : lex_lt p p'.
Hypothesis Gap : forall t, In t E -> (lex_le (ta t) p \/ lex_le p' (ta t)) /\ (lex_le (tz t) p \/ lex_le p' (tz t)).
Definition keep (t : seg3) : bool := begun p t && pltb p' (tz t).
Lemma b_true : forall q t, begun q t = true <-> lex_le (ta t) q. Proof. intros q t. unfold begun. rewrite negb_true_iff. apply pltb_false. Qed.
Lemma b_false : forall q t, begun q t = false <-> lex_lt q (ta t). Proof. intros q t. unfold begun. rewrite negb_false_iff. apply pltb_iff. Qed.
Lemma gap_cases : forall t, In t E -> (begun p t = true /\ begun p' t = true /\ peqb (ta t) p' = false) \/ (begun p t = false /\ ((begun p' t = true /\ peqb (ta t) p' = true /\ pltb p' (tz t) = true /\ peqb (tz t) p' = false) \/ (begun p' t = false /\ peqb (ta t) p' = false /\ peqb (tz t) p' = false))).
Proof.
  intros t I. destruct (Gap t I) as [[Ga|Ga] _]; pose proof (EL t I) as T.
  - left. split; [apply b_true; auto|]. split; [apply b_true; lord|]. destruct (peqb_spec (ta t) p') as [Q|Q]; auto. rewrite Q in Ga. exfalso. lord.
  - right. split; [apply b_false; lord|]. destruct (peqb_spec (ta t) p') as [Q|Q].
    + left. split; [apply b_true; rewrite Q; lord|]. split; auto. rewrite Q in T. split; [apply pltb_iff; auto|]. destruct (peqb_spec (tz t) p') as [Q'|Q']; auto. rewrite Q' in T. exfalso. lord.
    + right. assert (lex_lt p' (ta t)) by (apply lex_le_neq; auto). split; [apply b_false; auto|]. split; auto. destruct (peqb_spec (tz t) p') as [Q'|Q']; auto. rewrite Q' in T. exfalso. lord.
Qed.
Lemma gap_z : forall t, In t E -> pltb p (tz t) = peqb (tz t) p' || pltb p' (tz t) /\ peqb (tz t) p' && pltb p' (tz t) = false.
Proof.
  intros t I. destruct (Gap t I) as [_ [Ga|Ga]].
  - assert (Z1 : pltb p (tz t) = false) by (apply pltb_false; auto). assert (Z2 : pltb p' (tz t) = false) by (apply pltb_false; lord). rewrite Z1, Z2. destruct (peqb_spec (tz t) p') as [Q|Q]; auto. rewrite Q in Ga. exfalso. lord.
  - assert (Z1 : pltb p (tz t) = true) by (apply pltb_iff; lord). rewrite Z1. destruct (peqb_spec (tz t) p') as [Q|Q]; cbn [orb andb].
    + rewrite Q. split; auto. apply pltb_false. lord.
    + split; auto. symmetry. apply pltb_iff. apply lex_le_neq; auto.
Qed.
Ltac gaps := intros t I; destruct (gap_z t I) as [Z1 Z2]; destruct (gap_cases t I) as [(C1 & C2 & C3)|(C1 & [(C2 & C3 & C4 & C5)|(C2 & C3 & C4)])]; unfold live, keep; rewrite ?Z1, ?C1, ?C2, ?C3, ?C4, ?C5 in *; cbn [andb orb] in *; auto.
Lemma live_old : Permutation (filter (live p) E) (filter (fun t => peqb (tz t) p') E ++ filter keep E).
Proof. apply part; gaps. Qed.
Lemma live_new : Permutation (filter (live p') E) (filter (fun t => peqb (ta t) p') E ++ filter keep E).
Proof. apply part; gaps. Qed.
Lemma begun_new : Permutation (filter (begun p') E) (filter (fun t => peqb (ta t) p') E ++ filter (begun p) E).
Proof. apply part; gaps. Qed.
Lemma keep_gt : forall t, In t (filter keep E) -> lex_lt p' (tz t).
Proof. intros t I. apply filter_In in I as [_ K]. unfold keep in K. apply andb_true_iff in K as [_ K]. apply pltb_iff. exact K. Qed.
Lemma event_step : forall ty links St En cs cs', edesc E p' ty links St En -> Permutation St (filter (fun t => peqb (ta t) p') E) -> Permutation En (filter (fun t => peqb (tz t) p') E) ->
  inv p cs -> chain_event cs (mkSweepEvent p' ty links) = Ok cs' -> inv p' cs'.
Proof.
  intros ty links St En cs cs' De PS PE I Q.
  assert (TS : forall t, In t St -> In t E /\ ta t = p' /\ lex_lt p' (tz t)).
  { intros t J. apply (Permutation_in _ PS) in J. apply filter_In in J as [J K]. apply peqb_iff in K. pose proof (EL t J) as Z. rewrite K in Z. auto. }
  assert (TE : forall t, In t En -> In t E /\ tz t = p').
  { intros t J. apply (Permutation_in _ PE) in J. apply filter_In in J as [J K]. apply peqb_iff in K. auto. }
  set (K := filter keep E). pose proof keep_gt as KG. fold K in KG. set (X := map dir (filter (begun p) E)).
  assert (S0 : st (okB E p') (En ++ K) X cs).
  { apply (st_perm (okP p) _ (filter (live p) E) _ X X); auto; [rewrite live_old, PE; reflexivity|]. intros t Z. left. unfold okP in Z. lord. }
  assert (Fin : st (okP p') (St ++ K) (map dir St ++ X) cs' -> inv p' cs').
  { intros S1. unfold inv. revert S1. apply st_perm; auto; [rewrite live_new, PS; reflexivity|]. rewrite begun_new, map_app. unfold X. apply Permutation_app_tail. apply Permutation_map. exact PS. }
  assert (BP : forall t, okB E p' t -> okP p' t) by (intros t [Z|[Z _]]; unfold okP; [apply lex_lt_le; auto|rewrite Z; lord]).
  assert (LL : forall t, In t (St ++ K) -> lex_lt p' (tz t)) by (intros t J; apply in_app_or in J as [J|J]; auto; apply TS; auto).
  assert (LE : forall t, In t (En ++ K) -> lex_le p' (tz t)) by (intros t J; apply in_app_or in J as [J|J]; [destruct (TE t J) as [_ ->]; lord|apply lex_lt_le; auto]).
  unfold chain_event in Q. cbn [se_pt se_ty se_links] in Q. bnd Q. destruct x as [cs1 cur]. apply Fin.
  destruct De as [t1 t2 W1 W2|h t1 t2 W1 W2|h t1 t2 W1 W2 Oh|ms t1 t2 i Ms W|ms t1 t2 Ms W|ms t1 t2 a b Ms W].
  - destruct (TS t1) as (_ & A1 & _); [left; auto|]. destruct (TS t2) as (_ & A2 & _); [right; left; auto|]. cbn [fold_res] in E0. bnd E0. injection E0 as ->.
    destruct (start_step _ _ _ _ _ _ _ _ _ S0 A1 A2 W1 W2 E1) as (cs2 & Z & S2). injection Z as -> ->. apply (reduce_none p' _ _ cs2); auto. apply (st_perm _ _ _ _ _ _ _ (Permutation_refl _) (Permutation_refl _) BP S2).
  - destruct (TS t1) as (_ & A1 & _); [left; auto|]. destruct (TS t2) as (_ & A2 & _); [right; left; auto|]. cbn [fold_res] in E0. bnd E0. injection E0 as ->.
    destruct (split_step _ _ _ _ _ _ _ _ _ _ S0 A1 A2 W1 W2 E1) as (cs2 & Z & S2). injection Z as -> ->. apply (reduce_none p' _ _ cs2); auto. apply (st_perm _ _ _ _ _ _ _ (Permutation_refl _) (Permutation_refl _) BP S2).
  - destruct (TS t1) as (_ & A1 & _); [left; auto|]. destruct (TS t2) as (_ & A2 & _); [right; left; auto|]. cbn [fold_res] in E0. bnd E0. injection E0 as ->.
    destruct (split_merge_step _ _ _ _ _ _ _ _ _ _ S0 LE Oh A1 A2 W1 W2 E1) as (cs2 & Z & S2). injection Z as -> ->. apply (reduce_none p' _ _ cs2); auto. apply (st_perm _ _ _ _ _ _ _ (Permutation_refl _) (Permutation_refl _) BP S2).
  - destruct (TS t2) as (_ & A2 & L2); [left; auto|]. destruct (TE t1) as (I1 & Z1); [left; auto|].
    destruct (merges_fold E p' VContinue _ _ ms cs None _ _ ltac:(discriminate) LE Ms S0 E0) as (cs2 & S2 & F). cbn [fold_res] in F. bnd F. injection F as ->.
    destruct (cont_step E p' K X cs2 None t1 t2 i (cs1, cur) S2) as (cs3 & idx & c & l & Z & S3 & N3 & D3 & W3 & C3); auto. { intros t J Z. apply KG in J. rewrite Z in J. lord. }
    injection Z as -> ->. apply (reduce_some p' _ _ cs3 cs' idx c (tz t2) l); auto. apply (st_perm _ _ _ _ _ _ _ (Permutation_refl _) (Permutation_refl _) BP S3).
  - assert (TT : forall t, In t [t1; t2] -> tz t = p') by (intros t J; apply TE; exact J). rewrite <- (app_nil_r ms) in E0.
    destruct (merges_fold E p' VMerge _ _ ms cs None _ _ ltac:(discriminate) LE Ms S0 E0) as (cs2 & S2 & F). injection F as -> <-. apply (reduce_none p' _ _ cs1); auto. destruct S2 as (Pr & Lg & (B & PB & bB & oB) & Ee). split; auto. split; auto. split; auto.
    exists ([t1; t2] ++ B). split; [rewrite PB; cbn [app]; rewrite <- !Permutation_middle; reflexivity|]. split.
    + cbn [app]. apply bal_pair; auto. { rewrite (TT t1), (TT t2); cbn; auto. } destruct (tw t1), (tw t2); auto; congruence.
    + intros t J. apply in_app_or in J as [J|J]; auto. unfold okP. rewrite TT by auto. lord.
  - assert (TT : forall t, In t [t1; t2] -> tz t = p') by (intros t J; apply TE; exact J).
    destruct (merges_fold E p' VEnd _ _ ms cs None _ _ ltac:(discriminate) LE Ms S0 E0) as (cs2 & S2 & F). cbn [fold_res apply_link] in F. bnd F. chk E1. injection E1 as <-. injection F as -> <-. apply (reduce_none p' _ _ cs1); auto. destruct S2 as (Pr & Lg & (B & PB & bB & oB) & Ee). split; auto. split; auto. split; auto.
    exists ([t1; t2] ++ B). split; [rewrite PB; cbn [app]; rewrite <- !Permutation_middle; reflexivity|]. split.
    + cbn [app]. apply bal_pair; auto. { rewrite (TT t1), (TT t2); cbn; auto. } destruct (tw t1), (tw t2); auto; congruence.
    + intros t J. apply in_app_or in J as [J|J]; auto. unfold okP. rewrite TT by auto. lord.
Qed.
End Step.

Lemma loop_inv : forall n p s cs cs', jinv p s -> inv p cs -> chains_loop pick n s cs = Ok cs' ->
  paired (map sk cs') /\ eqv (edgs cs') (map dir E).
Proof.
  induction n as [|n IH]; intros p s cs cs' J I Q; [discriminate|]. cbn [chains_loop] in Q. bnd Q. destruct x as [s' o]. destruct (event_inv E EL EB pick p s s' o J E0) as [[Ev ->]|(p' & ty & links & St & En & Lt & Gap & -> & De & PS & PE & J')].
  - injection Q as <-. destruct I as (Pr & _ & _ & Ee). split; auto. assert (Z : filter (begun p) E = E); [|rewrite Z in Ee; exact Ee].
    apply P_ChainDesc.filter_all. intros t It. unfold begun. apply negb_true_iff, pltb_false. destruct (in_ends E 0 t It) as [_ (ev & Ie & Pe)]. pose proof (EL t It) as Lz.
    pose proof (j_perm _ _ _ J) as PJ. rewrite Ev in PJ. destruct (after p ev) eqn:Af.
    + exfalso. assert (Z : In ev (filter (after p) (all_from 0 E))) by (apply filter_In; auto). apply (Permutation_in _ (Permutation_sym PJ)) in Z. destruct Z.
    + unfold after in Af. apply pltb_false in Af. rewrite Pe in Af. lord.
  - bnd Q. apply (IH p' s' x cs'); auto. apply (event_step p p' Lt Gap ty links St En cs x); auto.
Qed.
Lemma inv_nil : forall p, (forall t, In t E -> lex_lt p (ta t)) -> inv p [].
Proof.
  intros p B. assert (Z : filter (begun p) E = [] /\ filter (live p) E = []).
  { clear EL EB. induction E as [|t l IH]; auto. destruct IH as [A1 A2]; [intros; apply B; right; auto|]. cbn [filter]. unfold live, begun in *. rewrite (proj2 (pltb_iff _ _) (B t (or_introl eq_refl))). cbn [negb andb]. auto. }
  destruct Z as [Z1 Z2]. unfold inv. rewrite Z1, Z2. split; [intros i w o d N; destruct i; discriminate|]. split; [intros c []|]. split; [exists []; split; [reflexivity|split; [intros r; reflexivity|intros t []]]|]. exists []. reflexivity.
Qed.
End Run.

(** * The pieces *)
Definition pids (L : list (nat * nat)) : list nat := flat_map (fun x => [fst x; snd x]) L.
Lemma in_pids : forall L i, In i (pids L) <-> exists a b, In (a, b) L /\ (i = a \/ i = b).
Proof.
  intros L i. unfold pids. rewrite in_flat_map. split.
  - intros ([a b] & I & [J|[J|[]]]); exists a, b; auto.
  - intros (a & b & I & J). exists (a, b). cbn. intuition.
Qed.
Lemma pids_nodup : forall L, NoDup L -> (forall a b b', In (a, b) L -> In (a, b') L -> b = b') -> (forall a a' b, In (a, b) L -> In (a', b) L -> a = a') -> (forall a b a' b', In (a, b) L -> In (a', b') L -> a <> b') -> NoDup (pids L).
Proof.
  induction L as [|[a b] L IH]; intros N H1 H2 H3; [constructor|]. inversion N as [|? ? N1 N2]; subst. cbn [pids flat_map fst snd app]. fold (pids L). constructor; [|constructor].
  - intros [J|J]; [exact (H3 a b a b (or_introl eq_refl) (or_introl eq_refl) (eq_sym J))|]. apply in_pids in J as (a' & b' & I & [<-|<-]).
    + apply N1. rewrite (H1 a b b' (or_introl eq_refl) (or_intror I)). exact I.
    + apply (H3 a b a' a (or_introl eq_refl) (or_intror I)). reflexivity.
  - intros J. apply in_pids in J as (a' & b' & I & [<-|<-]).
    + apply (H3 b b' a b (or_intror I) (or_introl eq_refl)). reflexivity.
    + apply N1. rewrite (H2 a a' b (or_introl eq_refl) (or_intror I)). exact I.
  - apply IH; auto; intros; [eapply H1|eapply H2|eapply H3]; right; eauto.
Qed.
Lemma take_inv : forall L lines ms, NoDup (pids L) -> take_pairs L lines = Ok ms ->
  flat_map piece_edges ms = flat_map (fun x => edges (nth (fst x) lines []) ++ map reversed (edges (nth (snd x) lines []))) L.
Proof.
  induction L as [|[a b] L IH]; intros lines ms N Q; [injection Q as <-; reflexivity|]. cbn [take_pairs] in Q. unfold take_line in Q. bnd Q. bnd E. apply expect_inv in E0. injection E as <-. cbn [bind] in Q. bnd Q. bnd E. apply expect_inv in E1. injection E as <-. bnd Q. bnd Q. injection Q as <-.
  destruct (of_new _ _ _ E) as (M1 & M2 & _). cbn [pids flat_map fst snd app] in N. fold (pids L) in N. inversion N as [|? ? N1 N2]; subst. inversion N2 as [|? ? N3 N4]; subst.
  assert (Ab : a <> b) by (intros ->; apply N1; left; auto). rewrite list_set_other in E1 by auto. cbn [flat_map fst snd]. unfold piece_edges at 1. rewrite (nth_error_nth _ _ _ E0), (nth_error_nth _ _ _ E1). f_equal. rewrite (IH _ _ N4 E2).
  clear - N1 N3. assert (G : forall i, i <> a -> i <> b -> nth i (list_set b [] (list_set a [] lines)) (@nil pt) = nth i lines []).
  { intros i Ha Hb. 
    assert (Z : nth_error (list_set b [] (list_set a [] lines)) i = nth_error lines i) by (rewrite !list_set_other by auto; reflexivity).
    destruct (nth_error lines i) as [x|] eqn:Q; [rewrite (nth_error_nth _ _ _ Z), (nth_error_nth _ _ _ Q); reflexivity|]. rewrite !nth_overflow; auto; apply nth_error_None; auto. }
  assert (Ia : ~ In a (pids L)) by (intros J; apply N1; right; auto). induction L as [|[c d] L IH]; auto. cbn [pids flat_map fst snd app] in *. fold (pids L) in *. rewrite IH; [|intros J; apply N1; destruct J as [->|J]; [left|right; right; right]; auto|intros J; apply N3; right; right; auto|intros J; apply Ia; right; right; auto].
  rewrite !G; auto; intros ->; intuition.
Qed.
Lemma flat_nth : forall {X Y} (f : X -> list Y) l, flat_map (fun i => match nth_error l i with Some c => f c | None => [] end) (seq 0 (length l)) = flat_map f l.
Proof.
  intros X Y f l. induction l as [|c l IH] using rev_ind; [reflexivity|]. rewrite app_length. change (length [c]) with 1. rewrite Nat.add_1_r, seq_S, !flat_map_app, <- IH. f_equal.
  - rewrite !flat_map_concat_map. f_equal. apply map_ext_in. intros i J. apply in_seq in J. rewrite nth_error_app1 by lia. reflexivity.
  - cbn [flat_map Nat.add]. rewrite nth_error_app2, Nat.sub_diag by lia. reflexivity.
Qed.
Lemma out_edges : forall cs ms, paired (map sk cs) -> chains_out cs = Ok ms -> Permutation (flat_map piece_edges ms) (edgs cs).
Proof.
  intros cs ms Pr Q. unfold chains_out in Q. bnd Q. chk Q. rename x into L0.
  assert (Dn : forall c, In c cs -> c_done c = true).
  { clear - E. revert L0 E. generalize 0. induction cs as [|c cs IH]; intros k L0 E c' J; [destruct J|]. cbn [chain_pairs] in E. chk E. bnd E. destruct J as [->|J]; [auto|]. apply (IH (S k) x); auto. }
  destruct (chain_pairs_ok cs 0 Dn) as (L & E' & N & I). rewrite E in E'. injection E' as <-. clear E0 E.
  assert (I' : forall a b, In (a, b) L0 <-> exists c, nth_error cs a = Some c /\ c_int c = Cw /\ b = c_other c).
  { intros a b. rewrite I, Nat.sub_0_r. split; [intros [_ Z]; exact Z|intros Z; split; [lia|exact Z]]. }
  assert (Mate : forall a b, In (a, b) L0 -> exists c c', nth_error cs a = Some c /\ c_int c = Cw /\ nth_error cs b = Some c' /\ c_int c' = Ccw /\ c_other c' = a).
  { intros a b J. apply I' in J as (c & Nc & Wc & ->). destruct (paired_at cs a c Pr Nc) as (c' & N' & W' & O' & _). rewrite Wc in W'. exists c, c'. auto. }
  assert (Nd : NoDup (pids L0)).
  { apply pids_nodup; auto.
    - intros a b b' J J'. apply I' in J as (c & Z1 & _ & ->). apply I' in J' as (c' & Z2 & _ & ->). rewrite Z1 in Z2. injection Z2 as <-. reflexivity.
    - intros a a' b J J'. apply Mate in J as (_ & c & _ & _ & Z1 & _ & Z2). apply Mate in J' as (_ & c' & _ & _ & Z1' & _ & Z2'). rewrite Z1 in Z1'. injection Z1' as <-. congruence.
    - intros a b a' b' J J' ->. apply Mate in J as (c & _ & Z1 & Z2 & _). apply Mate in J' as (_ & c' & _ & _ & Z3 & Z4 & _). rewrite Z1 in Z3. injection Z3 as <-. congruence. }
  rewrite (take_inv _ _ _ Nd Q).
  assert (Ps : Permutation (pids L0) (seq 0 (length cs))).
  { apply NoDup_Permutation; auto using seq_NoDup. intros i. rewrite in_pids, in_seq. split.
    - intros (a & b & J & [-> | ->]); apply Mate in J as (c & c' & Z1 & _ & Z2 & _); split; try lia; apply nth_error_Some; congruence.
    - intros [_ Li]. cbn [Nat.add] in Li. destruct (nth_error cs i) as [c|] eqn:Nc; [|apply nth_error_None in Nc; lia]. destruct (c_int c) eqn:Wc.
      + exists i, (c_other c). split; auto. apply I'. exists c. auto.
      + destruct (paired_at cs i c Pr Nc) as (c' & N' & W' & O' & _). rewrite Wc in W'. exists (c_other c), i. split; auto. apply I'. exists c'. auto. }
  set (g := fun i => match nth_error cs i with Some c => cedges c | None => [] end).
  transitivity (flat_map g (pids L0)).
  - assert (Le : forall c, nth_error (map c_line_string cs) c = option_map c_line_string (nth_error cs c)) by (intros; apply nth_error_map).
    clear Ps Nd Q N I I'. induction L0 as [|[a b] L0 IH]; [reflexivity|]. cbn [flat_map pids fst snd app]. fold (pids L0). rewrite IH by (intros; apply Mate; right; auto). destruct (Mate a b (or_introl eq_refl)) as (c & c' & Z1 & Z2 & Z3 & Z4 & _).
    rewrite <- !app_assoc. pose proof (Le a) as La. pose proof (Le b) as Lb. rewrite Z1 in La. rewrite Z3 in Lb. rewrite (nth_error_nth _ _ _ La), (nth_error_nth _ _ _ Lb). unfold g. rewrite Z1, Z3. fold g. unfold c_line_string. rewrite !edges_rev.
    apply Permutation_app.
    + unfold cedges. rewrite Z2. rewrite <- Permutation_rev. cbn [ori]. rewrite map_id. reflexivity.
    + apply Permutation_app_tail. unfold cedges. rewrite Z4. apply Permutation_map. symmetry. apply Permutation_rev.
  - rewrite (flat_perm g _ _ Ps). unfold g. rewrite flat_nth. reflexivity.
Qed.
