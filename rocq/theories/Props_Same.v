(** The monotone decomposition uses nothing of the coordinates but their order and
    the orientation of triples. *)
Require Import List Bool Arith String QArith Permutation.
From Verif Require Import Base Scalar M_Events M_Geo M_MonoPoly M_MonoSweep M_Chains S_Geo S_Move P_Geo P_LineInt P_Related P_MoveGeo Props_Chains.
Import ListNotations.
Local Open Scope list_scope.
Local Open Scope Qc_scope.

Section On.
Variables (V : pt -> Prop) (f : pt -> pt).
Hypotheses (Ho : keeps_order_on V f) (Ht : keeps_turns_on V f).
Definition to_f (u u' : pt) : Prop := V u /\ u' = f u.
Lemma on_cmp : forall a a' b b', to_f a a' -> to_f b b' -> pcmp a b = pcmp a' b'.
Proof.
  intros a a' b b' [A ->] [B ->]. destruct (pcmp_spec a b) as [E|L|L].
  - subst b. destruct (pcmp_spec (f a) (f a)) as [_|L|L]; auto; destruct (lex_irrefl _ L).
  - pose proof (Ho _ _ A B L) as L'. destruct (pcmp_spec (f a) (f b)) as [E|_|M]; auto; exfalso; [rewrite E in L'; eapply lex_irrefl; eauto|eapply lex_asym; eauto].
  - pose proof (Ho _ _ B A L) as L'. destruct (pcmp_spec (f a) (f b)) as [E|M|_]; auto; exfalso; [rewrite E in L'; eapply lex_irrefl; eauto|eapply lex_asym; eauto].
Qed.
Lemma on_turn : forall a a' b b' c c', to_f a a' -> to_f b b' -> to_f c c' -> orient2d a b c = orient2d a' b' c'.
Proof.
  intros a a' b b' c c' [A ->] [B ->] [C ->]. destruct (Ht a b c A B C) as [P Z], (Ht b a c B A C) as [N _]. rewrite (cross_swap a b c), (cross_swap (f a) (f b) (f c)) in N.
  destruct (orient2d_spec a b c) as [L|L|L], (orient2d_spec (f a) (f b) (f c)) as [M|M|M]; auto; exfalso.
  - apply P in L. qcl.
  - apply P in L. qcl.
  - assert (K : 0 < - cross a b c) by qcl. apply N in K. qcl.
  - assert (K : 0 < - cross a b c) by qcl. apply N in K. qcl.
  - apply Z in L. qcl.
  - apply Z in L. qcl.
Qed.
Lemma map_rel : forall l, (forall v, In v l -> V v) -> Forall2 to_f l (map f l).
Proof. induction l as [|v l IH]; intros H; cbn [map]; constructor; [split; auto; apply H; left; auto|apply IH; intros; apply H; right; auto]. Qed.
Lemma rel_map : forall l l', Forall2 to_f l l' -> l' = map f l.
Proof. induction 1 as [|a b l l' [_ ->] F IH]; cbn; congruence. Qed.
Lemma ev_rel : forall l l', Forall2 (evrel to_f) l l' <-> (forall e, In e l -> V (ev_point e)) /\ l' = map (moved_event f) l.
Proof.
  split.
  - induction 1 as [|[p t k] [p' t' k'] l l' ([A B] & C & D) F [I J]]; [split; [intros e []|reflexivity]|]. cbn in *. subst. split; [intros e [<-|E]; auto|reflexivity].
  - intros [I ->]. induction l as [|e l IH]; cbn [map]; constructor; [split; [split; auto; apply I; left; auto|split; reflexivity]|apply IH; intros; apply I; right; auto].
Qed.
End On.

(** The decomposition of the moved polygon is the moved decomposition: the same
    pieces, in the same order, with the same vertices, or the same panic.  [f] is
    any map of the vertices that keeps their order and the orientation of the
    triples; it need not be affine and may be rounding.  The sort of the second run
    leaves equal events in the same order as that of the first. *)
Theorem C74_order_type : forall presort presort' pick P f,
  (forall l, Permutation (presort l) l) -> (forall l, presort' (map (moved_event f) l) = map (moved_event f) (presort l)) ->
  keeps_order_on (vertex_of P) f -> keeps_turns_on (vertex_of P) f ->
  monotone_chains presort' pick (moved_polygon f P) = moved_result (map (moved_piece f)) (monotone_chains presort pick P).
Proof.
  intros presort presort' pick P f Ps Pf Ho Ht. pose proof (monotone_chains_rel (to_f (vertex_of P) f) (on_cmp _ f Ho) (on_turn _ f Ht) presort presort') as M.
  assert (C : forall l l', Forall2 (evrel (to_f (vertex_of P) f)) l l' -> Forall2 (evrel (to_f (vertex_of P) f)) (presort l) (presort' l')).
  { intros l l'. rewrite !ev_rel. intros [I ->]. split; [intros e E; apply I; eapply Permutation_in; eauto|auto]. }
  specialize (M C pick P (moved_polygon f P)).
  assert (Pg : pgrel (to_f (vertex_of P) f) P (moved_polygon f P)).
  { split; cbn [moved_polygon pg_exterior pg_interiors].
    - apply map_rel. intros v I. exists (pg_exterior P). split; auto. left; auto.
    - assert (G : forall rs, (forall r, In r rs -> In r (pg_interiors P)) -> Forall2 (Forall2 (to_f (vertex_of P) f)) rs (map (map f) rs)); [|apply G; auto].
      induction rs as [|r rs IH]; intros I; cbn [map]; constructor; [|apply IH; intros; apply I; right; auto]. apply map_rel. intros v J. exists r. split; auto. right. apply I. left; auto. }
  specialize (M Pg). destruct (monotone_chains presort pick P) as [ms|s|], (monotone_chains presort' pick (moved_polygon f P)) as [ms'|s'|]; cbn in M |- *; try contradiction; try congruence.
  f_equal. clear - M. induction M as [|[t b] [t' b'] ms ms' [A B] F IH]; cbn [map]; [reflexivity|]. rewrite IH. unfold moved_piece. cbn in *. rewrite (rel_map _ _ _ _ A), (rel_map _ _ _ _ B). reflexivity.
Qed.
(** In particular for every affine map that keeps the order of the sweep. *)
Theorem C74_affine : forall presort presort' pick P f,
  (forall l, Permutation (presort l) l) -> (forall l, presort' (map (moved_event f) l) = map (moved_event f) (presort l)) ->
  affine f -> keeps_order f ->
  monotone_chains presort' pick (moved_polygon f P) = moved_result (map (moved_piece f)) (monotone_chains presort pick P).
Proof.
  intros presort presort' pick P f Ps Pf A K. apply C74_order_type; auto; [intros u v _ _; apply K|].
  destruct (affine_form f A K) as (a & c & d & e & h & Ha & He & F). intros u v w _ _ _. rewrite !F.
  change (mkC (a * cx u + c) (d * cx u + e * cy u + h)) with (sh a c d e h u). change (mkC (a * cx v + c) (d * cx v + e * cy v + h)) with (sh a c d e h v). change (mkC (a * cx w + c) (d * cx w + e * cy w + h)) with (sh a c d e h w).
  split; [apply sh_cross_lt; auto|apply sh_cross_eq; auto].
Qed.

(** ** An example: a perspective view *)
Definition view (p : pt) : pt := mkC (cx p / (Q2Qc (100#1) + cx p)) (cy p / (Q2Qc (100#1) + cx p)).
Definition in_view (p : pt) : Prop := 0 < Q2Qc (100#1) + cx p.
Lemma div_lt : forall a b s t : Qc, 0 < s -> 0 < t -> a * t < b * s -> a / s < b / t.
Proof.
  intros a b s t S T L. assert (S0 : s <> 0) by (intros ->; exact (Qclt_not_eq _ _ S eq_refl)). assert (T0 : t <> 0) by (intros ->; exact (Qclt_not_eq _ _ T eq_refl)).
  assert (A : (a / s) * s = a) by (field; auto). assert (B : (b / t) * t = b) by (field; auto). set (u := a / s) in *. set (v := b / t) in *. clearbody u v. subst a b.
  apply (lt_mul (s * t) u v ltac:(clear L; qc)). replace (s * t * u) with (u * s * t) by ring. replace (s * t * v) with (v * t * s) by ring. exact L.
Qed.
Lemma view_order : keeps_order_on in_view view.
Proof.
  intros u v U W L. unfold lex_lt, view, in_view in *. cbn [cx cy]. destruct L as [L|[E L]].
  - left. apply div_lt; auto. clear U W. set (k := Q2Qc (100#1)). assert (K : 0 < k) by reflexivity. clearbody k. replace (cx u * (k + cx v)) with (k * cx u + cx u * cx v) by ring. replace (cx v * (k + cx u)) with (k * cx v + cx u * cx v) by ring. apply (lt_mul k _ _ K) in L. set (m := cx u * cx v). set (a := k * cx u) in *. set (b := k * cx v) in *. clearbody m a b. qcl.
  - right. rewrite E. split; auto. apply div_lt; auto. rewrite !(Qcmult_comm _ (Q2Qc (100#1) + cx v)). apply lt_mul; auto.
Qed.
Lemma view_cross : forall u v w, in_view u -> in_view v -> in_view w ->
  (Q2Qc (100#1) + cx u) * (Q2Qc (100#1) + cx v) * (Q2Qc (100#1) + cx w) * cross (view u) (view v) (view w) = Q2Qc (100#1) * cross u v w.
Proof.
  intros u v w U V W. unfold in_view, view, cross in *. cbn [cx cy]. set (k := Q2Qc (100#1)) in *. clearbody k. field. repeat split; intros Z; rewrite Z in *; match goal with H : 0 < 0 |- _ => exact (Qclt_not_eq _ _ H eq_refl) end.
Qed.
Lemma view_turns : keeps_turns_on in_view view.
Proof.
  intros u v w U V W. pose proof (view_cross u v w U V W) as E. unfold in_view in *. set (k := Q2Qc (100#1)) in *. assert (K : 0 < k) by reflexivity. clearbody k.
  set (s := k + cx u) in *. set (t := k + cx v) in *. set (r := k + cx w) in *. set (c := cross u v w) in *. set (c' := cross (view u) (view v) (view w)) in *. clearbody s t r c c'.
  assert (S : 0 < s * t * r) by (assert (0 < s * t) by (clear E; qc); set (st := s * t) in *; clearbody st; clear E; qc). set (q := s * t * r) in *. clearbody q. clear U V W s t r.
  split; intros C; [|rewrite C in E]; [apply (lt_mul q 0 c' S); rewrite E, Qcmult_0_r; clear E; qc|apply (eq_mul q c' 0 S); rewrite E; ring].
Qed.
Lemma vertices_in_view : forall v, vertex_of simple_merge v -> in_view v.
Proof.
  assert (B : forallb (forallb (fun v => qltb 0 (Q2Qc (100#1) + cx v))) (pg_exterior simple_merge :: pg_interiors simple_merge) = true) by (vm_compute; reflexivity).
  intros v (r & I & J). rewrite forallb_forall in B. specialize (B r I). rewrite forallb_forall in B. apply qltb_iff. auto.
Qed.
(** Three pieces (see [C41_example]), seen in perspective. *)
Example C74_example : exists ms, List.length ms = 3%nat /\
  monotone_chains (fun l => l) (fun _ _ _ => 0%nat) simple_merge = Ok ms /\
  monotone_chains (fun l => l) (fun _ _ _ => 0%nat) (moved_polygon view simple_merge) = Ok (map (moved_piece view) ms).
Proof.
  pose proof C41_example as E. destruct (monotone_chains (fun l => l) (fun _ _ _ => 0%nat) simple_merge) as [ms| |] eqn:M; try discriminate E. exists ms.
  split; [apply (f_equal (@List.length _)) in E; rewrite map_length in E; exact E|]. split; auto.
  rewrite (C74_order_type (fun l => l) (fun l => l)), M; auto; intros u v; intros; [apply view_order|apply view_turns]; auto using vertices_in_view.
Qed.

Print Assumptions C74_order_type.
Print Assumptions C74_affine.
