(** A collection of polygons is known from the edges of its rings, if no two rings
    touch: the rings, which of them are holes, and which polygons the holes are in. *)
Require Import List Bool Arith Lia Permutation.
From Verif Require Import Base Scalar M_Events M_Geo M_LineOrPoint M_Rings M_MonoPoly M_Op.
From Verif Require P_RingWalk P_Rings Props_Op3 P_OpPoly.
From Verif Require Import S_Geo P_Geo S_Mono P_Mono S_Rings S_Op S_Laminar S_Chains P_LamGeo P_LamSpec S_Written P_Cycles.
Import Datatypes.
Import ListNotations.
Local Open Scope list_scope.
Local Open Scope nat_scope.

(** ** Rings written differently: parity and winding order *)
Lemma ring_in_same : forall r r' q, same_ring r r' -> ring_in r q = ring_in r' q.
Proof.
  intros r r' q S. unfold ring_in. destruct (same_edges _ _ S) as [P|P].
  - apply Props_Op3.odd_perm, Permutation_map, P.
  - rewrite (Props_Op3.odd_perm _ _ (Permutation_map (ray_crosses q) P)), map_map. f_equal. apply map_ext. intros [a b]. apply P_OpPoly.ray_sym.
Qed.
Lemma next_unique : forall l a b b', proper_ring l -> In (a, b) (edges l) -> In (a, b') (edges l) -> b = b'.
Proof.
  intros l a b b' P I J. destruct (turn_to l a b P I) as (s & m & D & E). assert (S : same_ring l s) by (exists s; auto). pose proof (proper_same _ _ P S) as Ps.
  assert (J' : In (a, b') (edges s)) by (destruct D as [->|D]; auto; apply (Permutation_in _ (restarted_edges _ _ D)); auto). subst s.
  destruct (parts _ _ _ Ps) as (N & Na & _). rewrite edges_cons in J'. destruct J' as [Q|J']; [injection Q; auto|]. exfalso.
  apply edges_in in J' as (x & y & Q). destruct x as [|z x]; [cbn in Q; injection Q as Q _; apply Na; left; auto|]. cbn in Q. injection Q as Q1 Q. subst z.
  assert (Ia : In a m). { destruct (exists_last (l := b' :: y)) as (y1 & w & Z); [discriminate|]. replace (x ++ a :: b' :: y) with ((x ++ a :: y1) ++ [w]) in Q by (rewrite <- app_assoc; cbn; rewrite <- Z; reflexivity). apply app_inj_tail in Q as [-> _]. apply in_or_app. right; left; auto. }
  apply Na. right; auto.
Qed.
Lemma prev_unique : forall l a a' b, proper_ring l -> In (a, b) (edges l) -> In (a', b) (edges l) -> a = a'.
Proof.
  intros l a a' b P I J. assert (S : same_ring l (rev l)) by (exists l; auto). pose proof (proper_same _ _ P S) as Pr.
  assert (K : forall x, In (x, b) (edges l) -> In (b, x) (edges (rev l))) by (intros x X; rewrite edges_rev, <- in_rev; apply in_map_iff; exists (x, b); auto).
  apply (next_unique (rev l) b a a' Pr); auto.
Qed.
Lemma orient_swap : forall a b c, orient2d c b a = match orient2d a b c with CounterClockwise => Clockwise | Clockwise => CounterClockwise | Collinear => Collinear end.
Proof.
  intros a b c. assert (E : (cross c b a = - cross a b c)%Qc) by (unfold cross; ring).
  destruct (orient2d_spec a b c) as [L|L|L], (orient2d_spec c b a) as [M|M|M]; auto; exfalso; rewrite E in M; qcl.
Qed.
Lemma winding_same : forall l l', proper_ring l -> proper_ring l' -> (forall e, In e (edges l) -> In e (edges l')) -> (forall v, In v l <-> In v l') -> ls_winding_order l = ls_winding_order l'.
Proof.
  intros l l' P P' H V. destruct (winding_least l P) as (a & u & b & I1 & I2 & F & ->). destruct (winding_least l' P') as (a' & u' & b' & I1' & I2' & F' & ->).
  assert (Q : u = u').
  { apply lex_le_antisym; [apply F, V|apply F', V]; [apply edges_in in I2' as (x & y & ->)|apply edges_in in I2 as (x & y & ->)]; apply in_or_app; right; left; auto. }
  subst u'. rewrite (prev_unique l' a a' u P'), (next_unique l' u b b' P'); auto.
Qed.
Lemma winding_reversed : forall l l', proper_ring l -> proper_ring l' -> (forall e, In e (edges l) -> In (reversed e) (edges l')) -> (forall v, In v l <-> In v l') ->
  ls_winding_order l' = match ls_winding_order l with Some Cw => Some Ccw | Some Ccw => Some Cw | None => None end.
Proof.
  intros l l' P P' H V. destruct (winding_least l P) as (a & u & b & I1 & I2 & F & ->). destruct (winding_least l' P') as (a' & u' & b' & I1' & I2' & F' & ->).
  assert (Q : u = u').
  { apply lex_le_antisym; [apply F, V|apply F', V]; [apply edges_in in I2' as (x & y & ->)|apply edges_in in I2 as (x & y & ->)]; apply in_or_app; right; left; auto. }
  subst u'. apply H in I1. apply H in I2. unfold reversed in I1, I2. cbn [fst snd] in I1, I2. rewrite (prev_unique l' a' b u P'), (next_unique l' u b' a P'); auto. rewrite (orient_swap a u b). destruct (orient2d a u b); reflexivity.
Qed.
(** A ring as an exterior and as a hole: the region is on different sides. *)
Lemma two_roles : forall r r' h, proper_ring r -> same_ring r r' -> ls_winding_order r <> None ->
  exists e, In e (region_left (mkRing r h)) /\ In (reversed e) (region_left (mkRing r' (negb h))).
Proof.
  intros r r' h P S W. pose proof (proper_same _ _ P S) as P'. pose proof (same_mem _ _ S) as V.
  assert (exists e, In e (edges r)) as ([a b] & I). { destruct P as (p & [|b l] & -> & _ & L); [cbn in L; lia|]. exists (p, b). left; auto. }
  destruct (same_edges _ _ S) as [Q|Q].
  - assert (I' : In (a, b) (edges r')) by (apply (Permutation_in _ Q); auto). rewrite (winding_same r r') in W by (auto; intros e E; apply (Permutation_in _ Q); auto).
    assert (Wq : ls_winding_order r = ls_winding_order r') by (apply winding_same; auto; intros e E; apply (Permutation_in _ Q); auto).
    unfold region_left. cbn [r_coords r_hole]. rewrite Wq. destruct (ls_winding_order r') as [[]|]; [| |congruence]; destruct h; cbn [negb];
      first [exists (a, b); split; [exact I|apply in_map; exact I'] | exists (b, a); split; [apply in_map_iff; exists (a, b); split; [reflexivity|exact I]|exact I']].
  - assert (Q' : forall e, In e (edges r) -> In (reversed e) (edges r')).
    { intros e E. apply (Permutation_in _ Q) in E. apply in_map_iff in E as ([x y] & <- & E). exact E. }
    pose proof (winding_reversed r r' P P' Q' V) as Wq. pose proof (Q' _ I) as I'. unfold reversed in I'. cbn [fst snd] in I'.
    unfold region_left. cbn [r_coords r_hole]. rewrite Wq. destruct (ls_winding_order r) as [[]|]; [| |congruence]; destruct h; cbn [negb];
      first [exists (a, b); split; [exact I|exact I'] | exists (b, a); split; [apply in_map_iff; exists (a, b); split; [reflexivity|exact I]|apply in_map_iff; exists (b, a); split; [reflexivity|exact I']]].
Qed.

(** ** Lists of rings without common vertices *)
Lemma fop_impl : forall {X} (R R' : X -> X -> Prop) l, (forall x y, In x l -> In y l -> R x y -> R' x y) -> ForallOrdPairs R l -> ForallOrdPairs R' l.
Proof.
  intros X R R' l H F. induction F as [|x l F1 F2 IH]; constructor.
  - rewrite Forall_forall in *. intros y I. apply H; [left|right|]; auto.
  - apply IH. intros a b A B. apply H; right; auto.
Qed.
Lemma fop_app : forall {X} (R : X -> X -> Prop) l l', ForallOrdPairs R (l ++ l') -> ForallOrdPairs R l /\ ForallOrdPairs R l' /\ forall x y, In x l -> In y l' -> R x y.
Proof.
  intros X R l l'. induction l as [|x l IH]; intros F; [split; [constructor|]; split; auto; intros x y []|]. cbn in F. inversion F as [|? ? F1 F2]; subst. destruct (IH F2) as (A & B & C). rewrite Forall_forall in F1.
  split; [constructor; auto; apply Forall_forall; intros y I; apply F1, in_or_app; auto|]. split; auto. intros a b [<-|I] J; auto. apply F1, in_or_app; auto.
Qed.
Definition rings_of_polygon (p : polygon) : list (list pt) := pg_exterior p :: pg_interiors p.
Lemma in_rings : forall mp r, In r (rings_in mp) <-> exists p, In p mp /\ In r (rings_of_polygon p).
Proof. intros mp r. unfold rings_in. rewrite in_flat_map. reflexivity. Qed.
Lemma one_polygon : forall mp p p' r r' v, ForallOrdPairs apart (rings_in mp) -> In p mp -> In p' mp -> In r (rings_of_polygon p) -> In r' (rings_of_polygon p') -> In v r -> In v r' -> p = p'.
Proof.
  intros mp p p' r r' v. induction mp as [|q mp IH]; intros F I I' J J' V V'; [destruct I|].
  change (rings_in (q :: mp)) with (rings_of_polygon q ++ rings_in mp) in F. destruct (fop_app _ _ _ F) as (F1 & F2 & F3).
  destruct I as [<-|I], I' as [<-|I']; auto; exfalso.
  - apply (F3 r r' J) with v; auto. apply in_rings; eauto.
  - apply (F3 r' r J') with v; auto. apply in_rings; eauto.
Qed.
Lemma one_in : forall (l : list (list pt)) r r' v, ForallOrdPairs apart l -> In r l -> In r' l -> In v r -> In v r' -> r = r'.
Proof. intros l r r' v F I I' V V'. destruct (ForallOrdPairs_In F _ _ I I') as [Q|[Q|Q]]; auto; destruct (Q v); auto. Qed.

(** ** What the polygons of a result are like *)
Record laid_out (out : list (lop * winding)) (mp : list polygon) : Prop := {
  lo_proper : forall r, In r (rings_in mp) -> proper_ring r /\ ls_winding_order r <> None;
  lo_apart : ForallOrdPairs apart (rings_in mp);
  lo_cover : forall g, In g (map fst out) <-> exists e, In e (all_edges mp) /\ und e = g;
  lo_ext : forall p e, In p mp -> In e (region_left (mkRing (pg_exterior p) false)) -> In e (map directed out);
  lo_int : forall p h e, In p mp -> In h (pg_interiors p) -> In e (region_left (mkRing h true)) -> In e (map directed out);
  lo_hole : forall p h v, In p mp -> In h (pg_interiors p) -> In v h -> ring_in (pg_exterior p) v = true /\
    forall p', In p' mp -> ring_in (pg_exterior p') v = true -> p' = p \/ forall w, In w (pg_exterior p) -> ring_in (pg_exterior p') w = true;
  lo_anti : forall p p' v v', In p mp -> In p' mp -> p <> p' -> In v (pg_exterior p) -> In v' (pg_exterior p') ->
    ring_in (pg_exterior p') v = true -> ring_in (pg_exterior p) v' = true -> False
}.
(** Of two rings at most one is inside the other, and what is around the exterior of a
    hole is around the hole. *)
Definition not_mutual (mp : list polygon) : Prop := forall r s v w, In r (rings_in mp) -> In s (rings_in mp) -> r <> s -> In v r -> In w s ->
  ring_in s v = true -> ring_in r w = true -> False.
Definition nested (mp : list polygon) : Prop := forall p h s v, In p mp -> In h (pg_interiors p) -> In s (rings_in mp) -> s <> h -> In v h ->
  (forall w, In w (pg_exterior p) -> ring_in s w = true) -> ring_in s v = true.
Lemma laid_perm : forall out out' mp, Permutation out out' -> laid_out out mp -> laid_out out' mp.
Proof.
  intros out out' mp P [A B C D E F G]. constructor; auto.
  - intros g. rewrite <- C. split; apply Permutation_in, Permutation_map; [symmetry|]; auto.
  - intros p e I J. apply (Permutation_in _ (Permutation_map directed P)). eauto.
  - intros p h e I J K. apply (Permutation_in _ (Permutation_map directed P)). eauto.
Qed.

Section Two.
Variables (out : list (lop * winding)) (mp mp' : list polygon).
Hypothesis Lines : forall g w, In (g, w) out -> exists x y, g = Line x y /\ lex_lt x y.
Hypothesis Once : NoDup (map fst out).
Hypothesis Simple : forall p, List.length (turns p out) <= 2.
Hypothesis La : laid_out out mp.
Hypothesis La' : laid_out out mp'.

Lemma directed_one_way : forall e, In e (map directed out) -> In (reversed e) (map directed out) -> False.
Proof.
  intros e I J. apply in_map_iff in I as ([g w] & Q & I). apply in_map_iff in J as ([g' w'] & Q' & J). destruct (Lines _ _ I) as (x & y & -> & L). destruct (Lines _ _ J) as (x' & y' & -> & L').
  assert (Z : Line x y = Line x' y').
  { unfold directed, reversed in *. cbn [fst snd lop_first lop_second] in *. destruct w, w'; rewrite <- Q in Q'; cbn [fst snd] in Q'; injection Q' as -> ->; auto; exfalso; exact (lex_asym _ _ L L'). }
  assert (W : (Line x y, w) = (Line x' y', w')).
  { rewrite <- Z in *. clear - Once I J. induction out as [|[g u] l IH]; [destruct I|]. cbn in Once. apply NoDup_cons_iff in Once as [N1 N2].
    destruct I as [I|I], J as [J|J]; [congruence| | |auto]; exfalso; apply N1; [injection I as -> ->|injection J as -> ->]; apply in_map_iff; [exists (Line x y, w')|exists (Line x y, w)]; auto. }
  injection W as <- <- <-. rewrite Q in Q'. destruct e as [a b]. unfold reversed in Q'. cbn [fst snd] in Q'. injection Q' as Q1 _. unfold directed in Q. cbn [fst snd lop_first lop_second] in Q. assert (Zq : x = y) by (destruct w; injection Q as Z1 Z2; congruence). rewrite Zq in L. exact (lex_irrefl _ L).
Qed.

(** The graph of the edges. *)
Definition Nb (v a : pt) : Prop := v <> a /\ In (und (v, a)) (map fst out).
Lemma Nb_sym : forall a b, Nb a b -> Nb b a.
Proof. intros a b [N I]. split; auto. change (b, a) with (reversed (a, b)). rewrite und_rev. auto. Qed.
Lemma und_eq : forall a b c d, a <> b -> und (a, b) = und (c, d) -> (c, d) = (a, b) \/ (c, d) = (b, a).
Proof.
  intros a b c d N E. destruct (und_line a b N) as (x & y & U & L & D). destruct (lex_total c d) as [[M|M]|M].
  - rewrite (proj1 (und_lt c d M)), U in E. injection E as -> ->. destruct D as [D|D]; injection D as -> ->; auto.
  - subst d. rewrite U in E. unfold und, lop_of_line in E. cbn [fst snd l_start l_end] in E. rewrite pcmp_refl in E. discriminate.
  - rewrite (proj2 (und_lt d c M)), U in E. injection E as -> ->. destruct D as [D|D]; injection D as -> ->; auto.
Qed.
Lemma Nb_two : forall v a b c, Nb v a -> Nb v b -> Nb v c -> a = b \/ b = c \/ a = c.
Proof.
  intros v a b c [Na Ia] [Nb_ Ib] [Nc Ic]. destruct (pt_dec a b) as [E|N1]; auto. destruct (pt_dec b c) as [E|N2]; auto. destruct (pt_dec a c) as [E|N3]; auto. exfalso.
  set (at_v := fun e : lop * winding => if pt_dec (lop_first (fst e)) v then true else if pt_dec (lop_second (fst e)) v then true else false).
  assert (T : forall l, List.length (filter at_v l) <= List.length (turns v l)).
  { induction l as [|[g w] l IH]; [cbn; lia|]. cbn [filter]. unfold turns. cbn [flat_map]. fold (turns v l). rewrite app_length.
    pose proof P_Rings.pt_eqb_iff as Pe.
    destruct (at_v (g, w)) eqn:E; cbn [List.length]; [|lia].
    assert (K : 1 <= List.length ((if pt_eqb (fst (directed (g, w))) v then [true] else []) ++ (if pt_eqb (snd (directed (g, w))) v then [false] else []))).
    { rewrite app_length. unfold at_v in E. cbn [fst] in E. destruct (pt_dec (lop_first g) v) as [Q|Q].
      - destruct w; unfold directed; cbn [fst snd]; rewrite (proj2 (Pe _ _) Q); cbn; lia.
      - destruct (pt_dec (lop_second g) v) as [Q2|Q2]; [|discriminate]. destruct w; unfold directed; cbn [fst snd]; rewrite (proj2 (Pe (lop_second g) v) Q2); cbn; lia. }
    lia. }
  assert (G : forall x, v <> x -> In (und (v, x)) (map fst out) -> exists e, In e (filter at_v out) /\ fst e = und (v, x)).
  { intros x N I. apply in_map_iff in I as (e & Q & I). exists e. split; auto. apply filter_In. split; auto. unfold at_v. rewrite Q. destruct (und_line v x N) as (p & q & U & _ & D). rewrite U. cbn [lop_first lop_second].
    destruct (pt_dec p v); auto. destruct (pt_dec q v); auto. destruct D as [D|D]; injection D as <- <-; congruence. }
  destruct (G a Na Ia) as (ea & Ea & Fa). destruct (G b Nb_ Ib) as (eb & Eb & Fb). destruct (G c Nc Ic) as (ec & Ec & Fc).
  assert (D : forall x y, v <> x -> x <> y -> und (v, x) <> und (v, y)).
  { intros x y N M E. destruct (und_eq v x v y N E) as [Q|Q]; [injection Q as Q; congruence|]. injection Q as Q1 Q2. congruence. }
  assert (L : 3 <= List.length (filter at_v out)).
  { change 3 with (List.length [ea; eb; ec]). apply NoDup_incl_length.
    - repeat constructor; cbn; intuition (subst; try (apply (D a b); congruence); try (apply (D a c); congruence); try (apply (D b c); congruence)).
    - intros e [<-|[<-|[<-|[]]]]; auto. }
  pose proof (T out). pose proof (Simple v). lia.
Qed.
Lemma on_graph : forall m r, laid_out out m -> In r (rings_in m) -> path Nb r.
Proof.
  intros m r L I a b J. destruct (lo_proper _ _ L r I) as [P _]. split; [apply (proper_neq r); auto|]. apply (lo_cover _ _ L). exists (a, b). split; auto. apply in_flat_map. eauto.
Qed.
(** Every ring of one is a ring of the other. *)
Lemma rings_there : forall r', In r' (rings_in mp') -> exists r, In r (rings_in mp) /\ same_ring r r'.
Proof.
  intros r' I. destruct (lo_proper _ _ La' r' I) as [P _]. pose proof P as (a & [|b l] & Q & _ & Ln); [cbn in Ln; lia|]. cbn in Q. subst r'.
  assert (N : Nb a b) by (apply (on_graph mp' _ La' I); left; auto). destruct N as [N J]. apply (lo_cover _ _ La) in J as ([c d] & J & U). apply in_flat_map in J as (r & R & J).
  exists r. split; auto. apply (one_ring Nb Nb_sym Nb_two); auto; [apply (lo_proper _ _ La); auto|apply (on_graph mp); auto|apply (on_graph mp'); auto|].
  destruct (und_eq a b c d N) as [Q|Q]; [auto| |]; injection Q as -> ->; auto.
Qed.
Lemma rings_back : forall r, In r (rings_in mp) -> exists r', In r' (rings_in mp') /\ same_ring r r'.
Proof.
  intros r I. destruct (lo_proper _ _ La r I) as [P _]. pose proof P as (a & [|b l] & Q & _ & Ln); [cbn in Ln; lia|]. cbn in Q.
  assert (N : Nb a b) by (apply (on_graph mp r La I); subst r; left; auto). destruct N as [N J]. apply (lo_cover _ _ La') in J as ([c d] & J & U). apply in_flat_map in J as (r' & R & J).
  destruct (rings_there r' R) as (r2 & I2 & S). assert (Z : r2 = r); [|subst r2; eauto]. apply (one_in (rings_in mp) r2 r a (lo_apart _ _ La)); auto; [|subst r; left; auto].
  apply (same_mem _ _ S). apply edges_in in J as (x & y & ->). apply in_or_app. right. destruct (und_eq a b c d N) as [Q'|Q']; [auto| |]; injection Q' as -> ->; cbn; auto.
Qed.
(** Exteriors are exteriors, holes are holes. *)
Lemma ext_there : forall p r', In p mp -> In r' (rings_in mp') -> same_ring (pg_exterior p) r' -> exists p', In p' mp' /\ pg_exterior p' = r'.
Proof.
  intros p r' I J S. apply in_rings in J as (p' & J & [K|K]); [eauto|]. exfalso.
  assert (R : In (pg_exterior p) (rings_in mp)) by (apply in_rings; exists p; split; auto; left; auto). destruct (lo_proper _ _ La _ R) as [P W].
  destruct (two_roles _ _ false P S W) as (e & E1 & E2). apply (directed_one_way e); [apply (lo_ext _ _ La p e I E1)|apply (lo_int _ _ La' p' r' _ J K E2)].
Qed.
Lemma int_there : forall p h r', In p mp -> In h (pg_interiors p) -> In r' (rings_in mp') -> same_ring h r' -> exists p', In p' mp' /\ In r' (pg_interiors p').
Proof.
  intros p h r' I Ih J S. apply in_rings in J as (p' & J & [K|K]); [|eauto]. exfalso. subst r'.
  assert (R : In h (rings_in mp)) by (apply in_rings; exists p; split; auto; right; auto). destruct (lo_proper _ _ La _ R) as [P W].
  destruct (two_roles _ _ true P S W) as (e & E1 & E2). apply (directed_one_way e); [apply (lo_int _ _ La p h e I Ih E1)|apply (lo_ext _ _ La' p' _ J E2)].
Qed.
Lemma some_vertex : forall r, proper_ring r -> exists v, In v r.
Proof. intros r (p & l & -> & _). exists p. left; auto. Qed.
(** A hole is in the same polygon. *)
Lemma same_parent : forall p p' p2 p2' h h', In p mp -> In p' mp' -> In p2 mp -> In p2' mp' -> same_ring (pg_exterior p) (pg_exterior p') -> same_ring (pg_exterior p2) (pg_exterior p2') ->
  In h (pg_interiors p) -> In h' (pg_interiors p2') -> same_ring h h' -> p = p2.
Proof.
  intros p p' p2 p2' h h' I I' I2 I2' S S2 H H' Sh.
  assert (R : forall m q, In q m -> In (pg_exterior q) (rings_in m)) by (intros m q Q; apply in_rings; exists q; split; auto; left; auto).
  destruct (some_vertex h) as (v & V); [apply (lo_proper _ _ La), in_rings; exists p; split; auto; right; auto|]. pose proof (proj1 (same_mem _ _ Sh v) V) as V'.
  destruct (lo_hole _ _ La p h v I H V) as [A1 A2]. destruct (lo_hole _ _ La' p2' h' v I2' H' V') as [B1 B2].
  destruct (A2 p2 I2) as [Z|Z]; [rewrite (ring_in_same _ _ v S2); auto|auto|]. destruct (B2 p' I') as [Y|Y]; [rewrite <- (ring_in_same _ _ v S); auto| |].
  - subst p2'. destruct (some_vertex (pg_exterior p)) as (w & W); [apply (lo_proper _ _ La); auto|]. apply (one_polygon mp p p2 (pg_exterior p) (pg_exterior p2) w (lo_apart _ _ La)); auto; try (left; auto; fail).
    apply (same_mem _ _ S2), (same_mem _ _ S). auto.
  - destruct (some_vertex (pg_exterior p)) as (w & W); [apply (lo_proper _ _ La); auto|]. destruct (some_vertex (pg_exterior p2)) as (w2 & W2); [apply (lo_proper _ _ La); auto|].
    assert (Dec : p = p2 \/ p <> p2).
    { destruct (in_dec pt_dec w (pg_exterior p2)) as [D|D]; [left; apply (one_polygon mp p p2 (pg_exterior p) (pg_exterior p2) w (lo_apart _ _ La)); auto; left; auto|right; intros ->; auto]. }
    destruct Dec as [E|E]; auto. exfalso. apply (lo_anti _ _ La p p2 w w2); auto. rewrite (ring_in_same _ _ w2 S). apply Y. apply (same_mem _ _ S2). auto.
Qed.
Lemma apart_same : forall l, (forall r, In r l -> proper_ring r) -> ForallOrdPairs apart l -> ForallOrdPairs (fun x y => forall z, same_ring x z -> same_ring y z -> False) l.
Proof.
  intros l P F. apply (fop_impl apart); auto. intros x y I J A z S S'. destruct (some_vertex x (P x I)) as (v & V). apply (A v V). apply (same_mem _ _ S'), (same_mem _ _ S). auto.
Qed.
Lemma apart_same' : forall l, (forall r, In r l -> proper_ring r) -> ForallOrdPairs apart l -> ForallOrdPairs (fun x y => forall z, same_ring z x -> same_ring z y -> False) l.
Proof.
  intros l P F. apply (fop_impl apart); auto. intros x y I J A z S S'. destruct (some_vertex x (P x I)) as (v & V). apply (A v V). apply (same_mem _ _ S'), (same_mem _ _ S). auto.
Qed.
Lemma polygon_apart : forall m, laid_out out m -> ForallOrdPairs (fun p q => apart (pg_exterior p) (pg_exterior q)) m /\ forall p, In p m -> ForallOrdPairs apart (pg_interiors p).
Proof.
  intros m L. pose proof (lo_apart _ _ L) as F. clear L. induction m as [|p m IH]; [split; [constructor|intros p []]|].
  change (rings_in (p :: m)) with (rings_of_polygon p ++ rings_in m) in F. destruct (fop_app _ _ _ F) as (F1 & F2 & F3). destruct (IH F2) as [G1 G2]. split.
  - constructor; auto. apply Forall_forall. intros q Q. apply F3; [left; auto|apply in_rings; exists q; split; auto; left; auto].
  - intros q [<-|Q]; auto. inversion F1; auto.
Qed.
Lemma same_interiors : forall p p', In p mp -> In p' mp' -> same_ring (pg_exterior p) (pg_exterior p') -> same_up_to same_ring (pg_interiors p) (pg_interiors p').
Proof.
  intros p p' I I' S.
  assert (R : forall m q h, In q m -> In h (pg_interiors q) -> In h (rings_in m)) by (intros m q h Q H; apply in_rings; exists q; split; auto; right; auto).
  assert (Rx : forall m q, In q m -> In (pg_exterior q) (rings_in m)) by (intros m q Q; apply in_rings; exists q; split; auto; left; auto).
  apply match_up.
  - intros h H. destruct (rings_back h (R _ _ _ I H)) as (h' & J & Sh). destruct (int_there p h h' I H J Sh) as (p2' & I2' & H'). exists h'. split; auto.
    destruct (rings_there (pg_exterior p2') (Rx _ _ I2')) as (r & Ir & Sr).
    assert (exists p2, In p2 mp /\ pg_exterior p2 = r) as (p2 & I2 & E2).
    { apply in_rings in Ir as (p2 & I2 & [K|K]); [eauto|]. exfalso. destruct (int_there p2 r _ I2 K (Rx _ _ I2') Sr) as (p3 & I3 & K3).
      (* the exterior of p2' would be an interior ring of p3 *)
      destruct (two_roles r (pg_exterior p2') true) as (e & E1 & E2); auto; [apply (lo_proper _ _ La); eauto|apply (lo_proper _ _ La); eauto|].
      apply (directed_one_way e); [apply (lo_int _ _ La p2 r e I2 K E1)|apply (lo_ext _ _ La' p2' _ I2' E2)]. }
    subst r. assert (Q : p = p2) by (apply (same_parent p p' p2 p2' h h'); auto). subst p2.
    assert (Q : p2' = p'); [|subst p2'; auto]. destruct (some_vertex (pg_exterior p)) as (w & W); [apply (lo_proper _ _ La); auto|].
    apply (one_polygon mp' p2' p' (pg_exterior p2') (pg_exterior p') w (lo_apart _ _ La')); auto; try (left; auto; fail); [apply (same_mem _ _ Sr); auto|apply (same_mem _ _ S); auto].
  - intros h' H'. destruct (rings_there h' (R _ _ _ I' H')) as (h & J & Sh). pose proof J as J0. apply in_rings in J as (p2 & I2 & [K|K]).
    + exfalso. subst h. destruct (ext_there p2 h' I2 (R _ _ _ I' H') Sh) as (p3 & I3 & E3).
      destruct (two_roles (pg_exterior p2) h' false) as (e & E1 & E2); auto; [apply (lo_proper _ _ La); auto|apply (lo_proper _ _ La); auto|].
      apply (directed_one_way e); [apply (lo_ext _ _ La p2 e I2 E1)|apply (lo_int _ _ La' p' h' _ I' H' E2)].
    + exists h. split; auto. destruct (rings_back (pg_exterior p2) (Rx _ _ I2)) as (r' & Ir & Sr). destruct (ext_there p2 r' I2 Ir Sr) as (p2' & I2' & <-).
      assert (Q : p2 = p) by (apply (same_parent p2 p2' p p' h h'); auto). subst p2. auto.
  - apply apart_same; [|apply (polygon_apart mp La); auto]. intros r Ir. apply (lo_proper _ _ La). eauto.
  - apply apart_same'; [|apply (polygon_apart mp' La'); auto]. intros r Ir. apply (lo_proper _ _ La'). eauto.
Qed.
Theorem same_layout : same_polygons mp mp'.
Proof.
  assert (Rx : forall m q, In q m -> In (pg_exterior q) (rings_in m)) by (intros m q Q; apply in_rings; exists q; split; auto; left; auto).
  apply match_up.
  - intros p I. destruct (rings_back _ (Rx _ _ I)) as (r' & J & S). destruct (ext_there p r' I J S) as (p' & I' & <-). exists p'. split; auto. split; auto. apply same_interiors; auto.
  - intros p' I'. destruct (rings_there _ (Rx _ _ I')) as (r & J & S). pose proof J as J0. apply in_rings in J as (p & I & [K|K]).
    + subst r. exists p. split; auto. split; auto. apply same_interiors; auto.
    + exfalso. destruct (two_roles r (pg_exterior p') true) as (e & E1 & E2); auto; [apply (lo_proper _ _ La); auto|apply (lo_proper _ _ La); auto|].
      apply (directed_one_way e); [apply (lo_int _ _ La p r e I K E1)|apply (lo_ext _ _ La' p' _ I' E2)].
  - destruct (polygon_apart mp La) as [F _]. apply (fop_impl (fun p q => apart (pg_exterior p) (pg_exterior q))); auto. intros x y I J A z [S _] [S' _].
    destruct (some_vertex (pg_exterior x)) as (v & V); [apply (lo_proper _ _ La); auto|]. apply (A v V). apply (same_mem _ _ S'), (same_mem _ _ S). auto.
  - destruct (polygon_apart mp' La') as [F _]. apply (fop_impl (fun p q => apart (pg_exterior p) (pg_exterior q))); auto. intros x y I J A z [S _] [S' _].
    destruct (some_vertex (pg_exterior x)) as (v & V); [apply (lo_proper _ _ La'); auto|]. apply (A v V). apply (same_mem _ _ S'), (same_mem _ _ S). auto.
Qed.
End Two.
