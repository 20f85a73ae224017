(** Crossing parities over the edges of polygons: closed rings balance, and the
    even-odd rule depends on the proper edges only. *)
Require Import List String Bool Arith Lia.
From Verif Require Import Base Scalar M_Events M_Geo M_LineOrPoint M_Rings M_Op S_Geo P_Geo P_LineOrPoint P_Tilt P_Inv.
From Verif Require Import M_MonoPoly S_Mono S_Rings P_Rings S_Op Props_Op1 P_OpLab P_OpPoint P_OpPlane.
Import Datatypes.
Import ListNotations.
Local Open Scope nat_scope.

(** * Closed rings *)
Lemma edges_cons : forall p q l, edges (p :: q :: l) = (p, q) :: edges (q :: l).
Proof. reflexivity. Qed.
Lemma telescope : forall (g : pt -> bool) l p, odd (map (fun e => xorb (g (fst e)) (g (snd e))) (edges (p :: l))) = xorb (g p) (g (last (p :: l) p)).
Proof.
  intros g l. induction l as [|q l IH]; intros p; [cbn; rewrite xorb_nilpotent; reflexivity|].
  rewrite edges_cons. cbn [map odd fold_right fst snd]. fold (odd (map (fun e => xorb (g (fst e)) (g (snd e))) (edges (q :: l)))). rewrite IH.
  change (last (p :: q :: l) p) with (last (q :: l) p).
  assert (E : forall d d' (l : list pt) q, last (q :: l) d = last (q :: l) d') by (clear; intros d d' l; induction l as [|x l IH]; intros q; [reflexivity|exact (IH x)]).
  rewrite (E p q). clear E IH.
  destruct (g p), (g q), (g (last (q :: l) q)); reflexivity.
Qed.
Lemma ring_balance : forall (g : pt -> bool) r, closed r -> odd (map (fun e => xorb (g (fst e)) (g (snd e))) (edges r)) = false.
Proof.
  intros g [|p r] C; [reflexivity|]. rewrite telescope. unfold closed in C. rewrite C. apply xorb_nilpotent.
Qed.
Lemma odd_filter : forall {X} (f p : X -> bool) l, (forall x, p x = false -> f x = false) -> odd (map f (filter p l)) = odd (map f l).
Proof.
  intros X f p l E. induction l as [|x l IH]; [reflexivity|]. cbn [filter map odd fold_right]. destruct (p x) eqn:P.
  - cbn [map odd fold_right]. unfold odd in IH. rewrite IH. reflexivity.
  - rewrite (E x P), xorb_false_l. exact IH.
Qed.
Lemma odd_flat : forall {X Y} (f : Y -> bool) (h : X -> list Y) l, odd (map f (flat_map h l)) = odd (map (fun x => odd (map f (h x))) l).
Proof.
  intros X Y f h l. induction l as [|x l IH]; [reflexivity|]. cbn [flat_map map odd fold_right]. rewrite map_app, odd_app. rewrite IH. reflexivity.
Qed.
Lemma ring_edges_balance : forall (g : pt -> bool) r, closed r -> odd (map (fun e => xorb (g (fst e)) (g (snd e))) (ring_edges r)) = false.
Proof.
  intros g r C. unfold ring_edges. destruct (List.length r <=? 3); [reflexivity|]. rewrite odd_filter; [apply ring_balance; auto|].
  intros [x y] E. cbn [fst snd] in *. apply negb_false_iff, pt_eqb_iff in E. subst. apply xorb_nilpotent.
Qed.
Lemma proper_balance : forall (g : pt -> bool) mp, all_closed mp -> odd (map (fun e => xorb (g (fst e)) (g (snd e))) (proper_edges mp)) = false.
Proof.
  intros g mp C. unfold proper_edges. rewrite odd_flat. apply odd_none. intros r I. apply ring_edges_balance. apply C. auto.
Qed.

(** * The even-odd rule *)
Lemma above_ray1 : forall a b q, lex_lt a b -> above a b q = qleb (cx a) (cx q) && qltb (cx q) (cx b) && qltb 0 (cross a b q).
Proof.
  intros a b q L. unfold above. apply eq_true_iff_eq. rewrite !andb_true_iff, isact_iff, !qltb_iff, qleb_iff. unfold lex_le, lex_lt, cross in *. split.
  - intros ((A & B) & C). split; [|exact C]. split.
    + destruct A as [[A|[A _]]|A]; [apply Qclt_le_weak; auto|rewrite A; apply Qcle_refl|rewrite A; apply Qcle_refl].
    + destruct B as [B|[B B']]; [auto|]. exfalso. rewrite B in C. destruct L as [L|[L _]]; [|rewrite L in C; clear - C; qc].
      assert (Q : ((cx b - cx a) * (cy q - cy b) < 0)%Qc) by (clear - L B'; qc). clear - C Q. qc.
  - intros ((A & B) & C). split; [|exact C]. split.
    + destruct (Qcle_lt_or_eq _ _ A) as [A'|A']; [left; left; auto|]. left. right. split; [auto|]. rewrite <- A' in C.
      assert (P : (0 < cx b - cx a)%Qc) by (rewrite A'; clear - B; qcl). destruct (Qclt_le_dec (cy a) (cy q)) as [Q|Q]; auto. exfalso. clear - C P Q. qc.
    + left. auto.
Qed.
Lemma above_ray : forall a b q, lex_lt a b -> ray_crosses q (a, b) = above a b q /\ ray_crosses q (b, a) = above a b q.
Proof.
  intros a b q L. rewrite (above_ray1 a b q L). unfold ray_crosses.
  assert (N : qleb (cx b) (cx q) && qltb (cx q) (cx a) = false).
  { destruct (qleb_spec (cx b) (cx q)) as [A|A], (qltb_spec (cx q) (cx a)) as [B|B]; try reflexivity. exfalso. destruct L as [L|[L _]]; clear - A B L; qcl. }
  rewrite N. split; destruct (qleb (cx a) (cx q) && qltb (cx q) (cx b)); reflexivity.
Qed.
Lemma ray_flat : forall q a, ray_crosses q (a, a) = false.
Proof.
  intros q a. unfold ray_crosses. destruct (qleb_spec (cx a) (cx q)) as [A|A], (qltb_spec (cx q) (cx a)) as [B|B]; try reflexivity. exfalso. clear - A B. qcl.
Qed.
Lemma ray_sym : forall q a b, ray_crosses q (a, b) = ray_crosses q (b, a).
Proof.
  intros q a b. destruct (lex_total a b) as [[L| ->]|L]; [|reflexivity|];
  destruct (above_ray _ _ q L) as [A B]; congruence.
Qed.
Lemma short_ring : forall (f : pt * pt -> bool) r, (forall a b, f (a, b) = f (b, a)) -> (forall a, f (a, a) = false) -> closed r ->
  List.length r <= 3 -> odd (map f (edges r)) = false.
Proof.
  intros f r Sy Fl C L. destruct r as [|a [|b [|c [|d r]]]]; cbn in L; try lia; unfold closed in C; cbn in C; try reflexivity.
  - subst b. cbn. rewrite Fl. reflexivity.
  - subst c. cbn. rewrite (Sy a b). destruct (f (b, a)); reflexivity.
Qed.
Lemma inside_proper : forall mp q, all_closed mp -> inside mp q = odd (map (ray_crosses q) (proper_edges mp)).
Proof.
  intros mp q C. unfold inside, all_edges, proper_edges. rewrite !odd_flat. apply odd_ext. intros r I. unfold ring_edges.
  destruct (Nat.leb_spec (List.length r) 3) as [L|L].
  - apply short_ring; auto using ray_sym, ray_flat.
  - symmetry. apply odd_filter. intros [x y] E. apply negb_false_iff, pt_eqb_iff in E. cbn [fst snd] in E. subst. apply ray_flat.
Qed.

(** * Parities over the recorded edges *)
Lemma odd_index : forall {X} (f : X -> bool) (l : list X) (d : X) (h : nat -> bool), (forall c x, nth_error l c = Some x -> h c = f x) ->
  odd (map h (seq 0 (List.length l))) = odd (map f l).
Proof.
  intros X f l d h E. assert (G : forall k, (forall c x, nth_error l c = Some x -> h (k + c) = f x) -> odd (map h (seq k (List.length l))) = odd (map f l)).
  { clear E. induction l as [|x l IH]; intros k E; [reflexivity|]. cbn [List.length seq map odd fold_right].
    rewrite <- (E 0 x eq_refl), Nat.add_0_r. f_equal. apply (IH (S k)). intros c y Ey. rewrite <- (E (S c) y Ey). f_equal. lia. }
  apply (G 0). exact E.
Qed.
Lemma odd_forall2 : forall {X Y} (R : X -> Y -> Prop) (f : X -> bool) (h : Y -> bool) l l', (forall x y, R x y -> f x = h y) -> Forall2 R l l' ->
  odd (map h l') = odd (map f l).
Proof.
  intros X Y R f h l l' E F. induction F as [|x y l l' Rxy F IH]; [reflexivity|]. cbn [map odd fold_right]. unfold odd in IH. rewrite IH, (E _ _ Rxy). reflexivity.
Qed.

Section Recorded.
Variables (ty : op_type) (A B : list polygon) (es : list edge).
Hypothesis CA : all_closed A.
Hypothesis CB : all_closed B.
Hypothesis F : Forall2 (recorded ty) (map (pair true) (proper_edges A) ++ map (pair false) (proper_edges B)) es.
Let n := List.length es.
Let ln := edge_line es.
Definition ofs (c : nat) : bool := match nth_error es c with Some ed => e_first ed | None => false end.

Lemma rec_of : forall ed, In ed es -> exists fe, In fe (map (pair true) (proper_edges A) ++ map (pair false) (proper_edges B)) /\ recorded ty fe ed.
Proof.
  clear n ln. induction F as [|fe ed l l' R F' IH]; intros ed' I; [destruct I|]. destruct I as [<-|I]; [exists fe; split; [left|]; auto|].
  destruct (IH F' ed' I) as (fe' & I' & R'). exists fe'. split; [right|]; auto.
Qed.
Lemma of_rec : forall fe, In fe (map (pair true) (proper_edges A) ++ map (pair false) (proper_edges B)) -> exists ed, In ed es /\ recorded ty fe ed.
Proof.
  clear n ln. induction F as [|fe ed l l' R F' IH]; intros fe' I; [destruct I|]. destruct I as [<-|I]; [exists ed; split; [left|]; auto|].
  destruct (IH F' fe' I) as (ed' & I' & R'). exists ed'. split; [right|]; auto.
Qed.
Definition E : list (pt * pt) := proper_edges A ++ proper_edges B.
Lemma tagged : forall e : pt * pt, In e E <-> exists f, In (f, e) (map (pair true) (proper_edges A) ++ map (pair false) (proper_edges B)).
Proof.
  intros e. unfold E. rewrite in_app_iff. split.
  - intros [I|I]; [exists true|exists false]; apply in_app_iff; [left|right]; apply in_map; auto.
  - intros (f & I). apply in_app_iff in I as [I|I]; apply in_map_iff in I as (x & Q & I); injection Q as _ <-; auto.
Qed.
Lemma geo_es : forall c ed, nth_error es c = Some ed -> geo ln c = e_geom ed.
Proof.
  intros c ed Q. unfold geo, ln, edge_line. rewrite Q. destruct (rec_of ed (nth_error_In _ _ Q)) as (fe & _ & (x & y & G & L & _) & _).
  rewrite G. unfold lop_line, lop_of_line. cbn [l_start l_end]. destruct (pcmp_spec x y) as [Z|Z|Z]; [lord|reflexivity|lord].
Qed.
Lemma edge_c : forall c, c < n -> exists ed a z, nth_error es c = Some ed /\ geo ln c = Line a z /\ e_geom ed = Line a z /\ lex_lt a z /\ (In (a, z) E \/ In (z, a) E).
Proof.
  intros c L. destruct (nth_error es c) as [ed|] eqn:Q; [|apply nth_error_None in Q; unfold n in L; lia].
  destruct (rec_of ed (nth_error_In _ _ Q)) as ([f e] & I & (x & y & G & Lx & D) & _). exists ed, x, y. rewrite (geo_es c ed Q). cbn [snd] in D.
  repeat split; auto. assert (In e E) by (apply tagged; eauto). destruct D as [->| ->]; auto.
Qed.
Lemma c_edge : forall a b, In (a, b) E -> exists c, c < n /\ (geo ln c = Line a b /\ lex_lt a b \/ geo ln c = Line b a /\ lex_lt b a).
Proof.
  intros a b I. apply tagged in I as (f & I). destruct (of_rec _ I) as (ed & Ied & (x & y & G & Lx & D) & _). destruct (In_nth_error _ _ Ied) as (c & Q).
  exists c. split; [apply nth_error_Some; fold n; congruence|]. rewrite (geo_es c ed Q), G. cbn [snd] in D. destruct D as [D|D]; injection D as -> ->; auto.
Qed.
Lemma par_proper : forall b (f : lop -> bool) (h : pt * pt -> bool), (forall x y, lex_lt x y -> h (x, y) = f (Line x y) /\ h (y, x) = f (Line x y)) ->
  par ofs n b (fun c => f (geo ln c)) = odd (map h (proper_edges (if b then A else B))).
Proof.
  intros b f h Hh. unfold par.
  rewrite (odd_index (fun ed => Bool.eqb (e_first ed) b && f (e_geom ed)) es (mkEdge (Point (mkC 0%Qc 0%Qc)) false (region_infinity ty) (region_infinity ty))).
  - rewrite (odd_forall2 (recorded ty) (fun fe => Bool.eqb (fst fe) b && h (snd fe)) _ _ _) with (2 := F).
    + rewrite map_app, odd_app, !map_map. destruct b; cbn [fst snd Bool.eqb andb].
      * rewrite (odd_none (fun _ => false)), xorb_false_r by auto. reflexivity.
      * rewrite (odd_none (fun _ => false)), xorb_false_l by auto. reflexivity.
    + intros [f' e] ed ((x & y & G & Lx & D) & E1 & _). cbn [fst snd] in *. rewrite E1, G. destruct (Hh x y Lx) as [H1 H2]. destruct D as [->| ->]; congruence.
  - intros c ed Q. unfold ofs. rewrite Q, (geo_es c ed Q). reflexivity.
Qed.
Lemma balance : forall b (g : pt -> bool), par ofs n b (fun c => xorb (g (ea ln c)) (g (ez ln c))) = false.
Proof.
  intros b g. change (par ofs n b (fun c => (fun l => xorb (g (lop_first l)) (g (lop_second l))) (geo ln c)) = false).
  rewrite (par_proper b _ (fun e => xorb (g (fst e)) (g (snd e)))).
  - destruct b; apply proper_balance; auto.
  - intros x y _. cbn. rewrite (xorb_comm (g y)). auto.
Qed.
Lemma par_above : forall b q, par ofs n b (fun c => above (ea ln c) (ez ln c) q) = inside (if b then A else B) q.
Proof.
  intros b q. change (par ofs n b (fun c => (fun l => above (lop_first l) (lop_second l) q) (geo ln c)) = inside (if b then A else B) q).
  rewrite (par_proper b _ (ray_crosses q)).
  - symmetry. apply inside_proper. destruct b; auto.
  - intros x y L. apply above_ray; auto.
Qed.
Lemma lab_above : forall q, is_ty (lab ty ofs n (fun c => above (ea ln c) (ez ln c) q)) ty = in_result ty A B q.
Proof.
  intros q. unfold lab, in_result. rewrite !par_above. destruct ty; cbn; destruct (inside A q), (inside B q); reflexivity.
Qed.
Lemma es_wfe : wfe n (geo ln) ofs es.
Proof.
  constructor; [reflexivity|]. intros c L. destruct (edge_c c L) as (ed & a & z & Q & _). exists ed. rewrite (geo_es c ed Q). unfold ofs. rewrite Q. auto.
Qed.
Lemma es_lines : forall c, c < n -> exists a z, geo ln c = Line a z.
Proof. intros c L. destruct (edge_c c L) as (ed & a & z & _ & Q & _). eauto. Qed.
End Recorded.
