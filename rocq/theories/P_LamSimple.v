(** The number of pieces of a boundary, and boundaries where at most two pieces
    meet at a vertex. *)
Require Import List String Bool Arith Lia Permutation.
From Verif Require Import Base Scalar M_Events M_Geo M_LineOrPoint M_Sweep M_MonoPoly M_Rings M_Op M_Laminar.
From Verif Require Import S_Geo P_Geo P_LineOrPoint P_Inv P_Run P_Master S_Boundary P_Boundary.
From Verif Require Import S_Mono S_Rings P_Rings S_Op Props_Op1 P_OpLab P_OpPoly P_OpBoundary P_OpTotal Props_Op2 Props_Op3 S_Laminar P_Laminar P_LamRun P_LamGeo P_LamSpec.
Import Datatypes.
Import ListNotations.
Local Open Scope nat_scope.

(** * Pieces *)
Lemma nodup_map : forall {X Y Z} (f : X -> Y) (g : X -> Z) l, NoDup (map g l) -> (forall x y, In x l -> In y l -> f x = f y -> g x = g y) -> NoDup (map f l).
Proof.
  intros X Y Z f g l. induction l as [|x l IH]; intros N G; [constructor|]. cbn [map] in *. apply NoDup_cons_iff in N as [N1 N2]. constructor.
  - intros I. apply in_map_iff in I as (y & Q & I). apply N1. rewrite <- (G y x); [apply in_map; auto|right; auto|left; auto|auto].
  - apply IH; auto. intros a b Ia Ib. apply G; right; auto.
Qed.
Definition pieces_bound (n : nat) : nat := n * (2 * n + n * n).
Theorem pieces_count : forall ty A B out, all_closed A -> all_closed B -> boundary (edges_of A B) (in_result ty A B) out ->
  List.length out <= pieces_bound (List.length (edges_of A B)).
Proof.
  intros ty A B out CA CB Bd. destruct (C44_edges_of_the_operands ty A B CA CB) as (es & Ei & F).
  assert (Le : List.length es = List.length (edges_of A B)) by exact (len_E ty A B es F).
  set (E := edges_of A B) in *. set (V := cands (edge_line es) (List.length es)).
  assert (NP : forall m, ~ plain E m -> In m V).
  { intros m Pm. destruct (in_dec pt_dec m V) as [I|I]; auto. exfalso. apply Pm. apply (notV_plain ty A B es F). exact I. }
  set (on := fun (x y : pt) (ab : pt * pt) => if on_seg_dec (fst ab) (snd ab) x then if on_seg_dec (fst ab) (snd ab) y then true else false else false).
  set (f := fun gw : lop * winding => (find (on (lop_first (fst gw)) (lop_second (fst gw))) E, lop_first (fst gw))).
  assert (Found : forall x y, piece E x y -> exists ab, find (on x y) E = Some ab /\ In ab E /\ on_seg (fst ab) (snd ab) x /\ on_seg (fst ab) (snd ab) y).
  { intros x y (_ & (a & b & I & O1 & O2) & _). destruct (find (on x y) E) as [ab|] eqn:Q.
    - exists ab. split; auto. apply find_some in Q as [Q1 Q2]. split; auto. unfold on in Q2. destruct (on_seg_dec _ _ x); [|discriminate]. destruct (on_seg_dec _ _ y); [auto|discriminate].
    - exfalso. pose proof (find_none _ _ Q (a, b) I) as Z. unfold on in Z. cbn [fst snd] in Z. destruct (on_seg_dec a b x); [|contradiction]. destruct (on_seg_dec a b y); [discriminate|contradiction]. }
  assert (ND : NoDup (map f out)).
  { apply (nodup_map f fst); [exact (bd_once _ _ _ Bd)|]. intros [g w] [g' w'] I I' Q. destruct (bd_piece _ _ _ Bd g w I) as (x & y & -> & P). destruct (bd_piece _ _ _ Bd g' w' I') as (x' & y' & -> & P').
    unfold f in Q. cbn [fst lop_first lop_second] in *. injection Q as Q1 Q2. subst x'. destruct (Found x y P) as (ab & F1 & Ia & Ox & Oy). destruct (Found x y' P') as (ab' & F2 & _ & _ & Oy').
    rewrite Q1, F2 in F1. injection F1 as ->. pose proof P as (L & _). pose proof P' as (L' & _).
    assert (Sub : forall u v m, lex_le u v -> lex_lt x u -> on_seg (fst ab) (snd ab) u -> on_seg (fst ab) (snd ab) v -> strictly_inside x u m -> strictly_inside x v m).
    { intros u v m Luv Lxu Ou Ov S. destruct (inside_lt _ _ _ Lxu S) as [S1 S2]. apply lt_inside; auto; [lord|]. apply (seg_collinear (fst ab) (snd ab)); auto. apply (inner_on x u); auto. apply S. }
    destruct (lex_le_dec y y') as [Z|Z].
    - destruct (inner x y L) as (m & S). destruct (piece_unique E x y x y' m P P' S) as [_ <-]; [apply (Sub y); auto|reflexivity].
    - destruct (inner x y' L') as (m & S). destruct (piece_unique E x y x y' m P P') as [_ <-]; auto. apply (Sub y'); auto. lord. }
  assert (Inc : incl (map f out) (list_prod (map Some E) V)).
  { intros z I. apply in_map_iff in I as ([g w] & <- & I). destruct (bd_piece _ _ _ Bd g w I) as (x & y & -> & P). unfold f. cbn [fst lop_first lop_second].
    destruct (Found x y P) as (ab & -> & Ia & _). apply in_prod; [apply in_map; auto|]. apply NP. apply P. }
  pose proof (NoDup_incl_length ND Inc) as Ln. rewrite map_length, prod_length, map_length in Ln. unfold pieces_bound.
  pose proof (cands_length (edge_line es) (List.length es)) as Cl. fold V in Cl. rewrite Le in Cl. nia.
Qed.
Lemma steps_mono : forall a b, a <= b -> steps_bound a <= steps_bound b.
Proof. intros a b L. unfold steps_bound. assert (a * a <= b * b) by nia. assert (a * (2 * a + a * a) <= b * (2 * b + b * b)) by (apply Nat.mul_le_mono; lia). lia. Qed.

(** * Simple vertices *)
Lemma ring_both : forall l v, proper_ring l -> In v l -> exists a b, In (a, v) (edges l) /\ In (v, b) (edges l).
Proof.
  intros l v (p & l' & -> & _ & Ln) I. destruct l' as [|b l']; [cbn in Ln; lia|].
  assert (C : v = p \/ In v (b :: l')) by (destruct I as [->|I]; auto; apply in_app_iff in I as [I|[->|[]]]; auto).
  destruct C as [->|C].
  - destruct (exists_last (l := b :: l')) as (x & a & Z); [discriminate|]. exists a, b. split; [|apply edges_in; exists [], (l' ++ [p]); reflexivity].
    apply edges_in. exists (p :: x), []. rewrite Z. cbn. rewrite <- app_assoc. reflexivity.
  - apply in_split in C as (x & y & Z). rewrite Z. destruct (exists_last (l := p :: x)) as (x' & a & Za); [discriminate|].
    assert (exists c y', y ++ [p] = c :: y') as (c & y' & Zy) by (destruct y; eexists; eexists; reflexivity).
    assert (Q : p :: (x ++ v :: y) ++ [p] = x' ++ a :: v :: c :: y').
    { rewrite <- app_assoc, app_comm_cons, Za, <- app_assoc. cbn [app]. rewrite Zy. reflexivity. }
    exists a, c. rewrite Q. split; apply edges_in; [exists x', (c :: y'); reflexivity|exists (x' ++ [a]), y'; rewrite <- app_assoc; reflexivity].
Qed.
Definition leaves (p : pt) (l : list (pt * pt)) : nat := List.length (filter (fun e => pt_eqb (fst e) p) l).
Lemma leaves_app : forall p l l', leaves p (l ++ l') = leaves p l + leaves p l'.
Proof. intros p l l'. unfold leaves. rewrite filter_app, app_length. reflexivity. Qed.
Lemma leaves_turns : forall p l, leaves p (map directed l) = count_occ bool_dec (turns p l) true.
Proof.
  intros p l. induction l as [|x l IH]; [reflexivity|]. unfold turns in *. cbn [map flat_map]. rewrite !count_occ_app, <- IH. change (directed x :: map directed l) with ([directed x] ++ map directed l).
  rewrite leaves_app. unfold leaves at 1. cbn [filter]. destruct (pt_eqb (fst (directed x)) p), (pt_eqb (snd (directed x)) p); reflexivity.
Qed.
Lemma leaves_perm : forall p l l', Permutation l l' -> leaves p l = leaves p l'.
Proof.
  intros p l l' P. unfold leaves. induction P as [|x l l' P IH|x y l|l1 l2 l3 P1 IH1 P2 IH2]; cbn [filter]; auto; [destruct (pt_eqb (fst x) p); cbn; lia| |lia].
  destruct (pt_eqb (fst x) p), (pt_eqb (fst y) p); reflexivity.
Qed.
Lemma leaves_in : forall p e l, In e l -> fst e = p -> 1 <= leaves p l.
Proof.
  intros p e l I Q. unfold leaves. assert (J : In e (filter (fun e => pt_eqb (fst e) p) l)) by (apply filter_In; split; auto; apply pt_eqb_iff; auto).
  destruct (filter _ l); [destruct J|cbn; lia].
Qed.
Lemma leaves_ring : forall p r, proper_ring (r_coords r) -> In p (r_coords r) -> 1 <= leaves p (region_left r).
Proof.
  intros p r P I. destruct (ring_both _ _ P I) as (a & b & I1 & I2). unfold region_left.
  assert (X : 1 <= leaves p (edges (r_coords r))) by (apply (leaves_in p (p, b)); auto).
  assert (Y : 1 <= leaves p (map reversed (edges (r_coords r)))) by (apply (leaves_in p (reversed (a, p))); [apply in_map; auto|reflexivity]).
  destruct (ls_winding_order (r_coords r)) as [[]|], (r_hole r); auto.
Qed.
Lemma leaves_two : forall p rs i j r r', i < j -> nth_error rs i = Some r -> nth_error rs j = Some r' ->
  1 <= leaves p (region_left r) -> 1 <= leaves p (region_left r') -> 2 <= leaves p (flat_map region_left rs).
Proof.
  intros p rs i j r r' L I J A B. apply nth_error_split in I as (x & y & -> & <-). rewrite nth_error_app2 in J by lia.
  replace (j - List.length x) with (S (j - List.length x - 1)) in J by lia. cbn [nth_error] in J. apply nth_error_split in J as (u & v & -> & _).
  rewrite flat_map_app. cbn [flat_map]. rewrite flat_map_app. cbn [flat_map]. rewrite !leaves_app. lia.
Qed.
Theorem simple_disjoint : forall E inr out rs, boundary E inr out -> Permutation (map directed out) (flat_map region_left rs) ->
  Forall (fun r => proper_ring (r_coords r)) rs -> (forall p, count_occ bool_dec (turns p out) true = count_occ bool_dec (turns p out) false) ->
  (forall p, List.length (turns p out) <= 2) ->
  forall R R' r r' v, R <> R' -> nth_error rs R = Some r -> nth_error rs R' = Some r' -> In v (r_coords r) -> In v (r_coords r') -> False.
Proof.
  intros E inr out rs Bd Pm Pr Bal Two R R' r r' v N Q Q' I I'.
  assert (X : 2 <= leaves v (flat_map region_left rs)).
  { rewrite Forall_forall in Pr. pose proof (leaves_ring v r (Pr r (nth_error_In _ _ Q)) I) as A. pose proof (leaves_ring v r' (Pr r' (nth_error_In _ _ Q')) I') as B.
    destruct (Nat.lt_ge_cases R R') as [L|L]; [apply (leaves_two v rs R R' r r'); auto|apply (leaves_two v rs R' R r' r); auto; lia]. }
  rewrite <- (leaves_perm v _ _ Pm), leaves_turns in X. specialize (Bal v). specialize (Two v).
  assert (K : forall l, List.length l = count_occ bool_dec l true + count_occ bool_dec l false).
  { induction l as [|[] l IH]; [reflexivity| |]; cbn [List.length count_occ]; repeat match goal with |- context [bool_dec ?a ?b] => destruct (bool_dec a b); try congruence end; lia. }
  rewrite K in Two. lia.
Qed.
