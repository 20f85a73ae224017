(** Properties of the monotone decomposition of valid polygons. *)
Require Import List Bool Arith String QArith Permutation Lia.
From Verif Require Import Base Scalar M_Events M_Geo M_MonoPoly S_Geo P_Geo S_Mono P_Mono Props_Mono M_Rings M_Op S_Rings S_Op P_OpLab P_OpPoly Props_Op3 M_MonoSweep M_Chains Props_Chains.
From Verif Require Import S_Laminar S_Chains P_MonoRun P_MonoCount P_MonoTotal P_EdgeTotal.
Import Datatypes.
Import ListNotations.
Local Open Scope nat_scope.
Local Open Scope list_scope.

(** Valid polygons are decomposed: no assertion fails and no [unwrap] panics, in
    whatever order the sort leaves equal events and whatever the shape of the B-tree. *)
Theorem C61_decomposition_succeeds : forall presort pick P, (forall l, Permutation (presort l) l) -> valid_polygon P ->
  exists ms, monotone_chains presort pick P = Ok ms.
Proof. intros presort pick P Ps VP. destruct (decompose P VP presort pick Ps) as (D & d & E & _). eauto. Qed.

(** Every point inside the polygon is in exactly one piece, every other point in none. *)
Theorem C62_each_point_in_one_piece : forall presort pick P ms, (forall l, Permutation (presort l) l) -> valid_polygon P ->
  monotone_chains presort pick P = Ok ms ->
  forall q, List.length (filter (fun m => piece_in m q) ms) = if inside [P] q then 1 else 0.
Proof.
  intros presort pick P ms Ps VP E q. destruct (decompose P VP presort pick Ps) as (D & d & E' & _ & _ & N). rewrite E in E'. injection E' as ->. apply N.
Qed.
(** The points in a piece are those inside the polygon it is converted to. *)
Theorem C62_pieces_as_polygons : forall presort pick P ms, monotone_chains presort pick P = Ok ms -> forall m, In m ms ->
  exists pg, mp_into_polygon m = Ok pg /\ forall q, inside [pg] q = piece_in m q.
Proof.
  intros presort pick P ms E m I. pose proof (C41_pieces_are_monotone _ _ _ _ E m I) as MP. eexists. split; [apply into_polygon_ok; exact MP|].
  intros q. unfold inside, all_edges, rings_in, piece_in. cbn [flat_map pg_exterior pg_interiors app]. rewrite app_nil_r, into_polygon_edges by exact MP.
  rewrite !map_app, !odd_app. f_equal. rewrite map_rev, (odd_perm _ _ (Permutation_sym (Permutation_rev _))), map_map. apply odd_ext. intros [a b] _. apply ray_sym.
Qed.

(** The boundaries of the pieces, clockwise, are the edges of the polygon directed with
    the interior on the right, each once, and diagonals, each in both directions: for
    every polygon on which the decomposition returns, valid or not. *)
Theorem C42_edges_of_the_pieces : forall presort pick P ms, (forall l, Permutation (presort l) l) ->
  monotone_chains presort pick P = Ok ms ->
  exists d, Permutation (flat_map piece_edges ms) (filter real_edge (region_right P) ++ d ++ map reversed d).
Proof. exact edges_kept. Qed.
(** Valid polygons have no edge without length. *)
Corollary C42_edges_of_valid_polygons : forall presort pick P ms, (forall l, Permutation (presort l) l) -> valid_polygon P ->
  monotone_chains presort pick P = Ok ms ->
  exists d, Permutation (flat_map piece_edges ms) (region_right P ++ d ++ map reversed d).
Proof.
  intros presort pick P ms Ps VP E. destruct (decompose P VP presort pick Ps) as (D & d & E' & Pd & _). rewrite E in E'. injection E' as ->. exists d. exact Pd.
Qed.
(** A polygon that is not valid because a coordinate is repeated. *)
Definition repeated : polygon := mkPolygon [at_ 0 0; at_ 5 5; at_ 5 5; at_ 10 0; at_ 4 1; at_ 0 0] [].
Example C42_example : match monotone_chains (fun l => l) (fun _ _ _ => 0%nat) repeated with
  | Ok ms => (List.length ms, List.length (region_right repeated), List.length (filter real_edge (region_right repeated)), List.length (flat_map piece_edges ms))
  | _ => (0, 0, 0, 0)
  end = (1, 5, 4, 4).
Proof. vm_compute. reflexivity. Qed.

(** * A valid polygon *)
Definition meet_check (e e' : pt * pt) : bool :=
  let '(a, b) := e in
  let '(c, d) := e' in
  let same s t := (qltb 0 s && qltb 0 t) || (qltb s 0 && qltb t 0) in
  same (cross a b c) (cross a b d) || same (cross c d a) (cross c d b) ||
  (peqb a c && negb (qeqb (cross a b d) 0)) || (peqb a d && negb (qeqb (cross a b c) 0)) ||
  (peqb b c && negb (qeqb (cross a b d) 0)) || (peqb b d && negb (qeqb (cross a b c) 0)).
Lemma same_side : forall a b c d r, ((0 < cross a b c /\ 0 < cross a b d) \/ (cross a b c < 0 /\ cross a b d < 0))%Qc -> on_seg a b r -> on_seg c d r -> False.
Proof.
  intros a b c d r S O (t & T1 & T2 & X & Y). apply on_seg_cross in O.
  assert (Z : cross a b r = ((1 - t) * cross a b c + t * cross a b d)%Qc) by (unfold cross; rewrite X, Y; ring). rewrite O in Z.
  destruct S as [[S1 S2]|[S1 S2]].
  - destruct (Qclt_le_dec 0%Qc t) as [K|K]; [qc|]. assert (t = 0%Qc) by (apply Qcle_antisym; auto). subst t. qc.
  - destruct (Qclt_le_dec 0%Qc t) as [K|K]; [qc|]. assert (t = 0%Qc) by (apply Qcle_antisym; auto). subst t. qc.
Qed.
Lemma same_end : forall a b c d r, cross a b c = 0%Qc -> cross a b d <> 0%Qc -> on_seg a b r -> on_seg c d r -> r = c.
Proof.
  intros a b c d r C N O (t & T1 & T2 & X & Y). apply on_seg_cross in O.
  assert (Z : cross a b r = ((1 - t) * cross a b c + t * cross a b d)%Qc) by (unfold cross; rewrite X, Y; ring). rewrite O, C in Z.
  assert (t = 0%Qc).
  { destruct (Qc_trichotomy t 0) as [[K|K]|K]; auto; exfalso; destruct (Qc_trichotomy (cross a b d) 0) as [[L|L]|L]; try contradiction; qc. }
  subst t. destruct r, c. simpl in *. f_equal; [rewrite X; ring|rewrite Y; ring].
Qed.
Lemma meet_check_ok : forall e e', meet_check e e' = true -> meet_at_ends e e'.
Proof.
  intros [a b] [c d] M r O O'. unfold meet_check in M. cbn [fst snd] in *.
  assert (Sa : forall s t, (qltb 0 s && qltb 0 t) || (qltb s 0 && qltb t 0) = true -> ((0 < s /\ 0 < t) \/ (s < 0 /\ t < 0))%Qc).
  { intros s t Z. apply orb_true_iff in Z as [Z|Z]; apply andb_true_iff in Z as [Z1 Z2]; apply qltb_iff in Z1; apply qltb_iff in Z2; auto. }
  assert (Ne : forall s, negb (qeqb s 0) = true -> s <> 0%Qc) by (intros s Z Q; apply negb_true_iff in Z; subst s; discriminate Z).
  assert (Ca : forall x y, cross x y x = 0%Qc /\ cross x y y = 0%Qc) by (intros; unfold cross; split; ring).
  apply orb_true_iff in M as [M|M]; [apply orb_true_iff in M as [M|M]; [apply orb_true_iff in M as [M|M]; [apply orb_true_iff in M as [M|M]; [apply orb_true_iff in M as [M|M]|]|]|]|].
  - exfalso. apply (same_side a b c d r); auto.
  - exfalso. apply (same_side c d a b r); auto.
  - apply andb_true_iff in M as [M1 M2]. apply peqb_iff in M1. subst c. assert (r = a) by (apply (same_end a b a d r); auto; apply Ca). auto.
  - apply andb_true_iff in M as [M1 M2]. apply peqb_iff in M1. subst d. assert (r = a) by (apply (same_end a b a c r); auto using on_seg_sym; apply Ca). auto.
  - apply andb_true_iff in M as [M1 M2]. apply peqb_iff in M1. subst c. assert (r = b) by (apply (same_end a b b d r); auto; apply Ca). auto.
  - apply andb_true_iff in M as [M1 M2]. apply peqb_iff in M1. subst d. assert (r = b) by (apply (same_end a b b c r); auto using on_seg_sym; apply Ca). auto.
Qed.
Fixpoint pairs_check {X} (f : X -> X -> bool) (l : list X) : bool :=
  match l with [] => true | x :: l' => forallb (f x) l' && pairs_check f l' end.
Lemma pairs_check_ok : forall {X} (f : X -> X -> bool) (R : X -> X -> Prop) l, (forall x y, f x y = true -> R x y) -> pairs_check f l = true -> ForallOrdPairs R l.
Proof.
  intros X f R l H. induction l as [|x l IH]; intros C; [constructor|]. cbn [pairs_check] in C. apply andb_true_iff in C as [C1 C2]. constructor; auto.
  apply Forall_forall. intros y I. rewrite forallb_forall in C1. auto.
Qed.
Definition apart_check (l l' : list pt) : bool := forallb (fun v => negb (existsb (peqb v) l')) l.
Lemma apart_check_ok : forall l l', apart_check l l' = true -> apart l l'.
Proof.
  intros l l' C v I J. unfold apart_check in C. rewrite forallb_forall in C. specialize (C v I). apply negb_true_iff in C. rewrite <- not_true_iff_false in C. apply C. apply existsb_exists. exists v. split; auto. apply peqb_iff. reflexivity.
Qed.
Definition nodup_check (l : list pt) : bool := pairs_check (fun p q => negb (peqb p q)) l.
Lemma nodup_check_ok : forall l, nodup_check l = true -> NoDup l.
Proof.
  induction l as [|x l IH]; intros C; [constructor|]. unfold nodup_check in C. cbn [pairs_check] in C. apply andb_true_iff in C as [C1 C2]. constructor; [|apply IH; exact C2].
  intros I. rewrite forallb_forall in C1. specialize (C1 x I). apply negb_true_iff in C1. rewrite <- not_true_iff_false in C1. apply C1. apply peqb_iff. reflexivity.
Qed.
Example simple_merge_valid : valid_polygon simple_merge.
Proof.
  constructor.
  - intros l [<-|[<-|[]]].
    + exists (at_ 0 0), [at_ (-10) 10; at_ 0 20; at_ 20 0; at_ 0 (-20); at_ (-10) (-10)]. split; [reflexivity|]. split; [apply nodup_check_ok; vm_compute; reflexivity|cbn; lia].
    + exists (at_ 1 1), [at_ 1 2; at_ 2 2; at_ 2 1]. split; [reflexivity|]. split; [apply nodup_check_ok; vm_compute; reflexivity|cbn; lia].
  - apply (pairs_check_ok meet_check); [apply meet_check_ok|vm_compute; reflexivity].
  - apply (pairs_check_ok apart_check); [apply apart_check_ok|vm_compute; reflexivity].
  - intros h v [<-|[]] I. repeat (destruct I as [<-|I]; [vm_compute; reflexivity|]). destruct I.
  - intros A h B v E I h' J. destruct A as [|a A]; [injection E as <- <-; destruct J|]. injection E as _ E. destruct A; discriminate.
Qed.
Example C62_example : inside [simple_merge] (at_ 5 3) = true /\ inside [simple_merge] (mkC (Q2Qc (3 # 2)) (Q2Qc (3 # 2))) = false /\
  match monotone_chains (fun l => l) (fun _ _ _ => 0%nat) simple_merge with
  | Ok ms => map (fun m => piece_in m (at_ 5 3)) ms
  | _ => []
  end = [false; false; true].
Proof. vm_compute. auto. Qed.
